(* C88: components: their data and the maps of their decay channels. *)
From Coq Require Import Ascii String List Bool Arith ZArith Lia Sorted.
From Verif Require Import ResCfgModel ResCfgSpec ResCfgProofs ResCfgProofs2.
Import ListNotations.
Open Scope list_scope.
Open Scope nat_scope.

Section M.
(* ---- the maps of the decay channels ---- *)
Definition mapsOk (n : nat) (m : maps) : Prop :=
  length (mCoup m) = n /\ length (mBr m) = n /\
  (forall k, k < length (mFromCoup m) -> nth k (mFromCoup m) 0 < n /\ nth (nth k (mFromCoup m) 0) (mCoup m) 0 = k) /\
  (forall k, k < length (mFromBr m) -> nth k (mFromBr m) 0 < n /\ nth (nth k (mFromBr m) 0) (mBr m) 0 = k).
Lemma from_grow (from at_ : list nat) (n x : nat) (b : bool) :
  length at_ = n -> (forall k, k < length from -> nth k from 0 < n /\ nth (nth k from 0) at_ 0 = k) -> (b = true -> x = length from) ->
  forall k, k < length (from ++ if b then [n] else []) ->
    nth k (from ++ if b then [n] else []) 0 < S n /\ nth (nth k (from ++ if b then [n] else []) 0) (at_ ++ [x]) 0 = k.
Proof.
  intros Len H Hb k Hk. rewrite app_length in Hk. destruct (Nat.lt_ge_cases k (length from)) as [Lt|Ge].
  - rewrite app_nth1 by lia. destruct (H k Lt) as (A & B). split; [lia|]. rewrite app_nth1 by lia. exact B.
  - destruct b; cbn in Hk; [|lia]. assert (k = length from) by lia. subst k. rewrite app_nth2, Nat.sub_diag by lia. cbn [nth].
    split; [lia|]. rewrite app_nth2 by lia. rewrite Len, Nat.sub_diag. cbn. apply Hb. reflexivity.
Qed.
Lemma chanStep_ok useBr nr qn m idx ch st : mapsOk idx m -> chanStep useBr nr ((qn, m), idx) ch = Some st -> snd st = S idx /\ mapsOk (S idx) (snd (fst st)).
Proof.
  intros (A & B & C & E) H. unfold chanStep in H.
  match type of H with (match ?x with _ => _ end) = _ => destruct x as [s|]; [|discriminate] end.
  destruct (rdCoup s && negb (coupIx s =? length (mFromCoup m))) eqn:G; [discriminate|]. injection H as <-. split; [reflexivity|].
  cbn [fst snd]. unfold mapsOk. cbn [mCoup mBr mFromCoup mFromBr]. split; [rewrite app_length, A; cbn; lia|]. split; [rewrite app_length, B; cbn; lia|]. split.
  - apply (from_grow (mFromCoup m) (mCoup m) idx (coupIx s) (rdCoup s) A C). intros Hr. rewrite Hr in G. cbn in G. apply negb_false_iff, Nat.eqb_eq in G. exact G.
  - apply (from_grow (mFromBr m) (mBr m) idx (length (mFromBr m)) (rdBr s) B E). reflexivity.
Qed.
Lemma chanSteps_ok useBr nr chans : forall qn m idx st, mapsOk idx m -> foldO (chanStep useBr nr) chans ((qn, m), idx) = Some st ->
  snd st = idx + length chans /\ mapsOk (idx + length chans) (snd (fst st)).
Proof.
  induction chans as [|ch chans IH]; intros qn m idx st Hm H.
  - injection H as <-. cbn. rewrite Nat.add_0_r. auto.
  - cbn [foldO] in H. destruct (chanStep useBr nr ((qn, m), idx) ch) as [[[qn' m'] idx']|] eqn:E; [|discriminate].
    destruct (chanStep_ok _ _ _ _ _ _ _ Hm E) as (E1 & E2). cbn in E1, E2. subst idx'. cbn [length]. rewrite Nat.add_succ_r. apply (IH qn' m' (S idx)); auto.
Qed.
Lemma mapChannels_ok useBr chans m : mapChannels useBr chans = Some m ->
  (forall k, k < length (mFromCoup m) -> nth k (mFromCoup m) 0 < length chans /\ nth (nth k (mFromCoup m) 0) (mCoup m) 0 = k) /\
  (1 < length (mFromBr m) -> forall k, k < length (mFromBr m) -> nth k (mFromBr m) 0 < length chans /\ nth (nth k (mFromBr m) 0) (mBr m) 0 = k).
Proof.
  unfold mapChannels. destruct (foldO _ _ _) as [[[qn m'] idx]|] eqn:E; [|discriminate].
  assert (M0 : mapsOk 0 (Maps [] [] [] [] [])) by (repeat split; cbn in *; lia).
  destruct (chanSteps_ok _ _ _ _ _ _ _ M0 E) as (_ & M).
  cbn in M. destruct M as (_ & _ & C & B). intros H. destruct (Nat.eqb_spec (length (mFromBr m')) 0) as [Z|Z]; injection H as <-; cbn [mFromCoup mFromBr mCoup mBr].
  - split; [exact C|]. cbn. lia.
  - split; [exact C|]. intros _. exact B.
Qed.
End M.

Section R.
Context {D : Type} (L : lib D) (Law : lawful L).
Let asDd := rdD L Law.

Lemma construct_shape useBr nb id name k ps chans c : construct L useBr nb id name k ps chans = Some c ->
  cId c = id /\ cName c = name /\ cPars c = ps /\ cChans c = chans /\ mapChannels useBr chans = Some (cMaps c) /\ map (@pName D) ps = defaultNames k /\
  length chans <= totalChannels c /\
  (match cKind c with DynamicWidth r l a b => length l = length r /\ length a = length r /\ length b = length r | IntegralWidth r ig => length ig = length r | _ => True end) /\
  (match k, cKind c with
   | DynamicWidth r l a b, k' => k' = DynamicWidth (normalised L r) l a b
   | IntegralWidth r ig, k' => k' = IntegralWidth (normalised L r) ig
   | _, k' => k' = k end).
Proof.
  unfold construct. destruct (mapChannels useBr chans) as [m|]; [|discriminate].
  assert (NL : forall r, length (normalised L r) = length r) by (intros r; apply map_length).
  destruct k as [|r l a b|r ig| |l a b e|tm l a b e|ig e|tm ig e];
    [ | destruct (_ || _) eqn:G; [discriminate|] | destruct (_ || _) eqn:G; [discriminate|] | destruct (_ =? 1); [|discriminate] | destruct (_ =? 1); [|discriminate]
    | destruct (_ && _); [|discriminate] | destruct (_ =? 1); [|discriminate] | destruct (_ && _); [|discriminate] ];
    (destruct (list_eq_dec string_dec _ _) as [En|]; [|discriminate]); intros H; injection H as <-; unfold totalChannels;
    cbn [cId cName cPars cChans cMaps cKind]; (repeat (split; [first [reflexivity|exact En]|])); rewrite ?NL; try (repeat split; lia).
  - apply orb_false_iff in G. destruct G as (G1 & G2). apply Nat.ltb_ge in G1. apply negb_false_iff in G2. rewrite !andb_true_iff, !Nat.eqb_eq in G2.
    repeat split; lia.
  - apply orb_false_iff in G. destruct G as (G1 & G2). apply Nat.ltb_ge in G1. apply negb_false_iff, Nat.eqb_eq in G2. repeat split; lia.
Qed.
Lemma construct_params useBr nb id name k ps ps' chans c : construct L useBr nb id name k ps chans = Some c -> map (@pName D) ps' = map (@pName D) ps ->
  construct L useBr nb id name k ps' chans = Some (Component (cId c) (cName c) (cKind c) ps' (cChans c) (cMaps c)).
Proof.
  intros H E. unfold construct in *. destruct (mapChannels useBr chans) as [m|]; [|discriminate]. rewrite E.
  destruct k as [|r l a b|r ig| |l a b e|tm l a b e|ig e|tm ig e];
    [ | destruct (_ || _) eqn:G; [discriminate|] | destruct (_ || _) eqn:G; [discriminate|] | destruct (_ =? 1); [|discriminate] | destruct (_ =? 1); [|discriminate]
    | destruct (_ && _); [|discriminate] | destruct (_ =? 1); [|discriminate] | destruct (_ && _); [|discriminate] ];
    (destruct (list_eq_dec string_dec _ _) as [En|]; [|discriminate]); injection H as <-; reflexivity.
Qed.

(* ---- the entries of a component ---- *)
Lemma default_free (k : kind D) : NoDup (defaultNames k) /\ forall s, In s ["name"; "type"; "decaychannels"; "extradecaychannels"; "mIsobar1"; "mIsobar2"; "relAngularMom"; "exponent"; "integral"]%string -> ~ In s (defaultNames k).
Proof.
  split.
  - destruct k; cbn; repeat (constructor; [cbn; intuition discriminate|]); constructor.
  - intros s Hs Hk. destruct k; cbn in *; intuition (subst; discriminate).
Qed.
Section C.
Variables (fp fe : pars D) (c : component D).
Hypothesis Names : map (@pName D) (cPars c) = defaultNames (cKind c).
Hypothesis Total : length (cChans c) <= totalChannels c.
Lemma comp_params i p : nth_error (cPars c) i = Some p ->
  get (tComponent L fp fe c) (pName p) = Some (tParam L p (fPar fp (cId c) (0 + i)) (fPar fe (cId c) (0 + i))).
Proof.
  intros E. destruct (default_free (cKind c)) as (N & F). rewrite <- Names in N, F.
  assert (Hin : In (pName p) (map (@pName D) (cPars c))) by (apply in_map; apply nth_error_In in E; exact E).
  unfold tComponent, get. cbn [app assoc].
  destruct (String.eqb_spec "name" (pName p)) as [X|_]; [exfalso; apply (F "name"%string); [cbn; tauto|rewrite X; exact Hin]|].
  destruct (String.eqb_spec "type" (pName p)) as [X|_]; [exfalso; apply (F "type"%string); [cbn; tauto|rewrite X; exact Hin]|].
  rewrite assoc_app, (assoc_params L fp fe (cId c) 0 (cPars c) N i p E). reflexivity.
Qed.
Lemma comp_other s : In s ["decaychannels"; "extradecaychannels"; "mIsobar1"; "mIsobar2"; "relAngularMom"; "exponent"; "integral"]%string ->
  get (tComponent L fp fe c) s = assoc s ([("decaychannels"%string, YSeq (map (tChannel L c fp) (indexed (cChans c))))] ++
    (if Nat.ltb (length (cChans c)) (totalChannels c) then [("extradecaychannels"%string, YSeq (tExtra L c))] else []) ++ tOwnData L (cKind c)).
Proof.
  intros Hs. destruct (default_free (cKind c)) as (N & F). rewrite <- Names in F. unfold tComponent, get. cbn [app assoc].
  assert (E1 : String.eqb "name" s = false) by (cbn in Hs; intuition (subst; reflexivity)).
  assert (E2 : String.eqb "type" s = false) by (cbn in Hs; intuition (subst; reflexivity)).
  rewrite E1, E2, assoc_app, (assoc_none s (tParams L fp fe (cId c) 0 (cPars c))); [reflexivity|].
  rewrite names_params. apply F. cbn in *. tauto.
Qed.
Lemma comp_decay : get (tComponent L fp fe c) "decaychannels" = Some (YSeq (map (tChannel L c fp) (indexed (cChans c)))).
Proof. rewrite comp_other by (cbn; tauto). reflexivity. Qed.
Lemma comp_extra : get (tComponent L fp fe c) "extradecaychannels" = if Nat.ltb (length (cChans c)) (totalChannels c) then Some (YSeq (tExtra L c)) else None.
Proof.
  rewrite comp_other by (cbn; tauto). cbn [app assoc String.eqb Ascii.eqb Bool.eqb]. destruct (Nat.ltb _ _); [reflexivity|].
  cbn [app]. apply assoc_none. destruct (cKind c); cbn; intuition discriminate.
Qed.
Lemma comp_own s : In s ["mIsobar1"; "mIsobar2"; "relAngularMom"; "exponent"; "integral"]%string -> get (tComponent L fp fe c) s = assoc s (tOwnData L (cKind c)).
Proof.
  intros Hs. rewrite comp_other by (cbn in *; tauto). cbn [app assoc].
  assert (E1 : String.eqb "decaychannels" s = false) by (cbn in Hs; intuition (subst; reflexivity)).
  assert (E2 : String.eqb "extradecaychannels" s = false) by (cbn in Hs; intuition (subst; reflexivity)).
  rewrite E1. destruct (Nat.ltb _ _); cbn [app assoc]; rewrite ?E2; reflexivity.
Qed.
Lemma channel_key i ch s : In s ["mIsobar1"; "mIsobar2"; "relAngularMom"; "branchingRatio"; "integral"]%string ->
  get (tChannel L c fp (i, ch)) s = assoc s (tChannelData L (cKind c) i).
Proof.
  intros Hs. unfold tChannel, get. cbn [app assoc].
  assert (E1 : String.eqb "amp" s = false) by (cbn in Hs; intuition (subst; reflexivity)).
  assert (E2 : String.eqb "couplings" s = false) by (cbn in Hs; intuition (subst; reflexivity)).
  assert (E3 : String.eqb "branching" s = false) by (cbn in Hs; intuition (subst; reflexivity)).
  rewrite E1. destruct (masterCoup c i), (Nat.ltb 1 (nrBranchings c) && masterBr c i); cbn [app assoc]; rewrite ?E2, ?E3; reflexivity.
Qed.
Lemma channel_nodes : exists ns, channelNodes (tComponent L fp fe c) = Some ns /\ length ns = totalChannels c /\
  forall i t, nth_error ns i = Some t -> forall s, In s ["mIsobar1"; "mIsobar2"; "relAngularMom"; "branchingRatio"; "integral"]%string -> get t s = assoc s (tChannelData L (cKind c) i).
Proof.
  exists (map (tChannel L c fp) (indexed (cChans c)) ++ tExtra L c). split; [|split].
  - unfold channelNodes, field. rewrite comp_decay, comp_extra. cbn [bindO asSeq]. destruct (Nat.ltb_spec (length (cChans c)) (totalChannels c)); [reflexivity|].
    unfold tExtra. replace (totalChannels c - length (cChans c)) with 0 by lia. cbn. rewrite app_nil_r. reflexivity.
  - unfold tExtra. rewrite app_length, !map_length, length_indexed, seq_length. lia.
  - intros i t E s Hs. assert (Len : length (map (tChannel L c fp) (indexed (cChans c))) = length (cChans c)) by (rewrite map_length; apply length_indexed).
    destruct (Nat.lt_ge_cases i (length (cChans c))) as [Lt|Ge].
    + rewrite nth_error_app1 in E by lia. rewrite nth_error_map, nth_indexed in E. destruct (nth_error (cChans c) i) as [ch|]; [|discriminate].
      cbn in E. injection E as <-. apply channel_key, Hs.
    + rewrite nth_error_app2 in E by lia. unfold tExtra in E. rewrite Len, nth_error_map in E.
      destruct (nth_error (seq _ _) _) as [j|] eqn:Ej; [|discriminate]. cbn in E. injection E as <-.
      assert (Lt : i - length (cChans c) < totalChannels c - length (cChans c)) by (rewrite <- (seq_length (totalChannels c - length (cChans c)) (length (cChans c))); apply nth_error_Some; congruence).
      apply nth_error_nth with (d := 0) in Ej. rewrite seq_nth in Ej by exact Lt. replace j with i by lia. reflexivity.
Qed.

Variable input : list (inBin D).
Hypothesis Shape : match cKind c with DynamicWidth r l a b => length l = length r /\ length a = length r /\ length b = length r | IntegralWidth r ig => length ig = length r | _ => True end.
Hypothesis Good : goodKind L input (cKind c).
Lemma tmeans_read : map (@bTPrime D) (map (binRead L) input) = map (@bTPrime D) input.
Proof. rewrite map_map. reflexivity. Qed.
Lemma read_kind : readKind L (map (binRead L) input) (typeName (cKind c)) (tComponent L fp fe c) = Some (cKind c).
Proof.
  destruct channel_nodes as (ns & E1 & E2 & E3). unfold totalChannels in E2. unfold readKind. rewrite E1, tmeans_read.
  pose proof comp_own as Own.
  unfold optional, field. rewrite !Own by (cbn; tauto). 
  destruct (cKind c) as [|r l a b|r ig| |l a b e|tm l a b e|ig e|tm ig e]; cbn [typeName]; cbn -[all readIntegral asD asI]; try reflexivity.
  - destruct Shape as (Sl & Sa & Sb).
    rewrite (all_nth _ ns r), (all_nth _ ns l), (all_nth _ ns a), (all_nth _ ns b); try lia; [reflexivity| | | |];
      intros i t x Et Ex; rewrite (E3 i t Et) by (cbn; tauto); cbn; rewrite ?asDd; rewrite ?(rdI L Law); f_equal; apply nth_error_nth; exact Ex.
  - rewrite (all_nth _ ns r), (all_nth _ ns ig); try lia; [reflexivity| |].
    + intros i t x Et Ex. apply read_integral; [exact Law| |].
      * rewrite (E3 i t Et) by (cbn; tauto). cbn. rewrite (nth_error_nth ig i [] Ex). reflexivity.
      * cbn in Good. rewrite Forall_forall in Good. apply Good. apply nth_error_In in Ex. exact Ex.
    + intros i t x Et Ex. rewrite (E3 i t Et) by (cbn; tauto). cbn. rewrite asDd. f_equal. apply nth_error_nth. exact Ex.
  - cbn. rewrite ?asDd, ?(rdI L Law). reflexivity.
  - cbn in *. rewrite ?asDd, ?(rdI L Law). subst tm. reflexivity.
  - rewrite (read_integral L Law _ ig); [|rewrite Own by (cbn; tauto); reflexivity|exact Good]. cbn. rewrite asDd. reflexivity.
  - destruct Good as (G1 & ->). rewrite (read_integral L Law _ ig); [|rewrite Own by (cbn; tauto); reflexivity|exact G1]. cbn. rewrite asDd. reflexivity.
Qed.
End C.
Lemma read_component_object useBr input fp fe c : constructed L useBr (length input) c -> goodChannels input (cChans c) -> goodKind L input (cKind c) ->
  exists ps', readComponentObject L useBr (map (binRead L) input) (cId c) (tComponent L fp fe c) = Some (Component (cId c) (cName c) (cKind c) ps' (cChans c) (cMaps c)) /\
    sameParams (cId c) 0 fp fe (cPars c) ps'.
Proof.
  intros Hc (N & Ch) G. unfold constructed in Hc. pose proof (construct_shape _ _ _ _ _ _ _ _ Hc) as (_ & _ & _ & _ & _ & Nm & Tot & Shp & _).
  destruct (read_params L Law (tComponent L fp fe c) fp fe (cId c) (cPars c) 0 (comp_params fp fe c Nm)) as (ps' & E & Sp & Nm').
  exists ps'. split; [|exact Sp]. unfold readComponentObject. unfold optional, field.
  replace (get (tComponent L fp fe c) "type") with (Some (YScalar (typeName (cKind c)))) by reflexivity.
  replace (get (tComponent L fp fe c) "name") with (Some (YScalar (cName c))) by reflexivity.
  rewrite (comp_decay fp fe c Nm). cbn [bindO asText asSeq]. rewrite (read_kind fp fe c Nm Tot input Shp G). cbn [bindO]. rewrite <- Nm, E. cbn [bindO].
  unfold indexed. rewrite (read_channel_list L input c fp (cChans c) 0 [] N Ch). cbn [bindO app]. rewrite map_length.
  apply construct_params with (ps := cPars c); assumption.
Qed.
End R.
