(* C88: couplings, branchings, parameters of the fit; the whole model. *)
From Coq Require Import Ascii String List Bool Arith ZArith Lia.
From Verif Require Import ResCfgModel ResCfgSpec ResCfgProofs ResCfgProofs2 ResCfgProofs3.
Import ListNotations.
Open Scope list_scope.
Open Scope nat_scope.

Section R.
Context {D : Type} (L : lib D) (Law : lawful L).
(* nothing of other components changes, parameters stay, what agrees with fp agrees afterwards *)
Definition elsewhere (id : nat) (p p' : pars D) : Prop :=
  forall a, a <> id -> (forall i, fPar p' a i = fPar p a i) /\ (forall k b, fCoup p' a k b = fCoup p a k b) /\ (forall k, fBr p' a k = fBr p a k).
Definition keeps (fp : pars D) (id : nat) (p p' : pars D) : Prop :=
  elsewhere id p p' /\ (forall a i, fPar p' a i = fPar p a i) /\
  (forall k b, fCoup p id k b = fCoup fp id k b -> fCoup p' id k b = fCoup fp id k b) /\
  (forall k, fBr p id k = fBr fp id k -> fBr p' id k = fBr fp id k).
Lemma elsewhere_refl id p : elsewhere id p p.
Proof. intros a _. auto. Qed.
Lemma elsewhere_trans id p q r : elsewhere id p q -> elsewhere id q r -> elsewhere id p r.
Proof.
  intros H1 H2 a Ha. destruct (H1 a Ha) as (A & B & C). destruct (H2 a Ha) as (A' & B' & C').
  split; [|split]; intros; [rewrite A'; auto|rewrite B'; auto|rewrite C'; auto].
Qed.
Lemma keeps_refl fp id p : keeps fp id p p.
Proof. split; [apply elsewhere_refl|]. auto. Qed.
Lemma keeps_trans fp id p q r : keeps fp id p q -> keeps fp id q r -> keeps fp id p r.
Proof.
  intros (A & B & C & E) (A' & B' & C' & E'). split; [apply (elsewhere_trans id p q r); assumption|]. split; [intros; rewrite B'; auto|]. split; auto.
Qed.

Lemma setCoup_keeps fp id k b p : keeps fp id p (setCoup id k b (fCoup fp id k b) p).
Proof.
  split; [|split; [|split]].
  - intros a Ha. cbn. split; [reflexivity|]. split; [|reflexivity]. intros k' b'. destruct (Nat.eqb_spec a id); [contradiction|reflexivity].
  - reflexivity.
  - intros k' b' E. cbn. rewrite Nat.eqb_refl. cbn. destruct (Nat.eqb_spec k' k); [|exact E]. destruct (Nat.eqb_spec b' b); [|exact E]. subst. reflexivity.
  - auto.
Qed.
Lemma setCoup_at id k b x p : fCoup (setCoup (D := D) id k b x p) id k b = x.
Proof. cbn. rewrite !Nat.eqb_refl. reflexivity. Qed.
Lemma setBr_keeps fp id k p : keeps fp id p (setBr id k (fBr fp id k) p).
Proof.
  split; [|split; [|split]].
  - intros a Ha. cbn. split; [reflexivity|]. split; [reflexivity|]. intros k'. destruct (Nat.eqb_spec a id); [contradiction|reflexivity].
  - reflexivity.
  - auto.
  - intros k' E. cbn. rewrite Nat.eqb_refl. cbn. destruct (Nat.eqb_spec k' k); [|exact E]. subst. reflexivity.
Qed.
Lemma setBr_at id k x p : fBr (setBr (D := D) id k x p) id k = x.
Proof. cbn. rewrite !Nat.eqb_refl. reflexivity. Qed.
Lemma set_couplings fp id k bins : forall p, let p' := fold_left (fun p x => setCoup id k (fst x) (snd x) p) (combine bins (map (fCoup fp id k) bins)) p in
  keeps fp id p p' /\ forall b, In b bins -> fCoup p' id k b = fCoup fp id k b.
Proof.
  induction bins as [|b bins IH]; intros p; [split; [apply keeps_refl|intros b []]|]. cbn [map combine fold_left fst snd]. cbv zeta in IH |- *.
  destruct (IH (setCoup id k b (fCoup fp id k b) p)) as (K & H). split.
  - apply (keeps_trans fp id p _ _ (setCoup_keeps fp id k b p) K).
  - intros b' [<-|Hb]; [|apply H, Hb]. destruct K as (_ & _ & K & _). apply K. apply setCoup_at.
Qed.
Lemma read_pair x : readPair L (tPair L x) = Some x.
Proof. unfold readPair, tPair, tNum, asD. rewrite !(rdD L Law). destruct x. reflexivity. Qed.

Section C.
Variables (fp : pars D) (c : component D).
Hypothesis Fix : forall k, k = 0 \/ nth k (mFixed (cMaps c)) false = true -> fBr fp (cId c) k = (numOne L, numZero L).
(* c' has the same channels and maps *)
Variable c' : component D.
Hypothesis Same : cId c' = cId c /\ cMaps c' = cMaps c.
Lemma read_channel_pars i ch p : exists p', readChannelPars L c' p (i, (ch, tChannel L c fp (i, ch))) = Some p' /\ keeps fp (cId c) p p' /\
  (masterCoup c i = true -> forall b, In b (snd ch) -> fCoup p' (cId c) (nth i (mCoup (cMaps c)) 0) b = fCoup fp (cId c) (nth i (mCoup (cMaps c)) 0) b) /\
  (if Nat.ltb 1 (nrBranchings c) then masterBr c i = true -> fBr p' (cId c) (nth i (mBr (cMaps c)) 0) = fBr fp (cId c) (nth i (mBr (cMaps c)) 0)
   else fBr p' (cId c) 0 = fBr fp (cId c) 0).
Proof.
  destruct Same as (Si & Sm). unfold readChannelPars. unfold masterCoup, masterBr, nrBranchings. rewrite Si, Sm.
  fold (masterCoup c i) (masterBr c i) (nrBranchings c). set (k := nth i (mCoup (cMaps c)) 0). set (k2 := nth i (mBr (cMaps c)) 0).
  assert (X : exists p1, (if masterCoup c i then readCouplings L (cId c) k (snd ch) (tChannel L c fp (i, ch)) p else Some p) = Some p1 /\ keeps fp (cId c) p p1 /\
    (masterCoup c i = true -> forall b, In b (snd ch) -> fCoup p1 (cId c) k b = fCoup fp (cId c) k b)).
  { destruct (masterCoup c i) eqn:Mc; [|exists p; split; [reflexivity|split; [apply keeps_refl|discriminate]]].
    destruct (set_couplings fp (cId c) k (snd ch) p) as (K & H). eexists. split; [|split; [exact K|intros _; exact H]].
    unfold readCouplings, field. unfold tChannel at 1. rewrite Mc. cbn [get app assoc String.eqb Ascii.eqb Bool.eqb bindO asSeq].
    rewrite map_length, Nat.eqb_refl. fold k.
    rewrite (all_map (readPair L) (fun b => tPair L (fCoup fp (cId c) k b)) (fCoup fp (cId c) k)); [reflexivity|]. intros b _. apply read_pair. }
  destruct X as (p1 & E1 & K1 & H1). rewrite E1. cbn [bindO].
  destruct (Nat.ltb 1 (nrBranchings c)) eqn:Nb.
  - destruct (masterBr c i) eqn:Mb.
    + assert (G : get (tChannel L c fp (i, ch)) "branching" = Some (tPair L (fBr fp (cId c) k2))).
      { unfold tChannel. rewrite Nb, Mb. destruct (masterCoup c i); reflexivity. }
      unfold field. rewrite G. cbn [bindO]. rewrite read_pair. cbn [bindO].
      assert (E2 : (if nth k2 (mFixed (cMaps c)) false then (numOne L, numZero L) else fBr fp (cId c) k2) = fBr fp (cId c) k2).
      { destruct (nth k2 (mFixed (cMaps c)) false) eqn:Ef; [|reflexivity]. symmetry. apply Fix. right. exact Ef. }
      rewrite E2. eexists. split; [reflexivity|]. pose proof (setBr_keeps fp (cId c) k2 p1) as K2. split; [apply (keeps_trans fp (cId c) p p1 _ K1 K2)|]. split.
      * intros Mc b Hb. destruct K2 as (_ & _ & K2 & _). apply K2, H1; assumption.
      * intros _. apply setBr_at.
    + exists p1. split; [reflexivity|]. split; [exact K1|]. split; [exact H1|discriminate].
  - assert (E2 : (numOne L, numZero L) = fBr fp (cId c) 0) by (symmetry; apply Fix; left; reflexivity).
    rewrite E2. eexists. split; [reflexivity|]. pose proof (setBr_keeps fp (cId c) 0 p1) as K2. split; [apply (keeps_trans fp (cId c) p p1 _ K1 K2)|]. split.
    * intros Mc b Hb. destruct K2 as (_ & _ & K2 & _). apply K2, H1; assumption.
    * apply setBr_at.
Qed.
Lemma read_channels_pars chans : forall n p,
  exists p', foldO (readChannelPars L c') (combine (seq n (length chans)) (combine chans (map (tChannel L c fp) (combine (seq n (length chans)) chans)))) p = Some p' /\
  keeps fp (cId c) p p' /\
  (forall j ch, nth_error chans j = Some ch -> masterCoup c (n + j) = true -> forall b, In b (snd ch) ->
     fCoup p' (cId c) (nth (n + j) (mCoup (cMaps c)) 0) b = fCoup fp (cId c) (nth (n + j) (mCoup (cMaps c)) 0) b) /\
  (forall j, j < length chans -> if Nat.ltb 1 (nrBranchings c) then masterBr c (n + j) = true -> fBr p' (cId c) (nth (n + j) (mBr (cMaps c)) 0) = fBr fp (cId c) (nth (n + j) (mBr (cMaps c)) 0)
     else fBr p' (cId c) 0 = fBr fp (cId c) 0).
Proof.
  induction chans as [|ch chans IH]; intros n p.
  - exists p. split; [reflexivity|]. split; [apply keeps_refl|]. split; [intros [|j] ch E; discriminate|]. cbn. intros j Hj. lia.
  - destruct (read_channel_pars n ch p) as (p1 & E1 & K1 & A1 & B1). destruct (IH (S n) p1) as (p2 & E2 & K2 & A2 & B2).
    exists p2. split; [cbn [length seq combine map foldO]; rewrite E1; exact E2|]. split; [apply (keeps_trans fp (cId c) p p1 p2 K1 K2)|].
    destruct K2 as (_ & _ & K2 & K3). split.
    + intros [|j] ch' E M b Hb.
      * rewrite Nat.add_0_r in *. injection E as <-. apply K2, A1; assumption.
      * rewrite <- Nat.add_succ_comm in *. apply (A2 j ch'); assumption.
    + intros [|j] Hj.
      * rewrite Nat.add_0_r. destruct (Nat.ltb 1 (nrBranchings c)); [intros M; apply K3, B1, M|apply K3, B1].
      * rewrite <- Nat.add_succ_comm. apply B2. cbn in Hj. lia.
Qed.
End C.

Lemma take_params id (val : param D -> D) ps : forall off p, let p' := takeParams id val (combine (seq off (length ps)) ps) p in
  (forall i x, nth_error ps i = Some x -> fPar p' id (off + i) = val x) /\
  (forall a i, a <> id \/ i < off \/ off + length ps <= i -> fPar p' a i = fPar p a i) /\
  (forall a k b, fCoup p' a k b = fCoup p a k b) /\ (forall a k, fBr p' a k = fBr p a k).
Proof.
  unfold takeParams. induction ps as [|x ps IH]; intros off p; [cbn; split; [intros [|i] x E; discriminate|auto]|].
  cbn [length seq combine fold_left fst snd]. destruct (IH (S off) (setPar id off (val x) p)) as (A & B & C & E). cbv zeta. split; [|split; [|split]].
  - intros [|i] y Ey.
    + injection Ey as <-. rewrite Nat.add_0_r, B by lia. cbn. rewrite !Nat.eqb_refl. reflexivity.
    + rewrite <- Nat.add_succ_comm. apply A. exact Ey.
  - intros a i Hi. rewrite B by (destruct Hi as [Hi|Hi]; [auto|cbn in Hi; right; lia]). cbn.
    destruct (Nat.eqb_spec a id); [|reflexivity]. destruct (Nat.eqb_spec i off); [|reflexivity]. subst. cbn in Hi. lia.
  - intros a k b. rewrite C. reflexivity.
  - intros a k. rewrite E. reflexivity.
Qed.
Lemma take_elsewhere id (val : param D -> D) ps off p : elsewhere id p (takeParams id val (combine (seq off (length ps)) ps) p).
Proof.
  destruct (take_params id val ps off p) as (A & B & C & E). intros a Ha. split; [|split]; intros; [apply B; auto|apply C|apply E].
Qed.
Lemma indexed_seq {A} (l : list A) : indexed l = combine (seq 0 (length l)) l.
Proof. reflexivity. Qed.

Lemma read_component useBr input fp fe c p e : goodComponent L useBr input fp c ->
  exists c' p' e', readComponent L useBr (map (binRead L) input) (cId c) (tComponent L fp fe c) p e = Some (c', p', e') /\
    sameComponent fp fe c c' /\ samePars fp p' c /\ (forall i, i < length (cPars c) -> fPar e' (cId c) i = fPar fe (cId c) i) /\
    elsewhere (cId c) p p' /\ elsewhere (cId c) e e'.
Proof.
  intros (Hc & Hch & Hk & Fix). destruct (read_component_object L Law useBr input fp fe c Hc Hch Hk) as (ps' & E & Sp).
  pose proof (construct_shape L _ _ _ _ _ _ _ _ Hc) as (_ & _ & _ & _ & Mp & Nm & _). unfold readComponent. rewrite E. cbn [bindO].
  unfold field. rewrite (comp_decay L fp fe c Nm). cbn [bindO asSeq cId cPars].
  set (c' := Component (cId c) (cName c) (cKind c) ps' (cChans c) (cMaps c)). change (cChans c') with (cChans c).
  set (p1 := takeParams (cId c) pStart (indexed ps') p). set (e1 := takeParams (cId c) pError (indexed ps') e).
  destruct (read_channels_pars fp c Fix c' (conj eq_refl eq_refl) (cChans c) 0 p1) as (p2 & E2 & K2 & A2 & B2).
  assert (E2' : foldO (readChannelPars L c') (indexed (combine (cChans c) (map (tChannel L c fp) (indexed (cChans c))))) p1 = Some p2).
  { unfold indexed. assert (Len : length (combine (cChans c) (map (tChannel L c fp) (combine (seq 0 (length (cChans c))) (cChans c)))) = length (cChans c)).
    { rewrite combine_length, map_length, combine_length, seq_length. lia. }
    rewrite Len. exact E2. }
  rewrite E2'. cbn [bindO]. exists c', p2, e1. split; [reflexivity|].
  destruct Sp as (Len & Sp). destruct (take_params (cId c) pStart ps' 0 p) as (T1 & _). destruct (take_params (cId c) pError ps' 0 e) as (T2 & _). cbn [Nat.add] in T1, T2, Sp.
  assert (Nth : forall i, i < length (cPars c) -> exists a b, nth_error (cPars c) i = Some a /\ nth_error ps' i = Some b).
  { intros i Hi. destruct (nth_error (cPars c) i) as [a|] eqn:Ea; [|apply nth_error_None in Ea; lia].
    destruct (nth_error ps' i) as [b|] eqn:Eb; [|apply nth_error_None in Eb; lia]. eauto. }
  destruct K2 as (K21 & K22 & K23 & K24).
  destruct (mapChannels_ok useBr (cChans c) (cMaps c) Mp) as (Mc & Mb).
  split; [|split; [|split; [|split]]].
  - unfold sameComponent, c'. cbn. repeat (split; [reflexivity|]). split; [exact Len|exact Sp].
  - unfold samePars. split; [|split].
    + intros i Hi. rewrite K22. destruct (Nth i Hi) as (a & b & Ea & Eb). unfold p1. rewrite indexed_seq, (T1 i b Eb). apply (Sp i a b Ea Eb).
    + intros k ch b Hk2 Ech Hb. destruct (Mc k Hk2) as (Lt & Er). specialize (A2 (nth k (mFromCoup (cMaps c)) 0) ch Ech). cbn [Nat.add] in A2. rewrite Er in A2.
      apply A2; [|exact Hb]. unfold masterCoup. rewrite Er. apply Nat.eqb_refl.
    + intros Hne k Hk2. assert (Hl : 0 < length (cChans c)) by (destruct (cChans c); [contradiction|cbn; lia]).
      unfold nrBranchings in *. destruct (Nat.ltb_spec 1 (length (mFromBr (cMaps c)))) as [Lt|Ge].
      * destruct (Mb Lt k Hk2) as (Lt2 & Er). specialize (B2 (nth k (mFromBr (cMaps c)) 0) Lt2). cbn [Nat.add] in B2. rewrite Er in B2.
        apply B2. unfold masterBr. rewrite Er. apply Nat.eqb_refl.
      * assert (k = 0) by lia. subst k. apply (B2 0 Hl).
  - intros i Hi. destruct (Nth i Hi) as (a & b & Ea & Eb). unfold e1. rewrite indexed_seq, (T2 i b Eb). apply (Sp i a b Ea Eb).
  - apply (elsewhere_trans (cId c) p p1 p2); [apply (take_elsewhere (cId c) pStart ps' 0 p)|exact K21].
  - apply (take_elsewhere (cId c) pError ps' 0 e).
Qed.

(* what was read for the components with numbers below n stays *)
Definition below (n : nat) (p p' : pars D) : Prop :=
  forall a, a < n -> (forall i, fPar p' a i = fPar p a i) /\ (forall k b, fCoup p' a k b = fCoup p a k b) /\ (forall k, fBr p' a k = fBr p a k).
Lemma below_trans n p q r : below n p q -> below n q r -> below n p r.
Proof.
  intros H1 H2 a Ha. destruct (H1 a Ha) as (A & B & C). destruct (H2 a Ha) as (A' & B' & C').
  split; [|split]; intros; [rewrite A'; auto|rewrite B'; auto|rewrite C'; auto].
Qed.
Lemma below_else n id p q : elsewhere id p q -> n <= id -> below n p q.
Proof. intros H Hn a Ha. apply H. lia. Qed.
Lemma below_less n m p q : below m p q -> n <= m -> below n p q.
Proof. intros H Hn a Ha. apply H. lia. Qed.
Lemma samePars_below fp p q c n : samePars fp p c -> below n p q -> cId c < n -> samePars fp q c.
Proof.
  intros (A & B & C) H Hn. destruct (H (cId c) Hn) as (A' & B' & C'). split; [|split].
  - intros i Hi. rewrite A'. apply A, Hi.
  - intros k ch b H1 H2 H3. rewrite B'. apply (B k ch b); assumption.
  - intros H1 k H2. rewrite C'. apply C; assumption.
Qed.
Lemma read_component_list useBr input fp fe l : forall before p e, Forall (goodComponent L useBr input fp) l ->
  map (@cId D) l = seq (length before) (length l) -> NoDup (map (@cName D) before ++ map (@cName D) l) ->
  exists l' p' e', readComponentList L useBr (map (binRead L) input) before (map (tComponent L fp fe) l) p e = Some (before ++ l', p', e') /\
    Forall2 (sameComponent fp fe) l l' /\ Forall (samePars fp p') l /\ (forall c i, In c l -> i < length (cPars c) -> fPar e' (cId c) i = fPar fe (cId c) i) /\
    below (length before) p p' /\ below (length before) e e' /\ length l' = length l.
Proof.
  induction l as [|c l IH]; intros before p e G Ids N.
  - exists [], p, e. cbn. rewrite app_nil_r. repeat split; auto. intros c i [].
  - inversion G as [|? ? G1 G2]; subst. cbn [map length seq] in Ids. injection Ids as Id0 Ids.
    destruct (read_component useBr input fp fe c p e G1) as (c' & p1 & e1 & E1 & S1 & P1 & F1 & K1 & K2).
    assert (Nm : cName c' = cName c) by apply S1.
    destruct (IH (before ++ [c']) p1 e1 G2) as (l' & p2 & e2 & E2 & S2 & P2 & F2 & B1 & B2 & Len).
    { rewrite app_length. cbn. rewrite Nat.add_1_r. exact Ids. }
    { rewrite map_app. cbn [map]. rewrite Nm, <- app_assoc. exact N. }
    rewrite app_length in B1, B2. cbn in B1, B2. rewrite Nat.add_1_r in B1, B2.
    exists (c' :: l'), p2, e2. split; [|split; [|split; [|split; [|split; [|split]]]]].
    + cbn [map readComponentList]. rewrite <- Id0, E1. cbn [bindO].
      destruct (existsb (fun b => String.eqb (cName b) (cName c')) before) eqn:Ex.
      * exfalso. apply existsb_exists in Ex. destruct Ex as (y & Hy & Ey). apply String.eqb_eq in Ey. cbn [map] in N. apply NoDup_remove_2 in N.
        apply N. apply in_or_app. left. rewrite <- Nm, <- Ey. apply in_map, Hy.
      * rewrite E2, <- app_assoc. reflexivity.
    + constructor; assumption.
    + constructor; [|exact P2]. apply (samePars_below fp p1 p2 c (S (length before))); [exact P1|exact B1|lia].
    + intros c0 i [<-|Hc] Hi; [|apply F2; assumption]. destruct (B2 (cId c)) as (A & _); [lia|]. rewrite A. apply F1, Hi.
    + apply (below_trans _ p p1 p2); [apply (below_else _ (cId c)); [exact K1|lia]|apply (below_less _ _ _ _ B1); lia].
    + apply (below_trans _ e e1 e2); [apply (below_else _ (cId c)); [exact K2|lia]|apply (below_less _ _ _ _ B2); lia].
    + cbn. lia.
Qed.

(* ---- final-state mass dependence ---- *)
Definition goodFun (g : string * list (param D)) : Prop :=
  map (@pName D) (snd g) = formulaPars L (fst g) /\ NoDup (formulaPars L (fst g)) /\ ~ In "formula"%string (formulaPars L (fst g)).
Lemma read_fsmd_bin fp fe id off g : goodFun g -> exists ps', readFsmdBin L (tFsmdBin L fp fe id off g) = Some (fst g, ps') /\ sameParams id off fp fe (snd g) ps'.
Proof.
  intros (H1 & H2 & H3). destruct (read_params L Law (tFsmdBin L fp fe id off g) fp fe id (snd g) off) as (ps' & E & Sp & _).
  - intros i p Ep. unfold tFsmdBin, get. cbn [app assoc]. rewrite <- H1 in H2, H3.
    destruct (String.eqb_spec "formula" (pName p)) as [X|_]; [exfalso; apply H3; rewrite X; apply in_map; apply nth_error_In in Ep; exact Ep|].
    apply assoc_params; assumption.
  - exists ps'. split; [|exact Sp]. unfold readFsmdBin. unfold tFsmdBin at 1. unfold field.
    replace (get (tFsmdBin L fp fe id off g) "formula") with (Some (YScalar (fst g))) by reflexivity.
    cbn [bindO asText]. rewrite <- H1, E. reflexivity.
Qed.
Lemma read_fsmd_bins fp fe id gs : forall off p e, Forall goodFun gs ->
  exists gs' p' e', readFsmdBins L id off (tFsmdBins L fp fe id off gs) p e = Some (gs', p', e') /\ length gs' = length gs /\
    (forall n f g, nth_error gs n = Some f -> nth_error gs' n = Some g -> fst g = fst f /\ sameParams id (off + offset gs n) fp fe (snd f) (snd g)) /\
    (forall i, i < list_sum (map (fun g => length (snd g)) gs) -> fPar p' id (off + i) = fPar fp id (off + i) /\ fPar e' id (off + i) = fPar fe id (off + i)) /\
    (forall i, i < off -> fPar p' id i = fPar p id i /\ fPar e' id i = fPar e id i) /\ elsewhere id p p' /\ elsewhere id e e'.
Proof.
  induction gs as [|g gs IH]; intros off p e G.
  - exists [], p, e. cbn. repeat split; auto; try lia; destruct n; discriminate.
  - inversion G as [|? ? G1 G2]; subst. destruct (read_fsmd_bin fp fe id off g G1) as (ps' & E & (Len & Sp)).
    set (p1 := takeParams id pStart (map (fun x => (off + fst x, snd x)) (indexed ps')) p).
    set (e1 := takeParams id pError (map (fun x => (off + fst x, snd x)) (indexed ps')) e).
    destruct (IH (off + length (snd g)) p1 e1 G2) as (gs' & p2 & e2 & E2 & L2 & S2 & V2 & O2 & K1 & K2).
    destruct (take_params id pStart ps' off p) as (T1 & U1 & _). destruct (take_params id pError ps' off e) as (T2 & U2 & _).
    unfold p1, e1 in *. rewrite !indexed_shift in *.
    exists ((fst g, ps') :: gs'), p2, e2. split; [|split; [|split; [|split; [|split; [|split]]]]].
    + cbn [tFsmdBins readFsmdBins]. rewrite E. cbn [bindO fst snd]. rewrite !indexed_shift, Len. rewrite Len in E2. rewrite E2. reflexivity.
    + cbn. lia.
    + intros [|n] f h Ef Eh.
      * injection Ef as <-. injection Eh as <-. split; [reflexivity|]. unfold offset. cbn. rewrite Nat.add_0_r. split; assumption.
      * cbn [nth_error] in Ef, Eh. destruct (S2 n f h Ef Eh) as (A & B). split; [exact A|]. unfold offset in *. cbn [firstn map list_sum fold_right] in *.
        rewrite Nat.add_assoc. exact B.
    + intros i Hi. cbn [map list_sum fold_right] in Hi. destruct (Nat.lt_ge_cases i (length (snd g))) as [Lt|Ge].
      * destruct (O2 (off + i)) as (A & B); [lia|]. rewrite A, B.
        destruct (nth_error (snd g) i) as [a|] eqn:Ea; [|apply nth_error_None in Ea; lia].
        destruct (nth_error ps' i) as [b|] eqn:Eb; [|apply nth_error_None in Eb; lia].
        rewrite (T1 i b Eb), (T2 i b Eb). split; apply (Sp i a b Ea Eb).
      * unfold list_sum in V2. specialize (V2 (i - length (snd g))). replace (off + length (snd g) + (i - length (snd g))) with (off + i) in V2 by lia. apply V2. lia.
    + intros i Hi. destruct (O2 i) as (A & B); [lia|]. rewrite A, B. rewrite U1, U2 by (right; left; exact Hi). auto.
    + apply (elsewhere_trans id p _ p2 (take_elsewhere id pStart ps' off p) K1).
    + apply (elsewhere_trans id e _ e2 (take_elsewhere id pError ps' off e) K2).
Qed.
Lemma tFsmdBins_single fp fe id g : tFsmdBins L fp fe id 0 [g] = [tFsmdBin L fp fe id 0 g].
Proof. reflexivity. Qed.
Lemma length_tFsmdBins fp fe id gs : forall off, length (tFsmdBins L fp fe id off gs) = length gs.
Proof. induction gs as [|g gs IH]; intros off; [reflexivity|]. cbn. rewrite IH. reflexivity. Qed.
Lemma read_fsmd nrBins t fp fe f p e : get t "finalStateMassDependence" = Some (tFsmd L fp fe f) ->
  length (fFuns f) = (if fSame f then 1 else nrBins) -> Forall goodFun (fFuns f) ->
  exists f' p' e', readFsmd L nrBins (fId f) t p e = Some (Some f', p', e') /\ sameFsmd fp fe f f' /\
    (forall i, i < list_sum (map (fun g => length (snd g)) (fFuns f)) -> fPar p' (fId f) i = fPar fp (fId f) i /\ fPar e' (fId f) i = fPar fe (fId f) i) /\
    elsewhere (fId f) p p' /\ elsewhere (fId f) e e'.
Proof.
  intros Hg Hl G. destruct (read_fsmd_bins fp fe (fId f) (fFuns f) 0 p e G) as (gs' & p' & e' & E & Len & S1 & V & _ & K1 & K2).
  exists (Fsmd (fId f) (fSame f) gs'), p', e'. split; [|split; [|split; [|split; assumption]]].
  - unfold readFsmd. rewrite Hg. unfold tFsmd. destruct (fSame f).
    + destruct (fFuns f) as [|g [|h r]]; try discriminate. rewrite tFsmdBins_single in E. unfold tFsmdBin in *. rewrite E. reflexivity.
    + rewrite E. cbn [bindO]. rewrite Len, Hl, Nat.eqb_refl. reflexivity.
  - unfold sameFsmd. cbn. split; [reflexivity|]. split; [reflexivity|]. split; [exact Len|]. exact S1.
  - exact V.
Qed.

(* ---- the model ---- *)
Lemma read_model useBr input m f fp fe t : get t "model" = Some (tModel L m f fp fe) -> goodModel L useBr input fp m -> mFsmd m = Some f ->
  exists m' fp' fe', readModel L useBr (map (binRead L) input) t = Some (m', fp', fe') /\ sameFit m m' fp fe fp' fe'.
Proof.
  intros Ht (Ids & Nm & Gc & Gf) Ef. specialize (Gf f Ef). destruct Gf as (Fi & Fl & Fg).
  destruct (read_component_list useBr input fp fe (mComps m) [] (noPars L) (noPars L) Gc Ids Nm) as (l' & p1 & e1 & E1 & S1 & P1 & F1 & _ & _ & Len).
  assert (Gfun : Forall goodFun (fFuns f)) by (apply Forall_forall; intros g Hg; apply Fg, Hg).
  destruct (read_fsmd (length input) (tModel L m f fp fe) fp fe f p1 e1 eq_refl Fl Gfun) as (f' & p2 & e2 & E2 & S2 & V2 & K1 & K2).
  exists (FitModel l' (Some f') (mAnchors m)), p2, e2. split.
  - unfold readModel. rewrite Ht. cbn [bindO]. unfold readModelAnchors, field.
    replace (get (tModel L m f fp fe) "anchorwave") with (Some (YSeq (map tAnchor (mAnchors m)))) by reflexivity.
    replace (get (tModel L m f fp fe) "components") with (Some (YSeq (map (tComponent L fp fe) (mComps m)))) by reflexivity.
    cbn [bindO asSeq]. rewrite all_anchors. cbn [bindO]. rewrite E1. cbn [bindO app]. rewrite map_length, Len, <- Fi, E2. reflexivity.
  - assert (Lt : forall c, In c (mComps m) -> cId c < length (mComps m)).
    { intros c Hc. assert (X : In (cId c) (seq 0 (length (mComps m)))) by (rewrite <- Ids; apply in_map, Hc). apply in_seq in X. lia. }
    assert (B1 : below (length (mComps m)) p1 p2) by (apply (below_else _ (fId f)); [exact K1|lia]).
    assert (B2 : below (length (mComps m)) e1 e2) by (apply (below_else _ (fId f)); [exact K2|lia]).
    unfold sameFit. cbn [mAnchors mComps mFsmd]. split; [reflexivity|]. split; [exact S1|]. split; [|split].
    + intros g Eg. rewrite Ef in Eg. injection Eg as <-. exists f'. split; [reflexivity|]. split; [exact S2|exact V2].
    + rewrite Forall_forall in P1 |- *. intros c Hc. apply (samePars_below fp p1 p2 c (length (mComps m))); [apply P1, Hc|exact B1|apply Lt, Hc].
    + intros c i Hc Hi. destruct (B2 (cId c) (Lt c Hc)) as (A & _). rewrite A. apply F1; assumption.
Qed.
End R.
