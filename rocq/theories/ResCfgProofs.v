(* C88: what the calls of the emitter build. *)
From Coq Require Import Ascii String List Bool Arith ZArith Lia.
From Verif Require Import ResCfgModel ResCfgSpec.
Import ListNotations.
Open Scope list_scope.
Open Scope nat_scope.

Definition table := list (string * yaml).
Lemma loads_app s a b : loads s (a ++ b) = match loads s a with Some s' => loads s' b | None => None end.
Proof. revert s. induction a as [|c a IH]; intros s; [reflexivity|]. cbn [app loads]. destruct (load1 s c); auto. Qed.
Definition node (tab : table) (e : list call) (t : yaml) (tab' : table) : Prop := forall o, loads (Loader o tab None None) e = feed t o tab'.
Definition fields (tab : table) (e : list call) (kvs : list (string * yaml)) (tab' : table) : Prop :=
  forall a l o, loads (Loader (OMap a l None :: o) tab None None) e = Some (Loader (OMap a (rev kvs ++ l) None :: o) tab' None None).
Definition items (tab : table) (e : list call) (ts : list yaml) (tab' : table) : Prop :=
  forall a l o, loads (Loader (OSeq a l :: o) tab None None) e = Some (Loader (OSeq a (rev ts ++ l) :: o) tab' None None).

Lemma node_text tab s : node tab [Text s] (YScalar s) tab.
Proof. intros o. cbn. destruct (feed (YScalar s) o tab); reflexivity. Qed.
Lemma node_text_v tab s : node tab [Value; Text s] (YScalar s) tab.
Proof. intros o. cbn. destruct (feed (YScalar s) o tab); reflexivity. Qed.
Lemma node_flow tab e t tab' : node tab e t tab' -> node tab ([Flow] ++ e ++ [Block]) t tab'.
Proof. intros H o. cbn [app loads load1]. rewrite loads_app, H. destruct (feed t o tab'); reflexivity. Qed.
Lemma node_seq tab e ts tab' : items tab e ts tab' -> node tab ([BeginSeq] ++ e ++ [EndSeq]) (YSeq ts) tab'.
Proof.
  intros H o. cbn [app loads load1 document pending opened anchors]. rewrite loads_app, H. cbn [loads load1 document opened anchors register].
  rewrite app_nil_r, rev_involutive. destruct (feed (YSeq ts) o tab'); reflexivity.
Qed.
Lemma node_seq_anchor n tab e ts tab' : items tab e ts tab' -> node tab ([Anchor n; BeginSeq] ++ e ++ [EndSeq]) (YSeq ts) ((n, YSeq ts) :: tab').
Proof.
  intros H o. cbn [app loads load1 document pending opened anchors]. rewrite loads_app, H. cbn [loads load1 document opened anchors register].
  rewrite app_nil_r, rev_involutive. destruct (feed (YSeq ts) o _); reflexivity.
Qed.
Lemma node_alias n t tab : assoc n tab = Some t -> node tab [Alias n] t tab.
Proof. intros H o. cbn [loads load1 document anchors opened]. rewrite H. destruct (feed t o tab); reflexivity. Qed.
Lemma node_map tab e kvs tab' : fields tab e kvs tab' -> node tab ([BeginMap] ++ e ++ [EndMap]) (YMap kvs) tab'.
Proof.
  intros H o. cbn [app loads load1 document pending opened anchors]. rewrite loads_app, H. cbn [loads load1 document opened anchors register].
  rewrite app_nil_r, rev_involutive. destruct (feed (YMap kvs) o tab'); reflexivity.
Qed.
Lemma fields_nil tab : fields tab [] [] tab.
Proof. intros a l o. reflexivity. Qed.
Lemma fields_app tab e1 k1 tab1 e2 k2 tab2 : fields tab e1 k1 tab1 -> fields tab1 e2 k2 tab2 -> fields tab (e1 ++ e2) (k1 ++ k2) tab2.
Proof. intros H1 H2 a l o. rewrite loads_app, H1, H2, rev_app_distr, app_assoc. reflexivity. Qed.
Lemma fields_one tab k e t tab' : node tab e t tab' -> fields tab ([Key; Text k; Value] ++ e) [(k, t)] tab'.
Proof. intros H a l o. cbn [app loads load1 document pending opened anchors register feed]. rewrite H. reflexivity. Qed.
Lemma fields_kv tab k v : fields tab (kv k v) [(k, YScalar v)] tab.
Proof. apply (fields_one tab k [Text v]), node_text. Qed.
Lemma fields_flat {A} tab (f : A -> list call) (g : A -> list (string * yaml)) l : (forall x, In x l -> fields tab (f x) (g x) tab) ->
  fields tab (flat_map f l) (flat_map g l) tab.
Proof.
  induction l as [|x l IH]; intros H; [apply fields_nil|]. cbn [flat_map]. apply (fields_app tab (f x) (g x) tab); [apply H; left; reflexivity|].
  apply IH. intros y Hy. apply H. right. exact Hy.
Qed.
Lemma items_nil tab : items tab [] [] tab.
Proof. intros a l o. reflexivity. Qed.
Lemma items_app tab e1 k1 tab1 e2 k2 tab2 : items tab e1 k1 tab1 -> items tab1 e2 k2 tab2 -> items tab (e1 ++ e2) (k1 ++ k2) tab2.
Proof. intros H1 H2 a l o. rewrite loads_app, H1, H2, rev_app_distr, app_assoc. reflexivity. Qed.
Lemma items_one tab e t tab' : node tab e t tab' -> items tab e [t] tab'.
Proof. intros H a l o. rewrite H. reflexivity. Qed.
Lemma items_cons tab e t tab1 es ts tab2 : node tab e t tab1 -> items tab1 es ts tab2 -> items tab (e ++ es) (t :: ts) tab2.
Proof. intros H1 H2. apply (items_app tab e [t] tab1); [apply items_one|]; auto. Qed.
Lemma items_flat {A} tab (f : A -> list call) (g : A -> yaml) l : (forall x, In x l -> node tab (f x) (g x) tab) ->
  items tab (flat_map f l) (map g l) tab.
Proof.
  induction l as [|x l IH]; intros H; [apply items_nil|]. cbn [flat_map map]. apply (items_cons tab (f x) (g x) tab); [apply H; left; reflexivity|].
  apply IH. intros y Hy. apply H. right. exact Hy.
Qed.
Lemma items_texts tab l : items tab (map Text l) (map YScalar l) tab.
Proof.
  induction l as [|x l IH]; [apply items_nil|]. cbn [map]. change (Text x :: map Text l) with ([Text x] ++ map Text l).
  apply (items_cons tab [Text x] (YScalar x) tab); [apply node_text|exact IH].
Qed.
Lemma load_node e t tab' : node [] e t tab' -> loadFile e = Some t.
Proof. intros H. unfold loadFile. rewrite (H []). reflexivity. Qed.

Section W.
Context {D : Type} (L : lib D).
(* ---- the trees the parts of the file describe ---- *)
Definition tNum (x : D) : yaml := YScalar (showD L x).
Definition tQuality (q : list (string * D)) : yaml := YMap (map (fun e => (fst e, tNum (snd e))) q).
Definition tWave (w : wave D) : yaml :=
  YMap ([("name"%string, YScalar (wName w))] ++ (if numGe0 L (wLow w) then [("massLower"%string, tNum (wLow w))] else []) ++
    (if numGe0 L (wUp w) then [("massUpper"%string, tNum (wUp w))] else [])).
Definition tWaves (b : inBin D) : yaml := YSeq (map tWave (bWaves b)).
Definition tBin (b : inBin D) : yaml :=
  YMap ([("name"%string, YScalar (bName b))] ++ [("tPrimeMean"%string, tNum (bTPrime b))] ++
    (if numEq L (bRescale b) (numOne L) then [] else [("rescaleErrors"%string, tNum (bRescale b))]) ++
    (match bSys b with [] => [] | s => [("systematics"%string, YSeq (map YScalar s))] end) ++ [("waves"%string, tWaves b)]).
Definition tAnchor (a : string * string) : yaml := YSeq [YScalar (fst a); YScalar (snd a)].
Definition tParam (p : param D) (v e : D) : yaml :=
  YMap ([("val"%string, tNum v)] ++ [("error"%string, tNum e)] ++ (if pHasLower p then [("lower"%string, tNum (pLower p))] else []) ++
    (if pHasUpper p then [("upper"%string, tNum (pUpper p))] else []) ++ [("step"%string, tNum (pStep p))] ++ [("fix"%string, YScalar (showB L (pFix p)))]).
Definition tPair (x : D * D) : yaml := YSeq [tNum (fst x); tNum (snd x)].
Definition tIntegral (ig : list (D * D)) : list (string * yaml) := [("integral"%string, YSeq (map tPair ig))].
Definition tChannelData (k : kind D) (i : nat) : list (string * yaml) :=
  match k with
  | DynamicWidth r l a b =>
      [("mIsobar1"%string, tNum (nth i a (numZero L)))] ++ [("mIsobar2"%string, tNum (nth i b (numZero L)))] ++
      [("relAngularMom"%string, YScalar (showI L (nth i l 0%Z)))] ++ [("branchingRatio"%string, tNum (nth i r (numZero L)))]
  | IntegralWidth r ig => tIntegral (nth i ig []) ++ [("branchingRatio"%string, tNum (nth i r (numZero L)))]
  | _ => []
  end.
Definition tChannel (c : component D) (fp : pars D) (ich : nat * (string * list nat)) : yaml :=
  let '(i, ch) := ich in
  YMap ([("amp"%string, YScalar (fst ch))] ++
    (if masterCoup c i then [("couplings"%string, YSeq (map (fun b => tPair (fCoup fp (cId c) (nth i (mCoup (cMaps c)) 0) b)) (snd ch)))] else []) ++
    (if Nat.ltb 1 (nrBranchings c) && masterBr c i then [("branching"%string, tPair (fBr fp (cId c) (nth i (mBr (cMaps c)) 0)))] else []) ++
    tChannelData (cKind c) i).
Definition tOwnData (k : kind D) : list (string * yaml) :=
  match k with
  | ExpBg l a b e | TPrimeBg _ l a b e => [("mIsobar1"%string, tNum a)] ++ [("mIsobar2"%string, tNum b)] ++ [("relAngularMom"%string, YScalar (showI L l))] ++ [("exponent"%string, tNum e)]
  | ExpBgInt ig e | TPrimeBgInt _ ig e => tIntegral ig ++ [("exponent"%string, tNum e)]
  | _ => []
  end.
Definition tParams (fp fe : pars D) (id off : nat) (ps : list (param D)) : list (string * yaml) :=
  flat_map (fun x => [(pName (snd x), tParam (snd x) (fPar fp id (off + fst x)) (fPar fe id (off + fst x)))]) (indexed ps).
Definition tExtra (c : component D) : list yaml :=
  map (fun i => YMap (tChannelData (cKind c) i)) (seq (length (cChans c)) (totalChannels c - length (cChans c))).
Definition tComponent (fp fe : pars D) (c : component D) : yaml :=
  YMap ([("name"%string, YScalar (cName c))] ++ [("type"%string, YScalar (typeName (cKind c)))] ++ tParams fp fe (cId c) 0 (cPars c) ++
    [("decaychannels"%string, YSeq (map (tChannel c fp) (indexed (cChans c))))] ++
    (if Nat.ltb (length (cChans c)) (totalChannels c) then [("extradecaychannels"%string, YSeq (tExtra c))] else []) ++ tOwnData (cKind c)).
Definition tFsmdBin (fp fe : pars D) (id off : nat) (f : string * list (param D)) : yaml :=
  YMap ([("formula"%string, YScalar (fst f))] ++ tParams fp fe id off (snd f)).
Fixpoint tFsmdBins (fp fe : pars D) (id off : nat) (l : list (string * list (param D))) : list yaml :=
  match l with [] => [] | f :: r => tFsmdBin fp fe id off f :: tFsmdBins fp fe id (off + length (snd f)) r end.

Lemma fields_if tab (b : bool) e k : fields tab e k tab -> fields tab (if b then e else []) (if b then k else []) tab.
Proof. destruct b; intros H; [exact H|apply fields_nil]. Qed.
Lemma fields_unless tab (b : bool) e k : fields tab e k tab -> fields tab (if b then [] else e) (if b then [] else k) tab.
Proof. destruct b; intros H; [apply fields_nil|exact H]. Qed.
Definition closes (tab : table) (e : list call) (kvs : list (string * yaml)) (tab' : table) : Prop :=
  forall l o, loads (Loader (OMap None l None :: o) tab None None) e = feed (YMap (rev l ++ kvs)) o tab'.
Lemma closes_last tab e k tab' : fields tab e k tab' -> closes tab (e ++ [EndMap]) k tab'.
Proof.
  intros H l o. rewrite loads_app, H. cbn [loads load1 document opened anchors register]. rewrite rev_app_distr, rev_involutive.
  destruct (feed (YMap (rev l ++ k)) o tab'); reflexivity.
Qed.
Lemma closes_app tab e1 k1 tab1 e2 k2 tab2 : fields tab e1 k1 tab1 -> closes tab1 e2 k2 tab2 -> closes tab (e1 ++ e2) (k1 ++ k2) tab2.
Proof. intros H1 H2 l o. rewrite loads_app, H1, H2, rev_app_distr, rev_involutive, app_assoc. reflexivity. Qed.
Lemma node_closed tab e k tab' : closes tab e k tab' -> node tab ([BeginMap] ++ e) (YMap k) tab'.
Proof. intros H o. cbn [app loads load1 document pending opened anchors]. rewrite H. reflexivity. Qed.

Lemma node_wave tab w : node tab (writeWave L w) (tWave w) tab.
Proof.
  unfold writeWave, tWave. apply node_closed. eapply closes_app; [apply fields_kv|]. eapply closes_app; [apply fields_if, fields_kv|].
  apply closes_last, fields_if, fields_kv.
Qed.
Lemma node_pair tab x : node tab (writePair L x) (tPair x) tab.
Proof.
  unfold writePair, tPair. apply (node_seq tab [Text (showD L (fst x)); Text (showD L (snd x))]). apply (items_texts tab [showD L (fst x); showD L (snd x)]).
Qed.
Lemma fields_integral tab ig : fields tab (writeIntegral L ig) (tIntegral ig) tab.
Proof.
  unfold writeIntegral, tIntegral.
  assert (E : [Key; Text "integral"; Value; Flow; BeginSeq] ++ flat_map (writePair L) ig ++ [EndSeq; Block] =
    [Key; Text "integral"%string; Value] ++ [Flow] ++ ([BeginSeq] ++ flat_map (writePair L) ig ++ [EndSeq]) ++ [Block]) by (rewrite <- !app_assoc; reflexivity).
  rewrite E. apply fields_one, node_flow, node_seq, items_flat. intros x _. apply node_pair.
Qed.
Lemma node_param tab p v e : fields tab (writeParam L p v e) [(pName p, tParam p v e)] tab.
Proof.
  unfold writeParam, tParam. apply (fields_one tab (pName p) ([BeginMap] ++ _)). apply node_closed.
  eapply closes_app; [apply fields_kv|]. eapply closes_app; [apply fields_kv|]. eapply closes_app; [apply fields_if, fields_kv|].
  eapply closes_app; [apply fields_if, fields_kv|]. eapply closes_app; [apply fields_kv|]. apply closes_last, fields_kv.
Qed.
Lemma fields_channel_data tab k i : fields tab (writeChannelData L k i) (tChannelData k i) tab.
Proof.
  destruct k; cbn [writeChannelData tChannelData]; try apply fields_nil.
  - eapply fields_app; [apply fields_kv|]. eapply fields_app; [apply fields_kv|]. eapply fields_app; [apply fields_kv|]. apply fields_kv.
  - eapply fields_app; [apply fields_integral|]. apply fields_kv.
Qed.
Lemma node_channel tab c fp ich : node tab (writeChannel L c fp ich) (tChannel c fp ich) tab.
Proof.
  destruct ich as [i ch]. unfold writeChannel, tChannel. apply node_closed. eapply closes_app; [apply fields_kv|].
  eapply closes_app.
  { apply fields_if. match goal with |- fields _ (_ ++ ?m ++ _) _ _ => apply (fields_one tab "couplings" ([BeginSeq] ++ m ++ [EndSeq])) end.
    apply node_seq, items_flat. intros b _. apply (node_flow tab (writePair L _)), node_pair. }
  eapply closes_app.
  { apply fields_if. match goal with |- fields _ (_ ++ ?m ++ _) _ _ => apply (fields_one tab "branching" ([Flow] ++ m ++ [Block])) end.
    apply node_flow, node_pair. }
  apply closes_last, fields_channel_data.
Qed.
Lemma fields_own tab k : fields tab (writeOwnData L k) (tOwnData k) tab.
Proof.
  destruct k; cbn [writeOwnData tOwnData]; try apply fields_nil;
    try (eapply fields_app; [apply fields_kv|]; eapply fields_app; [apply fields_kv|]; eapply fields_app; apply fields_kv);
    (eapply fields_app; [apply fields_integral|]; apply fields_kv).
Qed.
Lemma fields_params tab fp fe id off ps : fields tab (flat_map (fun x => writeParam L (snd x) (fPar fp id (off + fst x)) (fPar fe id (off + fst x))) (indexed ps))
  (tParams fp fe id off ps) tab.
Proof. apply fields_flat. intros x _. apply node_param. Qed.
Lemma node_component tab fp fe c : node tab (writeComponent L fp fe c) (tComponent fp fe c) tab.
Proof.
  unfold writeComponent, tComponent. apply node_closed. eapply closes_app; [apply fields_kv|]. eapply closes_app; [apply fields_kv|].
  eapply closes_app; [apply (fields_params tab fp fe (cId c) 0)|].
  match goal with |- closes _ (?h ++ ?m ++ [EndSeq] ++ ?r) _ _ =>
    replace (h ++ m ++ [EndSeq] ++ r) with (([Key; Text "decaychannels"%string; Value] ++ ([BeginSeq] ++ m ++ [EndSeq])) ++ r) by (rewrite <- !app_assoc; reflexivity) end.
  eapply closes_app; [apply fields_one, node_seq, items_flat; intros x _; apply node_channel|].
  eapply closes_app.
  { apply fields_if. match goal with |- fields _ (_ ++ ?m ++ _) _ _ => apply (fields_one tab "extradecaychannels" ([BeginSeq] ++ m ++ [EndSeq])) end.
    apply node_seq, items_flat. intros i _. apply node_map, fields_channel_data. }
  apply closes_last, fields_own.
Qed.
Lemma node_fsmd_bin tab fp fe id off f : node tab (writeFsmdBin L fp fe id off f) (tFsmdBin fp fe id off f) tab.
Proof. unfold writeFsmdBin, tFsmdBin. apply node_closed. eapply closes_app; [apply fields_kv|]. apply closes_last, fields_params. Qed.
Lemma items_fsmd tab fp fe id l : forall off, items tab (writeFsmdBins L fp fe id off l) (tFsmdBins fp fe id off l) tab.
Proof.
  induction l as [|f l IH]; intros off; [apply items_nil|]. cbn [writeFsmdBins tFsmdBins]. eapply items_cons; [apply node_fsmd_bin|apply IH].
Qed.

(* ---- bins and anchors: aliases ---- *)
Lemma firstIdx_le {A} (f : A -> bool) l : firstIdx f l <= length l.
Proof. induction l as [|x l IH]; cbn; [lia|]. destruct (f x); lia. Qed.
Lemma firstIdx_at {A} (f : A -> bool) l : firstIdx f l < length l -> exists x, nth_error l (firstIdx f l) = Some x /\ f x = true.
Proof.
  induction l as [|x l IH]; cbn [firstIdx length]; [lia|]. destruct (f x) eqn:E; intros H.
  - exists x. auto.
  - cbn [nth_error]. apply IH. lia.
Qed.
Context (Law : lawful L).
Lemma numText_inj a b : numText L a = numText L b -> a = b.
Proof.
  intros E. unfold numText in E. destruct Law as (_ & HI & _). pose proof (HI (Z.of_nat a)) as A. rewrite E, HI in A. injection A. lia.
Qed.
Lemma append_inj p a b : append p a = append p b -> a = b.
Proof. induction p as [|c p IH]; cbn; [auto|]. intros E. injection E. exact IH. Qed.
Section Alias.
Context {A K : Type} (p : string) (f : A -> A -> bool) (key : A -> K) (T : A -> yaml).
Hypothesis Hf : forall x y, f x y = true <-> key x = key y.
Hypothesis HT : forall x y, key x = key y -> T x = T y.
Definition tabOk (before : list A) (tab : table) : Prop :=
  forall n x, nth_error before n = Some x -> firstIdx (f x) (firstn n before) = n -> assoc (append p (numText L n)) tab = Some (T x).
Lemma firstIdx_min g (l : list A) n x : nth_error l n = Some x -> g x = true -> firstIdx g l <= n.
Proof.
  revert n. induction l as [|y l IH]; intros [|n] E G; cbn in *; try discriminate; [injection E as ->; rewrite G; lia|].
  destruct (g y); [lia|]. specialize (IH n E G). lia.
Qed.
Lemma tab_lookup before tab b : tabOk before tab -> firstIdx (f b) before < length before -> assoc (append p (numText L (firstIdx (f b) before))) tab = Some (T b).
Proof.
  intros H Hlt. destruct (firstIdx_at _ _ Hlt) as (x & Ex & Fx). apply Hf in Fx. rewrite (HT b x Fx). apply H; [exact Ex|].
  set (n := firstIdx (f b) before) in *.
  assert (Ln : length (firstn n before) = n) by (rewrite firstn_length; lia).
  pose proof (firstIdx_le (f x) (firstn n before)) as Le. rewrite Ln in Le.
  destruct (Nat.eq_dec (firstIdx (f x) (firstn n before)) n) as [E|Ne]; [exact E|exfalso].
  destruct (firstIdx_at (f x) (firstn n before)) as (y & Ey & Fy); [lia|]. set (k := firstIdx (f x) (firstn n before)) in *.
  apply Hf in Fy. assert (Ey' : nth_error before k = Some y).
  { rewrite <- (firstn_skipn n before). rewrite nth_error_app1 by lia. exact Ey. }
  assert (G : f b y = true) by (apply Hf; congruence). pose proof (firstIdx_min (f b) before k y Ey' G). unfold n in *. lia.
Qed.
Lemma firstn_app_lt n (l : list A) r : n <= length l -> firstn n (l ++ r) = firstn n l.
Proof. intros H. rewrite firstn_app. replace (n - length l) with 0 by lia. cbn. apply app_nil_r. Qed.
Lemma tab_extend_alias before tab b : tabOk before tab -> firstIdx (f b) before <> length before -> tabOk (before ++ [b]) tab.
Proof.
  intros H Hne n x En Hx. assert (Hn : n < length (before ++ [b])) by (apply nth_error_Some; congruence). rewrite app_length in Hn; cbn in Hn.
  destruct (Nat.eq_dec n (length before)) as [->|Hn2].
  - rewrite nth_error_app2, Nat.sub_diag in En by lia. injection En as <-. rewrite firstn_app_lt, firstn_all in Hx by lia. contradiction.
  - rewrite nth_error_app1 in En by lia. rewrite firstn_app_lt in Hx by lia. apply H; auto.
Qed.
Lemma tab_extend_anchor before tab b : tabOk before tab -> tabOk (before ++ [b]) ((append p (numText L (length before)), T b) :: tab).
Proof.
  intros H n x En Hx. assert (Hn : n < length (before ++ [b])) by (apply nth_error_Some; congruence). rewrite app_length in Hn; cbn in Hn.
  cbn [assoc]. destruct (String.eqb_spec (append p (numText L (length before))) (append p (numText L n))) as [E|E].
  - apply append_inj, numText_inj in E. subst n. rewrite nth_error_app2, Nat.sub_diag in En by lia. injection En as <-. reflexivity.
  - assert (n <> length before) by (intros ->; contradiction). rewrite nth_error_app1 in En by lia. rewrite firstn_app_lt in Hx by lia. apply H; auto.
Qed.
End Alias.

Lemma sameWaves_eq a b : sameWaves L a b = true <-> a = b.
Proof.
  destruct Law as (_ & _ & _ & HE). split.
  - unfold sameWaves. revert b. induction a as [|x a IH]; intros [|y b]; cbn; try discriminate; [reflexivity|].
    intros H. apply andb_true_iff in H. destruct H as [H1 H2]. apply andb_true_iff in H2. destruct H2 as [H2 H3].
    apply andb_true_iff in H2. destruct H2 as [H2 H4]. apply andb_true_iff in H2. destruct H2 as [H2 H5].
    apply String.eqb_eq in H2. apply HE in H4. apply HE in H5. rewrite (IH b) by (rewrite H1; exact H3). destruct x, y; cbn in *; congruence.
  - intros <-. unfold sameWaves. rewrite Nat.eqb_refl. cbn [andb]. apply forallb_forall. intros [x y] Hin.
    assert (E : x = y). { revert Hin. induction a as [|z a IH]; cbn; [contradiction|]. intros [E|Hin]; [congruence|auto]. }
    subst y. cbn [fst snd]. rewrite String.eqb_refl. assert (forall u, numEq L u u = true) by (intros u; apply HE; reflexivity). rewrite !H. reflexivity.
Qed.
Definition binTest (b a : inBin D) : bool := sameWaves L (bWaves b) (bWaves a).
Definition binsOk := tabOk "waveset" binTest tWaves.
Lemma binTest_ok x y : binTest x y = true <-> bWaves x = bWaves y.
Proof. apply sameWaves_eq. Qed.
Lemma tWaves_ok x y : bWaves x = bWaves y -> tWaves x = tWaves y.
Proof. intros E. unfold tWaves. rewrite E. reflexivity. Qed.
Lemma fields_systematics tab (b : inBin D) :
  fields tab (match bSys b with [] => [] | x :: r => [Key; Text "systematics"; Value; BeginSeq] ++ map Text (x :: r) ++ [EndSeq] end)
  (match bSys b with [] => [] | x :: r => [("systematics"%string, YSeq (map YScalar (x :: r)))] end) tab.
Proof.
  destruct (bSys b) as [|x l]; [apply fields_nil|]. apply (fields_one tab "systematics" ([BeginSeq] ++ map Text (x :: l) ++ [EndSeq])), node_seq, items_texts.
Qed.
Lemma node_bin before tab b : binsOk before tab -> exists tab', node tab (writeBin L before b) (tBin b) tab' /\ binsOk (before ++ [b]) tab'.
Proof.
  intros H. unfold writeBin. change (fun a => sameWaves L (bWaves b) (bWaves a)) with (binTest b). set (ia := firstIdx (binTest b) before).
  assert (X : exists tab', node tab (if Nat.eqb ia (length before) then [Anchor (append "waveset" (numText L ia)); BeginSeq] ++ flat_map (writeWave L) (bWaves b) ++ [EndSeq]
    else [Alias (append "waveset" (numText L ia))]) (tWaves b) tab' /\ binsOk (before ++ [b]) tab').
  { destruct (Nat.eqb_spec ia (length before)) as [E|E].
    - exists ((append "waveset" (numText L ia), tWaves b) :: tab). split.
      + apply node_seq_anchor. apply items_flat. intros w _. apply node_wave.
      + rewrite E. apply tab_extend_anchor. exact H.
    - exists tab. split.
      + apply node_alias. apply (tab_lookup "waveset" binTest bWaves tWaves binTest_ok tWaves_ok); [exact H|]. pose proof (firstIdx_le (binTest b) before). fold ia in H0. fold ia. lia.
      + apply tab_extend_alias; auto. }
  destruct X as (tab' & N & O). exists tab'. split; [|exact O]. unfold tBin. apply node_closed. eapply closes_app; [apply fields_kv|].
  eapply closes_app; [apply fields_kv|]. eapply closes_app; [apply fields_unless, fields_kv|]. eapply closes_app; [apply (fields_systematics tab b)|].
  match goal with |- closes _ (?h ++ ?m ++ [EndMap]) _ _ => replace (h ++ m ++ [EndMap]) with ((h ++ m) ++ [EndMap]) by (rewrite <- !app_assoc; reflexivity) end.
  apply closes_last. apply fields_one. exact N.
Qed.
Lemma items_bins l : forall before tab, binsOk before tab -> exists tab', items tab (writeBins L before l) (map tBin l) tab'.
Proof.
  induction l as [|b l IH]; intros before tab H; [exists tab; apply items_nil|]. cbn [writeBins map].
  destruct (node_bin before tab b H) as (tab1 & N & O). destruct (IH _ _ O) as (tab2 & I2). exists tab2. eapply items_cons; eauto.
Qed.
Lemma fields_input tab l : exists tab', fields tab (writeInput L l) [("input"%string, YSeq (map tBin l))] tab'.
Proof.
  destruct (items_bins l [] tab) as (tab' & H); [intros [|n] x E; discriminate|]. exists tab'. unfold writeInput.
  apply (fields_one tab "input" ([BeginSeq] ++ _ ++ [EndSeq])), node_seq, H.
Qed.
Definition anchorTest (a x : string * string) : bool := String.eqb (fst a) (fst x) && String.eqb (snd a) (snd x).
Lemma anchorTest_ok x y : anchorTest x y = true <-> x = y.
Proof.
  unfold anchorTest. rewrite andb_true_iff, !String.eqb_eq. destruct x, y; cbn. split; [intros [-> ->]; reflexivity|intros E; injection E; auto].
Qed.
Definition anchorsOk := tabOk "anchor" anchorTest tAnchor.
Lemma node_anchor before tab a : anchorsOk before tab -> exists tab', node tab (writeAnchor L before a) (tAnchor a) tab' /\ anchorsOk (before ++ [a]) tab'.
Proof.
  intros H. unfold writeAnchor. change (fun x : string * string => String.eqb (fst a) (fst x) && String.eqb (snd a) (snd x)) with (anchorTest a).
  set (ia := firstIdx (anchorTest a) before). destruct (Nat.eqb_spec ia (length before)) as [E|E].
  - exists ((append "anchor" (numText L ia), tAnchor a) :: tab). split; [|rewrite E; apply tab_extend_anchor; exact H].
    intros o. cbn. destruct o as [|[]]; try reflexivity. destruct k; reflexivity.
  - exists tab. split.
    + apply node_alias. apply (tab_lookup "anchor" anchorTest (fun x => x) tAnchor anchorTest_ok); [intros x y ->; reflexivity|exact H|].
      pose proof (firstIdx_le (anchorTest a) before). fold ia in H0. fold ia. lia.
    + apply tab_extend_alias; auto.
Qed.
Lemma items_anchors l : forall before tab, anchorsOk before tab -> exists tab', items tab (writeAnchorList L before l) (map tAnchor l) tab'.
Proof.
  induction l as [|b l IH]; intros before tab H; [exists tab; apply items_nil|]. cbn [writeAnchorList map].
  destruct (node_anchor before tab b H) as (tab1 & N & O). destruct (IH _ _ O) as (tab2 & I2). exists tab2. eapply items_cons; eauto.
Qed.
Lemma fields_anchors tab l : exists tab', fields tab (writeModelAnchors L l) [("anchorwave"%string, YSeq (map tAnchor l))] tab'.
Proof.
  destruct (items_anchors l [] tab) as (tab' & H); [intros [|n] x E; discriminate|]. exists tab'. unfold writeModelAnchors.
  apply (fields_one tab "anchorwave" ([BeginSeq] ++ _ ++ [EndSeq])), node_seq, H.
Qed.

(* ---- the whole file ---- *)
Definition tFsmd (fp fe : pars D) (f : fsmd D) : yaml :=
  if fSame f then match fFuns f with g :: _ => tFsmdBin fp fe (fId f) 0 g | [] => YSeq [] end else YSeq (tFsmdBins fp fe (fId f) 0 (fFuns f)).
Definition tModel (m : fitModel D) (f : fsmd D) (fp fe : pars D) : yaml :=
  YMap ([("anchorwave"%string, YSeq (map tAnchor (mAnchors m)))] ++ [("components"%string, YSeq (map (tComponent fp fe) (mComps m)))] ++
    [("finalStateMassDependence"%string, tFsmd fp fe f)]).
Definition tFree (l : list string) : list (string * yaml) := match l with [] => [] | _ => [("freeparameters"%string, YSeq (map YScalar l))] end.
Definition tRoot (input : list (inBin D)) (m : fitModel D) (f : fsmd D) (fp fe : pars D) (q : list (string * D)) (free : list string) : yaml :=
  YMap ([("fitquality"%string, tQuality q)] ++ tFree free ++ [("input"%string, YSeq (map tBin input))] ++ [("model"%string, tModel m f fp fe)]).
Lemma fields_quality tab q : fields tab (writeFitQuality L q) [("fitquality"%string, tQuality q)] tab.
Proof.
  unfold writeFitQuality, tQuality. apply (fields_one tab "fitquality" ([BeginMap] ++ flat_map (fun e => kv (fst e) (showD L (snd e))) q ++ [EndMap])). apply node_map.
  induction q as [|x q IH]; [apply fields_nil|]. cbn [flat_map map]. apply (fields_app tab _ [(fst x, tNum (snd x))] tab); [apply fields_kv|exact IH].
Qed.
Lemma fields_free tab l : fields tab (writeFreeParameters l) (tFree l) tab.
Proof.
  destruct l as [|x l]; [apply fields_nil|]. unfold writeFreeParameters, tFree.
  apply (fields_one tab "freeparameters" ([BeginSeq] ++ map Text (x :: l) ++ [EndSeq])), node_seq, items_texts.
Qed.
Lemma fields_comps tab fp fe l : fields tab (writeComponents L fp fe l) [("components"%string, YSeq (map (tComponent fp fe) l))] tab.
Proof.
  unfold writeComponents. apply (fields_one tab "components" ([BeginSeq] ++ flat_map (writeComponent L fp fe) l ++ [EndSeq])), node_seq, items_flat.
  intros c _. apply node_component.
Qed.
Lemma fields_fsmd tab fp fe f : (fSame f = true -> length (fFuns f) = 1) -> exists e, writeFsmd L fp fe (Some f) = Some e /\
  fields tab e [("finalStateMassDependence"%string, tFsmd fp fe f)] tab.
Proof.
  intros H1. eexists. split; [reflexivity|]. unfold tFsmd. destruct (fSame f).
  - specialize (H1 eq_refl). destruct (fFuns f) as [|g [|h r]]; try discriminate. cbn [firstn writeFsmdBins]. rewrite app_nil_l, app_nil_r.
    rewrite app_nil_r. apply (fields_one tab _ (writeFsmdBin L fp fe (fId f) 0 g)), node_fsmd_bin.
  - apply (fields_one tab _ ([BeginSeq] ++ _ ++ [EndSeq])), node_seq, items_fsmd.
Qed.
Lemma file_tree input m f fp fe q free : mFsmd m = Some f -> (fSame f = true -> length (fFuns f) = 1) ->
  exists e, writeConfig L input m fp fe q free = Some e /\ loadFile e = Some (tRoot input m f fp fe q free).
Proof.
  intros Ef H1. destruct (fields_input [] input) as (t1 & F1). destruct (fields_anchors t1 (mAnchors m)) as (t2 & F2).
  destruct (fields_fsmd t2 fp fe f H1) as (e & Ee & F3). unfold writeConfig. rewrite Ef, Ee. eexists. split; [reflexivity|].
  apply (load_node _ _ t2). unfold tRoot. apply node_closed. eapply closes_app; [apply fields_quality|]. eapply closes_app; [apply (fields_free [] free)|].
  eapply closes_app; [exact F1|].
  match goal with |- closes _ (?h ++ ?a ++ ?b ++ ?c ++ [EndMap; EndMap]) _ _ =>
    replace (h ++ a ++ b ++ c ++ [EndMap; EndMap]) with (([Key; Text "model"%string; Value] ++ ([BeginMap] ++ a ++ b ++ c ++ [EndMap])) ++ [EndMap]) by (rewrite <- !app_assoc; reflexivity) end.
  apply closes_last, fields_one. unfold tModel. apply node_closed. eapply closes_app; [exact F2|]. eapply closes_app; [apply fields_comps|].
  apply closes_last. exact F3.
Qed.
End W.
