(* C88: what is read from the trees. *)
From Coq Require Import Ascii String List Bool Arith ZArith Lia Sorted.
From Verif Require Import ResCfgModel ResCfgSpec ResCfgProofs.
Import ListNotations.
Open Scope list_scope.
Open Scope nat_scope.

Lemma assoc_app {A} k (a b : list (string * A)) : assoc k (a ++ b) = match assoc k a with Some x => Some x | None => assoc k b end.
Proof. induction a as [|[n x] a IH]; [reflexivity|]. cbn [app assoc]. destruct (String.eqb n k); auto. Qed.
Lemma assoc_none {A} k (l : list (string * A)) : ~ In k (map fst l) -> assoc k l = None.
Proof.
  induction l as [|[n x] l IH]; intros H; [reflexivity|]. cbn [assoc map fst In] in *. destruct (String.eqb_spec n k) as [E|E]; [tauto|]. apply IH. tauto.
Qed.
Lemma all_nth {A B} (f : A -> option B) ns xs : length ns = length xs ->
  (forall i t x, nth_error ns i = Some t -> nth_error xs i = Some x -> f t = Some x) -> all f ns = Some xs.
Proof.
  revert xs. induction ns as [|t ns IH]; intros [|x xs] E H; try discriminate; [reflexivity|]. cbn [all].
  rewrite (H 0 t x) by reflexivity. rewrite (IH xs); [reflexivity|cbn in E; lia|]. intros i t' x' E1 E2. apply (H (S i)); assumption.
Qed.
Lemma all_map {A B C} (f : B -> option C) (g : A -> B) (h : A -> C) l : (forall x, In x l -> f (g x) = Some (h x)) -> all f (map g l) = Some (map h l).
Proof.
  induction l as [|x l IH]; intros H; [reflexivity|]. cbn [map all]. rewrite H by (left; reflexivity). rewrite IH; [reflexivity|]. intros y Hy. apply H. right. exact Hy.
Qed.
Lemma nth_combine {A} n (l : list A) i : nth_error (combine (seq n (length l)) l) i = option_map (pair (n + i)) (nth_error l i).
Proof.
  revert n i. induction l as [|x l IH]; intros n [|i]; cbn; try reflexivity; [rewrite Nat.add_0_r; reflexivity|]. rewrite IH. rewrite Nat.add_succ_r. reflexivity.
Qed.
Lemma nth_indexed {A} (l : list A) i : nth_error (indexed l) i = option_map (pair i) (nth_error l i).
Proof. apply (nth_combine 0). Qed.
Lemma length_indexed {A} (l : list A) : length (indexed l) = length l.
Proof. unfold indexed. rewrite combine_length, seq_length. lia. Qed.
Lemma indexed_shift {A} off (l : list A) : map (fun x => (off + fst x, snd x)) (indexed l) = combine (seq off (length l)) l.
Proof.
  unfold indexed. assert (G : forall n, map (fun x : nat * A => (off + fst x, snd x)) (combine (seq n (length l)) l) = combine (seq (off + n) (length l)) l).
  { induction l as [|x l IH]; intros n; [reflexivity|]. cbn [length seq combine map fst snd]. f_equal. rewrite IH. f_equal. f_equal. lia. }
  rewrite G. f_equal. f_equal. lia.
Qed.

Section R.
Context {D : Type} (L : lib D) (Law : lawful L).
Lemma rdD x : readD L (showD L x) = Some x. Proof. apply Law. Qed.
Lemma rdI x : readI L (showI L x) = Some x. Proof. apply Law. Qed.
Lemma rdB x : readB L (showB L x) = Some x. Proof. apply Law. Qed.

(* ---- fit quality, free parameters, anchors ---- *)
Lemma read_qualities q : forall seen, NoDup (map fst q) -> (forall x, In x (map fst q) -> ~ In x seen) ->
  readQualities L seen (map (fun e => (fst e, tNum L (snd e))) q) = Some q.
Proof.
  induction q as [|[k x] q IH]; intros seen N H; [reflexivity|]. cbn [map fst snd readQualities]. unfold readQuality, tNum, asD. rewrite rdD.
  inversion N; subst. destruct (existsb (String.eqb k) seen) eqn:E.
  { apply existsb_exists in E. destruct E as (y & Hy & Ey). apply String.eqb_eq in Ey. subst y. exfalso. apply (H k); [left; reflexivity|exact Hy]. }
  rewrite IH; [reflexivity|assumption|]. intros y Hy [E2|E2]; [subst y; contradiction|]. apply (H y); [right; exact Hy|exact E2].
Qed.
Lemma all_texts l : all asText (map YScalar l) = Some l.
Proof. induction l as [|x l IH]; [reflexivity|]. cbn. rewrite IH. reflexivity. Qed.
Lemma all_anchors l : all readAnchor (map tAnchor l) = Some l.
Proof. induction l as [|[a b] l IH]; [reflexivity|]. cbn [map all]. rewrite IH. reflexivity. Qed.

(* ---- bins ---- *)
Definition waveRead (w : wave D) : wave D := Wave (wName w) (limitOr L (wLow w)) (limitOr L (wUp w)).
Lemma read_wave before w : ~ In (wName w) (map (@wName D) before) -> readWave L before (tWave L w) = Some (waveRead w).
Proof.
  intros H. unfold readWave, tWave, waveRead, limitOr, field, optional.
  assert (E : existsb (fun x => String.eqb (wName x) (wName w)) before = false).
  { apply not_true_is_false. intros E. apply existsb_exists in E. destruct E as (y & Hy & Ey). apply String.eqb_eq in Ey. apply H. rewrite <- Ey. apply in_map, Hy. }
  cbn [get app assoc String.eqb Ascii.eqb Bool.eqb bindO asText]. rewrite E.
  destruct (numGe0 L (wLow w)), (numGe0 L (wUp w)); cbn; rewrite ?rdD; reflexivity.
Qed.
Lemma read_waves l : forall before before', map (@wName D) before' = map (@wName D) before -> NoDup (map (@wName D) (before ++ l)) ->
  readWaveList L before' (map (tWave L) l) = Some (before' ++ map waveRead l).
Proof.
  induction l as [|w l IH]; intros before before' E N; [cbn; rewrite app_nil_r; reflexivity|]. cbn [map readWaveList]. rewrite read_wave.
  - rewrite (IH (before ++ [w])); [rewrite <- app_assoc; reflexivity|rewrite !map_app, E; reflexivity|rewrite <- app_assoc; exact N].
  - rewrite E. rewrite map_app in N. cbn [map] in N. apply NoDup_remove_2 in N. intros Hin. apply N. apply in_or_app. left. exact Hin.
Qed.
Definition binRead (b : inBin D) : inBin D := InBin (bName b) (map waveRead (bWaves b)) (bTPrime b) (bRescale b) (bSys b).
Lemma read_bin b : NoDup (map (@wName D) (bWaves b)) -> readBin L (tBin L b) = Some (binRead b).
Proof.
  intros N. pose proof (read_waves (bWaves b) [] [] eq_refl N) as W. unfold readBin, tBin, binRead, field, optional.
  destruct (numEq L (bRescale b) (numOne L)) eqn:E.
  - destruct Law as (_ & _ & _ & HE). apply HE in E.
    destruct (bSys b) as [|s r] eqn:Es; cbn -[readWaveList all tWaves map]; rewrite rdD; unfold tWaves, asSeq, bindO; rewrite W; [rewrite E; reflexivity|].
    rewrite E. rewrite all_texts. reflexivity.
  - destruct (bSys b) as [|s r] eqn:Es; cbn -[readWaveList all tWaves map]; rewrite !rdD; unfold tWaves, asSeq, bindO; rewrite W; [reflexivity|].
    rewrite all_texts. reflexivity.
Qed.
Lemma read_bins l : goodInput l -> all (readBin L) (map (tBin L) l) = Some (map binRead l).
Proof. intros H. apply all_map. intros b Hb. apply read_bin, H, Hb. Qed.
Lemma sameBin_read b : sameBin L b (binRead b).
Proof.
  unfold sameBin, binRead. cbn. repeat split. induction (bWaves b) as [|w l IH]; [constructor|]. cbn. constructor; [|exact IH]. unfold sameWave, waveRead. cbn. auto.
Qed.
Lemma binsWith_read input w b : binsWith (map binRead input) w b <-> binsWith input w b.
Proof.
  unfold binsWith. rewrite nth_error_map. assert (E : forall x, map (@wName D) (bWaves (binRead x)) = map (@wName D) (bWaves x)).
  { intros x. unfold binRead. cbn. rewrite map_map. reflexivity. }
  destruct (nth_error input b) as [x|]; cbn; split; intros (y & Ey & Hy); try discriminate; injection Ey as <-; eexists; split; try reflexivity.
  - rewrite E in Hy. exact Hy.
  - rewrite E. exact Hy.
Qed.

(* ---- parameters ---- *)
Lemma read_param t n p p0 v e : get t n = Some (tParam L p v e) -> n = pName p -> pHasLower p0 = false -> pHasUpper p0 = false ->
  exists p', readParam L t n p0 = Some p' /\ sameParam v e p p'.
Proof.
  intros G -> H1 H2. unfold readParam. rewrite G. unfold tParam, field, readError, readLimit, optional, sameParam, lower, upper.
  destruct (pHasLower p) eqn:E1, (pHasUpper p) eqn:E2; cbn; rewrite ?rdD, ?rdB; cbn; eexists; (split; [reflexivity|]); cbn; auto 10.
Qed.
Lemma read_params t fp fe id ps : forall off,
  (forall i p, nth_error ps i = Some p -> get t (pName p) = Some (tParam L p (fPar fp id (off + i)) (fPar fe id (off + i)))) ->
  exists ps', all (fun n => readParam L t n (freshParam L n)) (map (@pName D) ps) = Some ps' /\ sameParams id off fp fe ps ps' /\ map (@pName D) ps' = map (@pName D) ps.
Proof.
  induction ps as [|p ps IH]; intros off H.
  - exists []. split; [reflexivity|]. split; [|reflexivity]. split; [reflexivity|]. intros [|i] ? ? E; discriminate.
  - destruct (read_param t (pName p) p (freshParam L (pName p)) _ _ (H 0 p eq_refl) eq_refl eq_refl eq_refl) as (p' & E & Sp).
    destruct (IH (S off)) as (ps' & E' & (Len & Sps) & Nm).
    { intros i q Eq. rewrite Nat.add_succ_comm. apply (H (S i)). exact Eq. }
    exists (p' :: ps'). split; [cbn [map all]; rewrite E, E'; reflexivity|]. split.
    + split; [cbn; lia|]. intros [|i] a b Ea Eb; [injection Ea as <-; injection Eb as <-; exact Sp|]. rewrite <- Nat.add_succ_comm. apply Sps; assumption.
    + cbn. rewrite Nm. f_equal. apply Sp.
Qed.
Lemma names_params fp fe id off ps : map fst (tParams L fp fe id off ps) = map (@pName D) ps.
Proof.
  unfold tParams, indexed. generalize 0. induction ps as [|p ps IH]; intros n; [reflexivity|]. cbn [length seq combine flat_map app map fst snd].
  f_equal. apply IH.
Qed.
Lemma assoc_params fp fe id off ps : NoDup (map (@pName D) ps) -> forall i p, nth_error ps i = Some p ->
  assoc (pName p) (tParams L fp fe id off ps) = Some (tParam L p (fPar fp id (off + i)) (fPar fe id (off + i))).
Proof.
  unfold tParams, indexed.
  enough (G : NoDup (map (@pName D) ps) -> forall n i p, nth_error ps i = Some p ->
    assoc (pName p) (flat_map (fun x => [(pName (snd x), tParam L (snd x) (fPar fp id (off + fst x)) (fPar fe id (off + fst x)))]) (combine (seq n (length ps)) ps)) =
    Some (tParam L p (fPar fp id (off + (n + i))) (fPar fe id (off + (n + i))))).
  { intros N i p E. apply (G N 0 i p E). }
  induction ps as [|q ps IH]; intros N n i p E; [destruct i; discriminate|]. inversion N; subst. cbn [length seq combine flat_map app assoc fst snd].
  destruct i as [|i].
  - injection E as <-. rewrite String.eqb_refl, Nat.add_0_r. reflexivity.
  - cbn in E. destruct (String.eqb_spec (pName q) (pName p)) as [X|X].
    + exfalso. apply H1. rewrite X. apply in_map. apply nth_error_In in E. exact E.
    + rewrite (IH H2 (S n) i p E). rewrite Nat.add_succ_comm. reflexivity.
Qed.

(* ---- phase-space integrals ---- *)
Lemma read_points ig : forall last, (forall i x y, nth_error ig i = Some x -> nth_error ig (S i) = Some y -> numGt L (fst x) (fst y) = false) ->
  (forall x y, last = Some x -> nth_error ig 0 = Some y -> numGt L x (fst y) = false) -> readPoints L last (map (tPair L) ig) = Some ig.
Proof.
  induction ig as [|[m v] ig IH]; intros last H H0; [reflexivity|]. cbn -[tNum]. unfold asD, tNum. rewrite !rdD. cbn [bindO].
  assert (E : match last with Some x => numGt L x m | None => false end = false).
  { destruct last as [x|]; [|reflexivity]. apply (H0 x (m, v) eq_refl eq_refl). }
  rewrite E. rewrite IH; [reflexivity| |].
  - intros i x y E1 E2. apply (H (S i)); assumption.
  - intros x y Ex Ey. injection Ex as <-. apply (H 0 (m, v) y); [reflexivity|exact Ey].
Qed.
Lemma read_integral t ig : get t "integral" = Some (YSeq (map (tPair L) ig)) -> goodIntegral L ig -> readIntegral L t = Some ig.
Proof.
  intros G (H1 & H2). unfold readIntegral, field. rewrite G. cbn [bindO asSeq]. rewrite map_length.
  destruct (Nat.ltb_spec (length ig) 2); [lia|]. apply read_points; [exact H2|]. intros x y E. discriminate.
Qed.

(* ---- decay channels ---- *)
Lemma sorted_eq (a b : list nat) : StronglySorted lt a -> StronglySorted lt b -> (forall x, In x a <-> In x b) -> a = b.
Proof.
  revert b. induction a as [|x a IH]; intros b Sa Sb H.
  - destruct b as [|y b]; [reflexivity|]. exfalso. apply (H y). left. reflexivity.
  - destruct b as [|y b]; [exfalso; apply (H x); left; reflexivity|]. inversion Sa; subst. inversion Sb; subst.
    rewrite Forall_forall in H3, H5.
    assert (x = y).
    { destruct (proj1 (H x) (or_introl eq_refl)) as [E|E]; [auto|]. destruct (proj2 (H y) (or_introl eq_refl)) as [E2|E2]; [auto|].
      specialize (H3 _ E2). specialize (H5 _ E). lia. }
    subst y. f_equal. apply IH; auto. intros z. split; intros Hz.
    + destruct (proj1 (H z) (or_intror Hz)) as [E|E]; [|exact E]. subst z. specialize (H3 _ Hz). lia.
    + destruct (proj2 (H z) (or_intror Hz)) as [E|E]; [|exact E]. subst z. specialize (H5 _ Hz). lia.
Qed.
Lemma increasing_sorted l : increasing l -> StronglySorted lt l.
Proof.
  induction l as [|x l IH]; intros H; constructor.
  - apply IH. intros i j a b Hij Ea Eb. apply (H (S i) (S j)); auto. lia.
  - apply Forall_forall. intros y Hy. apply In_nth_error in Hy. destruct Hy as (j & Ej). apply (H 0 (S j) x y); auto. lia.
Qed.
Lemma filter_sorted {A} (f : nat * A -> bool) l : forall n, StronglySorted lt (map fst (filter f (combine (seq n (length l)) l))) /\
  forall x, In x (map fst (filter f (combine (seq n (length l)) l))) -> n <= x.
Proof.
  induction l as [|y l IH]; intros n; [split; [constructor|intros x []]|]. cbn [length seq combine filter]. destruct (IH (S n)) as (S1 & S2).
  destruct (f (n, y)); cbn [map fst].
  - split; [constructor; [exact S1|]; apply Forall_forall; intros x Hx; specialize (S2 x Hx); lia|]. intros x [<-|Hx]; [lia|]. specialize (S2 x Hx). lia.
  - split; [exact S1|]. intros x Hx. specialize (S2 x Hx). lia.
Qed.
Definition binsOf (input : list (inBin D)) (n : string) : list nat :=
  map fst (filter (fun x => existsb (fun w => String.eqb (wName w) n) (bWaves (snd x))) (indexed input)).
Lemma binsOf_in input n b : In b (binsOf input n) <-> binsWith input n b.
Proof.
  unfold binsOf, binsWith. rewrite in_map_iff. split.
  - intros ((b' & x) & Eb & Hf). cbn in Eb. subst b'. apply filter_In in Hf. destruct Hf as (Hin & Hex). apply In_nth_error in Hin.
    destruct Hin as (i & Ei). rewrite nth_indexed in Ei. destruct (nth_error input i) as [y|] eqn:Ey; [|discriminate]. cbn in Ei. injection Ei as <- <-.
    exists y. split; [exact Ey|]. cbn in Hex. apply existsb_exists in Hex. destruct Hex as (w & Hw & Ew). apply String.eqb_eq in Ew. subst n. apply in_map, Hw.
  - intros (x & Ex & Hx). exists (b, x). split; [reflexivity|]. apply filter_In. split.
    + apply (nth_error_In _ b). rewrite nth_indexed, Ex. reflexivity.
    + cbn. apply existsb_exists. apply in_map_iff in Hx. destruct Hx as (w & Ew & Hw). exists w. split; [exact Hw|]. apply String.eqb_eq, Ew.
Qed.
Lemma binsOf_read input ch : increasing (snd ch) -> (forall b, In b (snd ch) <-> binsWith input (fst ch) b) -> binsOf (map binRead input) (fst ch) = snd ch.
Proof.
  intros Hi Hb. apply sorted_eq; [apply filter_sorted|apply increasing_sorted, Hi|]. intros x. rewrite binsOf_in, binsWith_read. symmetry. apply Hb.
Qed.
Lemma read_channel_list input c fp chans : forall n before, NoDup (map fst (before ++ chans)) ->
  (forall ch, In ch chans -> snd ch <> [] /\ increasing (snd ch) /\ forall b, In b (snd ch) <-> binsWith input (fst ch) b) ->
  readChannelList (map binRead input) before (map (tChannel L c fp) (combine (seq n (length chans)) chans)) = Some (before ++ chans).
Proof.
  induction chans as [|ch chans IH]; intros n before N H; [cbn; rewrite app_nil_r; reflexivity|].
  cbn [length seq combine map readChannelList]. destruct (H ch (or_introl eq_refl)) as (H1 & H2 & H3).
  assert (E : readChannel (map binRead input) before (tChannel L c fp (n, ch)) = Some ch).
  { unfold readChannel, field. cbn [tChannel get app assoc]. rewrite String.eqb_refl. cbn [bindO asText].
    fold (binsOf (map binRead input) (fst ch)). rewrite (binsOf_read input ch H2 H3).
    destruct (existsb (fun x => String.eqb (fst x) (fst ch)) before) eqn:E.
    - exfalso. apply existsb_exists in E. destruct E as (y & Hy & Ey). apply String.eqb_eq in Ey. rewrite map_app in N. cbn [map] in N.
      apply NoDup_remove_2 in N. apply N. apply in_or_app. left. rewrite <- Ey. apply in_map, Hy.
    - destruct ch as [nm [|b bs]]; [exfalso; apply H1; reflexivity|reflexivity]. }
  rewrite E. rewrite IH.
  - rewrite <- app_assoc. reflexivity.
  - rewrite <- app_assoc. exact N.
  - intros ch' Hch. apply H. right. exact Hch.
Qed.
End R.
