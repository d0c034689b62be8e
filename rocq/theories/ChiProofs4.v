(* Lemmas for C86, part 4: mass limits, the loops over mass bins, the sum. *)
From Coq Require Import List Reals Bool Arith ZArith Lia Lra Sorted.
From Coquelicot Require Import Complex.
From Verif Require Import PhysModel ChiModel ChiSpec ChiProofs ChiProofs2 ChiProofs3.
Import ListNotations.
Open Scope nat_scope.

Lemma reqb_t x y : reqb x y = true -> x = y. Proof. unfold reqb. destruct (Req_EM_T x y); auto; discriminate. Qed.
Lemma reqb_f x y : reqb x y = false -> x <> y. Proof. unfold reqb. destruct (Req_EM_T x y); auto; discriminate. Qed.
Lemma rltb_t x y : rltb x y = true -> (x < y)%R. Proof. unfold rltb. destruct (Rlt_dec x y); auto; discriminate. Qed.
Lemma rltb_f x y : rltb x y = false -> ~ (x < y)%R. Proof. unfold rltb. destruct (Rlt_dec x y); auto; discriminate. Qed.
Lemma sorted_nth cs : StronglySorted Rlt cs -> forall a b, a < b < length cs -> (nth a cs 0 < nth b cs 0)%R.
Proof.
  induction 1 as [|x cs Hs IH Hf]; intros a b H; cbn [length] in H; [lia|]. destruct b as [|b]; [lia|]. destruct a as [|a]; cbn [nth].
  - rewrite List.Forall_forall in Hf. apply Hf, nth_In. lia.
  - apply IH. lia.
Qed.
Lemma combine_snoc {A B} (l : list A) (r : list B) x y : length l = length r -> combine (l ++ [x]) (r ++ [y]) = combine l r ++ [(x, y)].
Proof. revert r; induction l as [|u l IH]; intros [|v r] H; cbn in *; try lia; auto. f_equal. apply IH. lia. Qed.
Lemma limits_fold lim l0 cs : (forall a b, a < b < length cs -> (nth a cs 0 < nth b cs 0)%R) ->
  let '(f, l) := fold_left (limitStep lim) (combine (seq 0 (length cs)) cs) (0, l0) in
  f <= length cs /\ (forall m, m < length cs -> (f <= m <-> (fst lim <= nth m cs 0)%R)) /\
  ((exists m, m < length cs /\ (nth m cs 0 <= snd lim)%R) -> l < length cs /\ forall m, m < length cs -> (m <= l <-> (nth m cs 0 <= snd lim)%R)) /\
  ((forall m, m < length cs -> (snd lim < nth m cs 0)%R) -> l = l0).
Proof.
  induction cs as [|c cs IH] using rev_ind; intros Hs.
  - cbn. split; [lia|]. split; [intros; lia|]. split; [intros (m & ? & _); lia|auto].
  - rewrite app_length in *. cbn [length] in *. rewrite Nat.add_1_r in *. rewrite seq_S, combine_snoc by apply seq_length. cbn [Nat.add].
    rewrite fold_left_app. cbn [fold_left].
    assert (Nc : nth (length cs) (cs ++ [c]) 0%R = c) by (rewrite app_nth2, Nat.sub_diag by lia; reflexivity).
    assert (No : forall m, m < length cs -> nth m (cs ++ [c]) 0%R = nth m cs 0%R) by (intros; apply app_nth1; auto).
    assert (Lt : forall m, m < length cs -> (nth m cs 0 < c)%R) by (intros m Hm; pose proof (Hs m (length cs) ltac:(lia)) as Q; rewrite Nc, No in Q by auto; exact Q).
    assert (Hs' : forall a b, a < b < length cs -> (nth a cs 0 < nth b cs 0)%R).
    { intros a b H. pose proof (Hs a b ltac:(lia)) as Q. rewrite !No in Q by lia. exact Q. }
    specialize (IH Hs'). destruct (fold_left (limitStep lim) (combine (seq 0 (length cs)) cs) (0, l0)) as [f l].
    destruct IH as (F1 & F2 & L1 & L2). unfold limitStep. split; [|split; [|split]].
    + destruct (reqb c (fst lim)); [lia|]. destruct (rltb c (fst lim)); lia.
    + intros m Hm. destruct (reqb c (fst lim)) eqn:E1; [apply reqb_t in E1|apply reqb_f in E1; destruct (rltb c (fst lim)) eqn:E2; [apply rltb_t in E2|apply rltb_f in E2]];
        (destruct (Nat.eq_dec m (length cs)) as [->|Hne]; [rewrite Nc|rewrite No by lia; specialize (Lt m ltac:(lia))]).
      * split; intros; [lra|lia].
      * split; intros; [lia|lra].
      * split; intros; [lia|lra].
      * split; intros; [lia|lra].
      * split; intros; [lra|lia].
      * apply F2. lia.
    + intros (m & Hm & Hle). destruct (rltb (snd lim) c) eqn:E; [apply rltb_t in E|apply rltb_f in E].
      * assert (m < length cs). { destruct (Nat.eq_dec m (length cs)); [subst; rewrite Nc in Hle; lra|lia]. }
        rewrite No in Hle by auto. destruct L1 as [L3 L4]; [eauto|]. split; [lia|]. intros m' Hm'.
        destruct (Nat.eq_dec m' (length cs)) as [->|Hne]; [rewrite Nc; split; intros; [lia|lra]|]. rewrite No by lia. apply L4. lia.
      * split; [lia|]. intros m' Hm'. split; [intros _|lia].
        destruct (Nat.eq_dec m' (length cs)) as [->|Hne]; [rewrite Nc; lra|]. rewrite No by lia. specialize (Lt m' ltac:(lia)). lra.
    + intros H. specialize (H (length cs) ltac:(lia)) as Hc. rewrite Nc in Hc. destruct (rltb (snd lim) c) eqn:E; [|apply rltb_f in E; lra].
      apply L2. intros m Hm. rewrite <- (No m) by auto. apply H. lia.
Qed.
Lemma inRangeB_iff lim x : inRangeB lim x = true <-> inRange lim x.
Proof.
  unfold inRangeB, inRange. rewrite andb_true_iff. destruct (Rlt_dec (fst lim) 0), (Rlt_dec (snd lim) 0), (Rle_dec (fst lim) x), (Rle_dec x (snd lim));
    split; intros [H1 H2]; split; intros; try lra; try reflexivity; try discriminate; auto; try tauto; exfalso; try (apply n1; apply H1; lra); try (apply n0; apply H2; lra);
    try (apply n0; apply H1; lra); try (apply n; apply H1; lra); try (apply n; apply H2; lra); try (apply n1; apply H2; lra); try (apply n2; apply H2; lra).
Qed.
Lemma waveLimits_ok size cs lim : StronglySorted Rlt cs -> length cs <= size ->
  (exists x, In x cs /\ (0 <= fst lim -> fst lim <= x)%R) -> (exists x, In x cs /\ (0 <= snd lim -> x <= snd lim)%R) ->
  exists f l, waveLimits size cs lim = Some (f, l) /\ f < length cs /\ l < length cs /\ forall m, m < length cs -> (f <= m <= l <-> inRange lim (nth m cs 0%R)).
Proof.
  intros Hs Hsz (x & Hx & Lx) (y & Hy & Ly). unfold waveLimits. destruct (In_nth _ _ 0%R Hx) as (mx & Hmx & Ex). destruct (In_nth _ _ 0%R Hy) as (my & Hmy & Ey).
  destruct (Nat.eqb_spec (length cs) 0); [lia|].
  pose proof (limits_fold lim (length cs - 1) cs (sorted_nth cs Hs)) as F.
  destruct (fold_left (limitStep lim) (combine (seq 0 (length cs)) cs) (0, length cs - 1)) as [f l]. destruct F as (F1 & F2 & F3 & _).
  set (f' := if rltb (fst lim) 0 then 0 else f). set (l' := if rltb (snd lim) 0 then length cs - 1 else l).
  assert (Hf : f' < length cs /\ forall m, m < length cs -> (f' <= m <-> (0 <= fst lim -> fst lim <= nth m cs 0)%R)).
  { unfold f'. destruct (rltb (fst lim) 0) eqn:E; [apply rltb_t in E|apply rltb_f in E].
    - split; [lia|]. intros m Hm. split; intros; [lra|lia].
    - split.
      + subst x. specialize (Lx ltac:(lra)). apply F2 in Lx; auto. lia.
      + intros m Hm. rewrite F2 by auto. split; intros; auto; lra. }
  assert (Hl : l' < length cs /\ forall m, m < length cs -> (m <= l' <-> (0 <= snd lim -> nth m cs 0 <= snd lim)%R)).
  { unfold l'. destruct (rltb (snd lim) 0) eqn:E; [apply rltb_t in E|apply rltb_f in E].
    - split; [lia|]. intros m Hm. split; intros; [lra|lia].
    - destruct F3 as [F3 F4]. { exists my. split; auto. subst y. apply Ly; lra. }
      split; auto. intros m Hm. rewrite F4 by auto. split; intros; auto; lra. }
  destruct Hf as [Hf1 Hf2], Hl as [Hl1 Hl2]. exists f', l'. split.
  - assert (Nat.ltb f' size = true) by (apply Nat.ltb_lt; lia). assert (Nat.ltb l' size = true) by (apply Nat.ltb_lt; lia). rewrite H, H0. reflexivity.
  - split; auto. split; auto. intros m Hm. unfold inRange. rewrite <- (Hf2 m), <- (Hl2 m) by auto. lia.
Qed.

(* what is known about the limits of a bin *)
Definition limsOk (b : binIn) (lims : list (nat * nat)) : Prop :=
  length lims = nrWaves b /\
  forall w, w < nrWaves b -> fst (nth w lims (0, 0)) < nrMassBins b /\ snd (nth w lims (0, 0)) < nrMassBins b /\
    forall m, m < nrMassBins b -> (fst (nth w lims (0, 0)) <= m <= snd (nth w lims (0, 0)) <-> fitted b m w = true).
Lemma mapO_ok {A B} (f : A -> option B) (P : A -> B -> Prop) l : (forall x, In x l -> exists y, f x = Some y /\ P x y) ->
  exists r, mapO f l = Some r /\ List.Forall2 P l r.
Proof.
  induction l as [|x l IH]; intros H; [exists []; split; auto|]. destruct (H x (or_introl eq_refl)) as (y & E & Py).
  destruct IH as (r & Er & F); [intros; apply H; right; auto|]. exists (y :: r). cbn. rewrite E, Er. split; auto.
Qed.
Lemma Forall2_nth_pair {A B} (P : A -> B -> Prop) l r da db : List.Forall2 P l r -> length r = length l /\ forall k, k < length l -> P (nth k l da) (nth k r db).
Proof. induction 1 as [|x y l r H F [IH1 IH2]]; cbn; split; auto; try lia. intros [|k] Hk; auto. apply IH2. lia. Qed.
Lemma massLimits_ok size b : ordered b -> rangesMeet b -> nrMassBins b <= size -> exists lims, massLimits size b = Some lims /\ limsOk b lims.
Proof.
  intros Ho Hr Hsz. destruct (mapO_ok (waveLimits size (bCenters b))
     (fun lim p => fst p < nrMassBins b /\ snd p < nrMassBins b /\ forall m, m < nrMassBins b -> (fst p <= m <= snd p <-> inRange lim (nth m (bCenters b) 0%R))) (bLimits b)) as (lims & E & F).
  { intros lim Hlim. destruct (Hr lim Hlim) as [H1 H2]. destruct (waveLimits_ok size (bCenters b) lim Ho Hsz H1 H2) as (f & l & E & H). exists (f, l). auto. }
  exists lims. split; auto. destruct (Forall2_nth_pair _ _ _ (0%R, 0%R) (0, 0) F) as [L H]. split; auto. intros w Hw. destruct (H w Hw) as (A1 & A2 & A3).
  split; auto. split; auto. intros m Hm. rewrite (A3 m Hm). unfold fitted. symmetry. apply inRangeB_iff.
Qed.
Lemma maxNr_ge bins b : In b bins -> nrMassBins b <= maxNrMassBins bins.
Proof.
  unfold maxNrMassBins. intros H.
  assert (G : forall l a, a <= fold_left (fun a b => Nat.max a (nrMassBins b)) l a /\ (In b l -> nrMassBins b <= fold_left (fun a b => Nat.max a (nrMassBins b)) l a)).
  { induction l as [|x l IH]; intros a; cbn; [split; [lia|tauto]|]. destruct (IH (Nat.max a (nrMassBins x))) as [I1 I2]. split; [lia|]. intros [->|Hin]; [lia|auto]. }
  apply (G bins 0); auto.
Qed.
Lemma allLimits_ok bins : (forall b, In b bins -> ordered b /\ rangesMeet b) ->
  exists L, mapO (massLimits (maxNrMassBins bins)) bins = Some L /\ List.Forall2 limsOk bins L.
Proof. intros H. apply mapO_ok. intros b Hb. destruct (H b Hb). apply massLimits_ok; auto. apply maxNr_ge; auto. Qed.

Lemma pair_self lims w : pairLimits lims w w = nth w lims (0, 0).
Proof. unfold pairLimits. rewrite Nat.max_id, Nat.min_id. destruct (nth w lims (0, 0)); reflexivity. Qed.
Lemma outside_self lims w m : outside lims w w m = false <-> fst (nth w lims (0, 0)) <= m <= snd (nth w lims (0, 0)).
Proof. unfold outside. rewrite pair_self, orb_false_iff, !Nat.ltb_ge. lia. Qed.
Lemma outside_pair lims i j m : outside lims i j m = outside lims i i m || outside lims j j m.
Proof.
  assert (G : forall a b : bool, (a = false <-> b = false) -> a = b) by (intros [] []; intuition discriminate).
  apply G. rewrite orb_false_iff, !outside_self. unfold outside, pairLimits. cbn [fst snd]. rewrite orb_false_iff, !Nat.ltb_ge. lia.
Qed.
Lemma outside_fitted b lims w m : limsOk b lims -> w < nrWaves b -> m < nrMassBins b -> outside lims w w m = negb (fitted b m w).
Proof.
  intros [_ H] Hw Hm. destruct (H w Hw) as (_ & _ & A). specialize (A m Hm). rewrite <- outside_self in A.
  destruct (outside lims w w m), (fitted b m w); try reflexivity; destruct A as [A1 A2]; try (specialize (A1 eq_refl)); try (specialize (A2 eq_refl)); discriminate.
Qed.
Lemma massMin_le size n lims w : w < n -> massMin size n lims <= fst (nth w lims (0, 0)).
Proof.
  intros H. unfold massMin.
  assert (G : forall l a, fold_left (fun a w => Nat.min a (fst (pairLimits lims w w))) l a <= a /\ (In w l -> fold_left (fun a w => Nat.min a (fst (pairLimits lims w w))) l a <= fst (nth w lims (0, 0)))).
  { induction l as [|x l IH]; intros a; cbn [fold_left In]; [split; [lia|tauto]|]. destruct (IH (Nat.min a (fst (pairLimits lims x x)))) as [I1 I2].
    split; [lia|]. intros [->|Hin]; [rewrite pair_self in *; lia|auto]. }
  destruct (G (seq 0 n) size) as [_ H']. apply H', in_seq. lia.
Qed.
Lemma massMax_ge n lims w : w < n -> snd (nth w lims (0, 0)) <= massMax n lims.
Proof.
  intros H. unfold massMax.
  assert (G : forall l a, a <= fold_left (fun a w => Nat.max a (snd (pairLimits lims w w))) l a /\ (In w l -> snd (nth w lims (0, 0)) <= fold_left (fun a w => Nat.max a (snd (pairLimits lims w w))) l a)).
  { induction l as [|x l IH]; intros a; cbn [fold_left In]; [split; [lia|tauto]|]. destruct (IH (Nat.max a (snd (pairLimits lims x x)))) as [I1 I2].
    split; [lia|]. intros [->|Hin]; [rewrite pair_self in *; lia|auto]. }
  destruct (G (seq 0 n) 0) as [_ H']. apply H', in_seq. lia.
Qed.
Lemma massMax_lt n lims N : 0 < n -> (forall w, w < n -> snd (nth w lims (0, 0)) < N) -> massMax n lims < N.
Proof.
  intros Hn H. unfold massMax.
  assert (G : forall l a, a < N -> (forall w, In w l -> w < n) -> fold_left (fun a w => Nat.max a (snd (pairLimits lims w w))) l a < N).
  { induction l as [|x l IH]; intros a Ha Hl; cbn [fold_left]; auto. apply IH; [|intros; apply Hl; right; auto]. rewrite pair_self. specialize (H x (Hl x (or_introl eq_refl))). lia. }
  apply G; [specialize (H 0 Hn); lia|]. intros w Hw. apply in_seq in Hw. lia.
Qed.

(* ---- sums ---- *)
Lemma fold_total {A} (f : A -> R) (p : A -> bool) l c : fold_left (fun c x => if p x then c else (c + f x)%R) l c = (c + total (map (fun x => if p x then 0%R else f x) l))%R.
Proof. revert c; induction l as [|x l IH]; intros c; cbn [fold_left map]; [unfold total; cbn; lra|]. rewrite IH, total_cons. destruct (p x); lra. Qed.
Lemma chiMass_sum uc n lims rho inv m amp c :
  chiMass uc n lims rho inv m amp c = (c + total (map (fun x => if outside lims (fst x) (snd x) m then 0%R
     else chiTerm uc n inv (fst x) (snd x) (Cminus (Cmult (amp (fst x)) (Cconj (amp (snd x)))) (rho (fst x) (snd x)))) (elements n)))%R.
Proof.
  unfold chiMass, elements. set (g := fun i j => if outside lims i j m then 0%R else chiTerm uc n inv i j (Cminus (Cmult (amp i) (Cconj (amp j))) (rho i j))).
  assert (G : forall l c, fold_left (fun chi2 i => fold_left (fun chi2 j => if outside lims i j m then chi2 else (chi2 + chiTerm uc n inv i j (Cminus (Cmult (amp i) (Cconj (amp j))) (rho i j)))%R) (seq i (n - i)) chi2) l c =
     (c + total (map (fun x => g (fst x) (snd x)) (flat_map (fun i => map (fun j => (i, j)) (seq i (n - i))) l)))%R).
  { induction l as [|i l IH]; intros c0; cbn [fold_left flat_map]; [unfold total; cbn; lra|].
    rewrite IH, map_app, total_app, map_map. cbn [fst snd].
    rewrite (fold_total (fun j => chiTerm uc n inv i j (Cminus (Cmult (amp i) (Cconj (amp j))) (rho i j))) (fun j => outside lims i j m)). unfold g. lra. }
  rewrite G. reflexivity.
Qed.
Lemma total_indexed {A} (F : nat * A -> R) (G : A -> R) l s : (forall k x, nth_error l k = Some x -> F (s + k, x) = G x) ->
  total (map F (combine (seq s (length l)) l)) = total (map G l).
Proof.
  revert s; induction l as [|x l IH]; intros s H; [reflexivity|]. cbn [length seq combine map]. rewrite !total_cons. f_equal.
  - rewrite <- (H 0 x eq_refl). rewrite Nat.add_0_r. reflexivity.
  - apply IH. intros k y Hk. rewrite <- (H (S k) y Hk). f_equal. f_equal. lia.
Qed.
Lemma total_window (f : nat -> R) N lo k : (0 < k -> lo + k <= N) -> (forall m, m < N -> ~ (lo <= m < lo + k) -> f m = 0%R) ->
  total (map f (seq lo k)) = total (map f (seq 0 N)).
Proof.
  intros H Hz. destruct (Nat.eq_dec k 0) as [->|Hk].
  - cbn [seq map]. symmetry. apply total_zero. intros x Hx. apply in_map_iff in Hx. destruct Hx as (m & <- & Hm). apply in_seq in Hm. apply Hz; lia.
  - specialize (H ltac:(lia)). replace N with (lo + (k + (N - lo - k))) by lia. rewrite !seq_app, !map_app, !total_app. cbn [Nat.add].
    rewrite (total_zero (map f (seq 0 lo))), (total_zero (map f (seq (lo + k) _))); [lra| |].
    + intros x Hx. apply in_map_iff in Hx. destruct Hx as (m & <- & Hm). apply in_seq in Hm. apply Hz; lia.
    + intros x Hx. apply in_map_iff in Hx. destruct Hx as (m & <- & Hm). apply in_seq in Hm. apply Hz; lia.
Qed.
Lemma prepareMasses_ok invert uc n lims rho ms : forall cov x, NoDup ms ->
  (forall m, In m ms -> prepareMass invert uc n lims (rho m) (cov m) m = Some (x m)) ->
  exists c', prepareMasses invert uc n lims rho ms cov = (c', true) /\ forall m, In m ms -> c' m = x m.
Proof.
  assert (G : forall ms cov x, NoDup ms -> (forall m, In m ms -> prepareMass invert uc n lims (rho m) (cov m) m = Some (x m)) ->
     exists c', prepareMasses invert uc n lims rho ms cov = (c', true) /\ (forall m, In m ms -> c' m = x m) /\ forall m, ~ In m ms -> c' m = cov m).
  { clear ms. induction ms as [|m ms IH]; intros cov x Nd H; [exists cov; cbn; tauto|]. apply NoDup_cons_iff in Nd. destruct Nd as [N1 N2].
    cbn [prepareMasses]. rewrite (H m (or_introl eq_refl)).
    destruct (IH (fun k => if Nat.eqb k m then x m else cov k) x N2) as (c' & E & I1 & I2).
    { intros m' Hm'. destruct (Nat.eqb_spec m' m); [subst; tauto|]. apply H. right; auto. }
    exists c'. split; auto. split.
    - intros m' [<-|Hm']; auto. rewrite I2 by auto. rewrite Nat.eqb_refl. reflexivity.
    - intros m' Hn. rewrite I2 by (intros Hc; apply Hn; right; auto). destruct (Nat.eqb_spec m' m); auto. subst. exfalso. apply Hn. left; auto. }
  intros cov x Nd H. destruct (G ms cov x Nd H) as (c' & E & I1 & _). eauto.
Qed.

Section Bin.
Variables (invert : nat -> mat -> mat) (uc : covUse) (b : binIn) (lims : list (nat * nat)) (size : nat).
Hypothesis Hinv : inverts invert.
Hypothesis Hu : uc <> UseFull.
Hypothesis L : limsOk b lims.
Hypothesis Er : errorsGiven uc b.
Let n := nrWaves b.
Let ms := massRange (massMin size n lims) (massMax n lims).
Lemma ms_in m : In m ms -> 0 < n -> m < nrMassBins b.
Proof.
  intros H Hn. unfold ms, massRange in H. apply in_seq in H. pose proof (massMax_lt n lims (nrMassBins b) Hn). 
  assert (massMax n lims < nrMassBins b). { apply H0. intros w Hw. destruct L as [_ L']. apply (L' w Hw). } lia.
Qed.
Lemma given m i j : m < nrMassBins b -> i <= j < n -> fitted b m i = true -> fitted b m j = true -> okAt uc (bCov b m) (covIdx n i j) (Nat.eqb i j).
Proof.
  intros Hm Hij Fi Fj. destruct (In_nth_error _ _ (proj2 (elements_in n i j) Hij)) as [k Hk].
  pose proof (Er m k i j Hm Hk Fi Fj) as E. rewrite (elements_idx _ _ _ _ Hk).
  unfold okAt, varRe, varIm, covReIm, covImRe, bCov in *. rewrite !Nat.add_1_r in E. exact E.
Qed.
Lemma not_zero m w : m < nrMassBins b -> w < n -> fitted b m w = true -> zeroWave n (bRho b m) (bCov b m) w = false.
Proof.
  intros Hm Hw F. pose proof (given m w w Hm ltac:(lia) F F) as G. unfold okAt in G. rewrite Nat.eqb_refl in G.
  destruct (zeroWave n (bRho b m) (bCov b m) w) eqn:E; auto. exfalso. unfold zeroWave in E. rewrite forallb_forall in E.
  specialize (E w (proj2 (in_seq n 0 w) ltac:(lia))). cbv zeta in E. rewrite Nat.leb_refl in E. rewrite !andb_true_iff in E.
  destruct E as (((((_ & _) & E) & _) & _) & _). apply reqb_t in E. contradiction.
Qed.
Lemma prepared m : In m ms -> exists x, prepareMass invert uc n lims (bRho b m) (bCov b m) m = Some x /\
  forall i j d, i <= j < n -> fitted b m i = true -> fitted b m j = true -> chiTerm uc n x i j d = elemAt uc (bCov b m) (covIdx n i j) (Nat.eqb i j) d.
Proof.
  intros Hm. unfold prepareMass.
  assert (E : existsb (fun w => zeroWave n (bRho b m) (bCov b m) w && negb (outside lims w w m)) (seq 0 n) = false).
  { destruct (existsb _ _) eqn:E; auto. apply existsb_exists in E. destruct E as (w & Hw & E). apply in_seq in Hw. apply andb_true_iff in E. destruct E as [E1 E2].
    assert (m < nrMassBins b) by (apply ms_in; auto; lia).
    rewrite (outside_fitted b lims w m L) in E2 by (auto; unfold n in *; lia). rewrite negb_involutive in E2. rewrite not_zero in E1 by (auto; lia). discriminate. }
  rewrite E. eexists. split; [reflexivity|]. intros i j d Hij Fi Fj.
  assert (Hmb : m < nrMassBins b) by (apply ms_in; auto; lia).
  set (z := fun w => zeroWave n (bRho b m) (bCov b m) w || outside lims w w m).
  assert (Zf : forall w, w < n -> fitted b m w = true -> z w = false).
  { intros w Hw F. unfold z. rewrite not_zero by auto. rewrite (outside_fitted b lims w m L) by auto. rewrite F. reflexivity. }
  apply (prepared_term invert uc n z (bCov b m) Hinv Hu); auto; [|apply Zf; auto; lia|apply Zf; auto; lia].
  intros i' j' H' Z1 Z2. unfold z in Z1, Z2. apply orb_false_iff in Z1, Z2. destruct Z1 as [_ Z1], Z2 as [_ Z2].
  rewrite (outside_fitted b lims i' m L) in Z1 by (auto; unfold n in *; lia). rewrite (outside_fitted b lims j' m L) in Z2 by (auto; unfold n in *; lia). apply given; auto; apply negb_false_iff; auto.
Qed.
Lemma elem_eq m k i j d : nth_error (elements n) k = Some (i, j) -> elemAt uc (bCov b m) (covIdx n i j) (Nat.eqb i j) d = element uc b m k i j d.
Proof.
  intros H. rewrite (elements_idx _ _ _ _ H). unfold elemAt, element, varRe, varIm, covReIm, covImRe, bCov. rewrite !Nat.add_1_r. reflexivity.
Qed.
Lemma mass_sum m x amp c : m < nrMassBins b ->
  (forall i j d, i <= j < n -> fitted b m i = true -> fitted b m j = true -> chiTerm uc n x i j d = elemAt uc (bCov b m) (covIdx n i j) (Nat.eqb i j) d) ->
  chiMass uc n lims (bRho b m) x m amp c = (c + chiOfMass uc b m amp)%R.
Proof.
  intros Hm H. rewrite chiMass_sum. f_equal. unfold chiOfMass. fold n. symmetry.
  apply (total_indexed (fun x0 : nat * (nat * nat) => let '(k, (i, j)) := x0 in if fitted b m i && fitted b m j then element uc b m k i j (amp i * Cconj (amp j) - bRho b m i j)%C else 0%R)).
  intros k [i j] Hk. cbn [Nat.add fst snd]. pose proof (proj1 (elements_in n i j) (nth_error_In _ _ Hk)) as Hij.
  rewrite outside_pair, (outside_fitted b lims i m L), (outside_fitted b lims j m L) by (auto; unfold n in *; lia).
  destruct (fitted b m i) eqn:Fi; [|reflexivity]. destruct (fitted b m j) eqn:Fj; [|reflexivity]. cbn [andb negb orb].
  rewrite H by (auto; lia). symmetry. apply elem_eq. auto.
Qed.
Lemma chiOfMass_out m amp : m < nrMassBins b -> ~ In m ms -> chiOfMass uc b m amp = 0%R.
Proof.
  intros Hm Hn. unfold chiOfMass. apply total_zero. intros x Hx. apply in_map_iff in Hx. destruct Hx as ([k [i j]] & <- & Hin).
  apply in_combine_r, elements_in in Hin. destruct (fitted b m i) eqn:Fi; [|reflexivity]. exfalso. apply Hn.
  destruct L as [_ L']. destruct (L' i ltac:(lia)) as (_ & _ & A). apply (A m Hm) in Fi.
  pose proof (massMin_le size n lims i ltac:(unfold n; lia)). pose proof (massMax_ge n lims i ltac:(unfold n; lia)). unfold ms, massRange. apply in_seq. lia.
Qed.
Lemma bin_sum (a : nat -> nat -> C) : exists cov, prepareMasses invert uc n lims (bRho b) ms (bCov b) = (cov, true) /\
  forall c, fold_left (fun chi2 m => chiMass uc n lims (bRho b m) (cov m) m (a m) chi2) ms c =
    (c + total (map (fun m => chiOfMass uc b m (a m)) (seq 0 (nrMassBins b))))%R.
Proof.
  set (x := fun m => match prepareMass invert uc n lims (bRho b m) (bCov b m) m with Some y => y | None => zeroMat end).
  destruct (prepareMasses_ok invert uc n lims (bRho b) ms (bCov b) x) as (cov & E & Hc).
  - unfold ms, massRange. apply seq_NoDup.
  - intros m Hm. destruct (prepared m Hm) as (y & Ey & _). unfold x. rewrite Ey. reflexivity.
  - exists cov. split; auto. intros c.
    destruct (Nat.eq_dec n 0) as [Hn|Hn].
    { assert (Z : forall l c, fold_left (fun chi2 m => chiMass uc n lims (bRho b m) (cov m) m (a m) chi2) l c = c).
      { induction l as [|m l IH]; intros c0; cbn [fold_left]; auto. rewrite IH. unfold chiMass. rewrite Hn. reflexivity. }
      rewrite Z. rewrite total_zero; [lra|]. intros y Hy. apply in_map_iff in Hy. destruct Hy as (m & <- & _). unfold chiOfMass. fold n. rewrite Hn. reflexivity. }
    rewrite <- (total_window _ (nrMassBins b) (massMin size n lims) (S (massMax n lims) - massMin size n lims)).
    + fold (massRange (massMin size n lims) (massMax n lims)). fold ms.
      assert (G : forall l c, (forall m, In m l -> In m ms) -> fold_left (fun chi2 m => chiMass uc n lims (bRho b m) (cov m) m (a m) chi2) l c =
         (c + total (map (fun m => chiOfMass uc b m (a m)) l))%R).
      { induction l as [|m l IH]; intros c0 Hl; [unfold total; cbn; lra|]. cbn [fold_left map]. rewrite total_cons, IH by (intros; apply Hl; right; auto).
        assert (Hm : In m ms) by (apply Hl; left; auto).
        rewrite mass_sum.
        - lra.
        - apply ms_in; auto; lia.
        - destruct (prepared m Hm) as (y & Ey & Hy). rewrite (Hc m Hm). unfold x. rewrite Ey. auto. }
      apply G. auto.
    + intros Hk. assert (massMax n lims < nrMassBins b); [|lia]. apply massMax_lt; [lia|]. intros w Hw. destruct L as [_ L']. apply (L' w Hw).
    + intros m Hm Hn'. apply chiOfMass_out; auto. unfold ms, massRange. rewrite in_seq. lia.
Qed.
End Bin.

Lemma chi_main invert uc size bins L amp : inverts invert -> uc <> UseFull -> List.Forall2 limsOk bins L -> (forall b, In b bins -> errorsGiven uc b) -> length amp = length bins -> forall c,
  chiBins uc size (combine bins L) (prepareBins invert uc size (combine bins L)) amp c = (c + chiOf uc bins amp)%R.
Proof.
  intros Hinv Hu F. revert amp. induction F as [|b lims bins L Hb F IH]; intros amp He Hl c.
  - cbn. unfold chiOf. cbn. lra.
  - destruct amp as [|a amp]; [discriminate|]. cbn [combine prepareBins].
    destruct (bin_sum invert uc b lims size Hinv Hu Hb (He b (or_introl eq_refl)) a) as (cov & E & S).
    rewrite E. cbn [chiBins]. rewrite S, IH.
    + unfold chiOf. cbn [combine map]. rewrite total_cons. lra.
    + intros; apply He; right; auto.
    + cbn in Hl. lia.
Qed.
