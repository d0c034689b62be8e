From Coq Require Import ZArith Reals List Bool Lia Lra Factorial Permutation.
From Verif Require Import SpinModel SpinSpec SpinProofs CGModel CGSpec CGProofs DFuncModel DFuncSpec.
Import ListNotations.
Open Scope Z_scope.

(* ---------- sums over lists of integers ---------- *)
Definition sumL (f : Z -> R) (l : list Z) : R := fold_right Rplus 0%R (map f l).

Lemma sumL_perm f l1 l2 : Permutation l1 l2 -> sumL f l1 = sumL f l2.
Proof. unfold sumL. induction 1; cbn; try lra. Qed.
Lemma sumL_filter f g l : (forall x, g x = false -> f x = 0%R) -> sumL f (filter g l) = sumL f l.
Proof.
  intros H. unfold sumL. induction l as [|x r IH]; cbn; [reflexivity|].
  destruct (g x) eqn:E; cbn; rewrite IH; [reflexivity|]. rewrite (H x E). lra.
Qed.
Lemma sumL_guard f g l1 l2 : NoDup l1 -> NoDup l2 ->
  (forall x, In x l1 <-> In x l2 /\ g x = true) -> (forall x, g x = false -> f x = 0%R) ->
  sumL f l1 = sumL f l2.
Proof.
  intros H1 H2 H3 H4. rewrite <- (sumL_filter f g l2 H4). apply sumL_perm.
  apply NoDup_Permutation; [exact H1|now apply NoDup_filter|].
  intros x. rewrite filter_In. apply H3.
Qed.
Lemma sumL_map f h l : sumL f (map h l) = sumL (fun x => f (h x)) l.
Proof. unfold sumL. now rewrite map_map. Qed.
Lemma sumL_ext f g l : (forall x, In x l -> f x = g x) -> sumL f l = sumL g l.
Proof. intros H. unfold sumL. f_equal. now apply map_ext_in. Qed.
Lemma sumL_scal a f l : sumL (fun x => a * f x)%R l = (a * sumL f l)%R.
Proof. unfold sumL. induction l; cbn; [lra|]. rewrite IHl. lra. Qed.

Lemma zrange_In lo hi x : In x (zrange lo hi) <-> lo <= x <= hi.
Proof.
  unfold zrange. rewrite in_map_iff. split.
  - intros (i & <- & Hi). apply in_seq in Hi. lia.
  - intros H. exists (Z.to_nat (x - lo)). split; [lia|]. apply in_seq. lia.
Qed.
Lemma zrange_NoDup lo hi : NoDup (zrange lo hi).
Proof.
  unfold zrange. apply FinFun.Injective_map_NoDup; [|apply seq_NoDup]. intros x y H. lia.
Qed.
Lemma map_inj_NoDup (h : Z -> Z) l : (forall x y, h x = h y -> x = y) -> NoDup l -> NoDup (map h l).
Proof. intros. apply FinFun.Injective_map_NoDup; auto. Qed.

Lemma sumUpTo_sumL n f : sumUpTo n f = sumL f (map Z.of_nat (seq 0 n)).
Proof.
  induction n as [|n IH]; cbn [sumUpTo]; [reflexivity|].
  rewrite seq_S, map_app. unfold sumL in *. rewrite map_app, fold_right_app, IH. cbn.
  generalize (map f (map Z.of_nat (seq 0 n))). intros l. induction l; cbn; lra.
Qed.
Lemma seqZ_In n x : In x (map Z.of_nat (seq 0 n)) <-> 0 <= x < Z.of_nat n.
Proof.
  rewrite in_map_iff. split.
  - intros (i & <- & Hi). apply in_seq in Hi. lia.
  - intros H. exists (Z.to_nat x). split; [lia|]. apply in_seq. lia.
Qed.
Lemma seqZ_NoDup n : NoDup (map Z.of_nat (seq 0 n)).
Proof. apply FinFun.Injective_map_NoDup; [|apply seq_NoDup]. intros x y H. lia. Qed.

Lemma mapO_some {A B} (f : A -> option B) (g : A -> B) l :
  (forall x, In x l -> f x = Some (g x)) -> mapO f l = Some (map g l).
Proof.
  induction l as [|x r IH]; intros H; cbn; [reflexivity|].
  rewrite (H x) by now left. cbn. rewrite IH by (intros; apply H; now right). reflexivity.
Qed.

(* ---------- signs ---------- *)
Lemma facR_pos n : (0 < facR n)%R.
Proof. unfold facR. apply lt_0_INR. apply lt_O_fact. Qed.
Lemma facR_facSpec n : IZR (facSpec n) = facR n.
Proof. unfold facSpec, facR. now rewrite INR_IZR_INZ. Qed.
Lemma pm1_mop n : powMinusOne n = minusOnePow n.
Proof. unfold powMinusOne, minusOnePow. rewrite <- Z.negb_odd. now destruct (Z.odd n). Qed.
Lemma mop_sq n : minusOnePow n * minusOnePow n = 1.
Proof. unfold minusOnePow. now destruct (Z.even n). Qed.
Lemma mop_add a b : minusOnePow (a + b) = minusOnePow a * minusOnePow b.
Proof. unfold minusOnePow. rewrite Z.even_add. destruct (Z.even a), (Z.even b); reflexivity. Qed.
Lemma mop_2 a : minusOnePow (2 * a) = 1.
Proof. unfold minusOnePow. now rewrite Z.even_mul. Qed.
Lemma mop_opp a : minusOnePow (- a) = minusOnePow a.
Proof. unfold minusOnePow. now rewrite Z.even_opp. Qed.
Lemma mop_nz a : IZR (minusOnePow a) <> 0%R.
Proof. unfold minusOnePow. destruct (Z.even a); lra. Qed.

(* ---------- parametrisation of (j, m, n) ---------- *)
Lemma proj_params j m : isProjOf j m -> exists a b, 0 <= a /\ 0 <= b /\ j = a + b /\ m = a - b.
Proof. intros (H & k & Hk & ->). exists k, (j - k). lia. Qed.

Section Fix.
Variables (a b c d : Z).
Hypothesis (Ha : 0 <= a) (Hb : 0 <= b) (Hc : 0 <= c) (Hd : 0 <= d) (Hj : a + b = c + d).
Let j := a + b.
Let m := a - b.
Let n := c - d.

Lemma h1 : Z.quot (j + m) 2 = a. Proof. replace (j + m) with (2 * a) by (subst j m; lia). apply quot2. Qed.
Lemma h2 : Z.quot (j + n) 2 = c. Proof. replace (j + n) with (2 * c) by (subst j n; lia). apply quot2. Qed.
Lemma h3 : Z.quot (j - m) 2 = b. Proof. replace (j - m) with (2 * b) by (subst j m; lia). apply quot2. Qed.
Lemma h4 : Z.quot (j - n) 2 = d. Proof. replace (j - n) with (2 * d) by (subst j n; lia). apply quot2. Qed.
Lemma h5 : Z.quot (m + n) 2 = a - d. Proof. replace (m + n) with (2 * (a - d)) by (subst m n; lia). apply quot2. Qed.
Lemma g1 : (j + m) / 2 = a. Proof. replace (j + m) with (2 * a) by (subst j m; lia). apply half2. Qed.
Lemma g2 : (j + n) / 2 = c. Proof. replace (j + n) with (2 * c) by (subst j n; lia). apply half2. Qed.
Lemma g3 : (j - m) / 2 = b. Proof. replace (j - m) with (2 * b) by (subst j m; lia). apply half2. Qed.
Lemma g4 : (j - n) / 2 = d. Proof. replace (j - n) with (2 * d) by (subst j n; lia). apply half2. Qed.
Lemma g6 : (m - n) / 2 = a - c. Proof. replace (m - n) with (2 * (a - c)) by (subst m n; lia). apply half2. Qed.

Definition codeTerm (k : Z) : Z * Z * Z :=
  (2 * k - (a - d), j + (a - d) - 2 * k,
   facSpec k * facSpec (a - k) * facSpec (c - k) * facSpec (k - (a - d)) * powMinusOne k).

Lemma dFresh_some : dFresh j m n = Some {| eSign := powMinusOne a;
    eRad := facSpec a * facSpec b * facSpec c * facSpec d;
    eTerms := map codeTerm (zrange (Z.max 0 (a - d)) (Z.min a c)) |}.
Proof.
  unfold dFresh. rewrite h1, h2, h3, h4, h5. rewrite !facZ_some by assumption. cbn [bindO].
  rewrite (mapO_some _ codeTerm).
  - reflexivity.
  - intros k Hk. apply zrange_In in Hk. unfold dTerm. rewrite h1, h2, h5.
    rewrite !facZ_some by lia. reflexivity.
Qed.

Lemma entry_is_wigner theta e : dFresh j m n = Some e ->
  entryVal e (cos (theta / 2)) (sin (theta / 2)) = wignerD j m n theta.
Proof.
  rewrite dFresh_some. intros [= <-]. unfold entryVal, wignerD. cbn [eSign eRad eTerms].
  rewrite g1, g2, g3, g4. rewrite !mult_IZR, !facR_facSpec.
  rewrite (Rmult_comm (IZR (powMinusOne a))). rewrite Rmult_assoc. f_equal.
  rewrite map_map. fold (sumL (fun k => termVal (cos (theta / 2)) (sin (theta / 2)) (codeTerm k)) (zrange (Z.max 0 (a - d)) (Z.min a c))).
  rewrite <- sumL_scal. rewrite sumUpTo_sumL.
  set (g := fun s => (0 <=? s) && (0 <=? c - s) && (0 <=? a - c + s) && (0 <=? b - s)).
  rewrite <- (sumL_guard (wignerDSummand j m n theta) g (map (fun k => c - k) (zrange (Z.max 0 (a - d)) (Z.min a c)))).
  - rewrite sumL_map. apply sumL_ext. intros k Hk. apply zrange_In in Hk.
    unfold wignerDSummand. rewrite g2, g3, g6.
    replace ((0 <=? c - k) && (0 <=? c - (c - k)) && (0 <=? a - c + (c - k)) && (0 <=? b - (c - k))) with true.
    2:{ symmetry. rewrite !andb_true_iff, !Z.leb_le. lia. }
    unfold termVal, codeTerm.
    rewrite !mult_IZR, !facR_facSpec.
    replace (j - (a - c) - 2 * (c - k)) with (2 * k - (a - d)) by (subst j; lia).
    replace (a - c + 2 * (c - k)) with (j + (a - d) - 2 * k) by (subst j; lia).
    replace (c - (c - k)) with k by lia. replace (a - c + (c - k)) with (a - k) by lia.
    replace (b - (c - k)) with (k - (a - d)) by lia.
    assert (IZR (minusOnePow (a - k)) = IZR (powMinusOne a) / IZR (powMinusOne k))%R as ->.
    { rewrite !pm1_mop. replace (a - k) with (a + - k) by lia. rewrite mop_add, mop_opp, mult_IZR.
      pose proof (mop_nz k). apply (Rmult_eq_reg_r (IZR (minusOnePow k))); [|assumption].
      unfold Rdiv. rewrite (Rmult_assoc _ (/ _)), Rinv_l by assumption.
      rewrite Rmult_assoc, <- mult_IZR, mop_sq. lra. }
    pose proof (facR_pos k). pose proof (facR_pos (a - k)). pose proof (facR_pos (c - k)). pose proof (facR_pos (k - (a - d))).
    assert (IZR (powMinusOne k) <> 0%R) by (rewrite pm1_mop; apply mop_nz).
    field. repeat split; try assumption; lra.
  - apply map_inj_NoDup; [lia|apply zrange_NoDup].
  - apply seqZ_NoDup.
  - intros s. rewrite in_map_iff, seqZ_In. unfold g. rewrite !andb_true_iff, !Z.leb_le. split.
    + intros (k & <- & Hk). apply zrange_In in Hk. subst j. lia.
    + intros H. exists (c - s). split; [lia|]. apply zrange_In. lia.
  - intros s Hs. unfold g in Hs. unfold wignerDSummand. rewrite g2, g3, g6. now rewrite Hs.
Qed.
End Fix.

Lemma powerRZ_opp x e : powerRZ (- x) e = (IZR (minusOnePow e) * powerRZ x e)%R.
Proof.
  assert (forall p : nat, ((- x) ^ p = IZR (minusOnePow (Z.of_nat p)) * x ^ p)%R) as H.
  { induction p as [|p IH]; cbn [pow]; [cbn; lra|]. rewrite IH. rewrite Nat2Z.inj_succ, <- Z.add_1_r, mop_add, mult_IZR.
    change (minusOnePow 1) with (-1). lra. }
  destruct e as [|p|p]; unfold powerRZ.
  - cbn; lra.
  - rewrite H. now rewrite positive_nat_Z.
  - rewrite H. rewrite positive_nat_Z. rewrite <- (mop_opp (Z.pos p)). change (- Z.pos p) with (Z.neg p).
    rewrite Rinv_mult.
    assert (/ IZR (minusOnePow (Z.neg p)) = IZR (minusOnePow (Z.neg p)))%R as ->; [|reflexivity].
    unfold minusOnePow. destruct (Z.even _); lra.
Qed.

Lemma wignerD_swap a b c d theta : 0 <= a -> 0 <= b -> 0 <= c -> 0 <= d -> a + b = c + d ->
  wignerD (a + b) (c - d) (a - b) (- theta) = wignerD (a + b) (a - b) (c - d) theta.
Proof.
  intros Ha Hb Hc Hd Hj. unfold wignerD.
  pose proof (g1 a b 0 0) as G1. pose proof (g2 a b c d Hj) as G2.
  pose proof (g3 a b 0 0) as G3. pose proof (g4 a b c d Hj) as G4. cbv zeta in *.
  rewrite G1, G2, G3, G4.
  f_equal; [f_equal; ring|]. rewrite !sumUpTo_sumL.
  set (g := fun s => (0 <=? s) && (0 <=? c - s) && (0 <=? a - c + s) && (0 <=? b - s)).
  set (g' := fun s => (0 <=? s) && (0 <=? a - s) && (0 <=? c - a + s) && (0 <=? d - s)).
  set (l := zrange (Z.max 0 (c - a)) (Z.min c b)).
  rewrite <- (sumL_guard (wignerDSummand (a + b) (a - b) (c - d) theta) g l).
  rewrite <- (sumL_guard (wignerDSummand (a + b) (c - d) (a - b) (- theta)) g' (map (fun s => s + (a - c)) l)).
  - rewrite sumL_map. apply sumL_ext. intros s Hs. unfold l in Hs. apply zrange_In in Hs.
    unfold wignerDSummand.
    assert ((a + b - (c - d)) / 2 = d) as -> by exact G4.
    assert ((c - d - (a - b)) / 2 = c - a) as ->.
    { replace (c - d - (a - b)) with (2 * (c - a)) by lia. apply half2. }
    assert ((a - b - (c - d)) / 2 = a - c) as ->.
    { replace (a - b - (c - d)) with (2 * (a - c)) by lia. apply half2. }
    assert ((a + b + (a - b)) / 2 = a) as -> by exact G1.
    assert ((a + b + (c - d)) / 2 = c) as -> by exact G2.
    assert ((a + b - (a - b)) / 2 = b) as -> by exact G3.
    replace ((0 <=? s + (a - c)) && (0 <=? a - (s + (a - c))) && (0 <=? c - a + (s + (a - c))) && (0 <=? d - (s + (a - c)))) with true.
    2:{ symmetry. rewrite !andb_true_iff, !Z.leb_le. lia. }
    replace ((0 <=? s) && (0 <=? c - s) && (0 <=? a - c + s) && (0 <=? b - s)) with true.
    2:{ symmetry. rewrite !andb_true_iff, !Z.leb_le. lia. }
    replace (- theta / 2)%R with (- (theta / 2))%R by lra. rewrite cos_neg, sin_neg, powerRZ_opp.
    replace (c - a + (s + (a - c))) with s by lia.
    replace (a - (s + (a - c))) with (c - s) by lia.
    replace (s + (a - c)) with (a - c + s) by lia.
    replace (d - (a - c + s)) with (b - s) by lia.
    replace (a + b - (c - a) - 2 * (a - c + s)) with (a + b - (a - c) - 2 * s) by lia.
    replace (c - a + 2 * (a - c + s)) with (a - c + 2 * s) by lia.
    rewrite !mop_add, mop_2, !mult_IZR.
    pose proof (facR_pos s). pose proof (facR_pos (c - s)). pose proof (facR_pos (a - c + s)). pose proof (facR_pos (b - s)).
    field. repeat split; lra.
  - unfold l. apply map_inj_NoDup; [lia|apply zrange_NoDup].
  - apply seqZ_NoDup.
  - intros s. unfold l. rewrite in_map_iff, seqZ_In. unfold g'. rewrite !andb_true_iff, !Z.leb_le. split.
    + intros (k & <- & Hk). apply zrange_In in Hk. lia.
    + intros H. exists (s - (a - c)). split; [lia|]. apply zrange_In. lia.
  - intros s Hs. unfold g' in Hs. unfold wignerDSummand.
    assert ((a + b - (c - d)) / 2 = d) as -> by exact G4.
    assert ((c - d - (a - b)) / 2 = c - a) as ->.
    { replace (c - d - (a - b)) with (2 * (c - a)) by lia. apply half2. }
    assert ((a + b + (a - b)) / 2 = a) as -> by exact G1. now rewrite Hs.
  - unfold l. apply zrange_NoDup.
  - apply seqZ_NoDup.
  - intros s. unfold l. rewrite zrange_In, seqZ_In. unfold g. rewrite !andb_true_iff, !Z.leb_le. lia.
  - intros s Hs. unfold g in Hs. unfold wignerDSummand.
    assert ((a - b - (c - d)) / 2 = a - c) as ->.
    { replace (a - b - (c - d)) with (2 * (a - c)) by lia. apply half2. }
    assert ((a + b + (c - d)) / 2 = c) as -> by exact G2.
    assert ((a + b - (a - b)) / 2 = b) as -> by exact G3. now rewrite Hs.
Qed.

(* ---------- the cache ---------- *)
Definition goodEntry (j i1 i2 : Z) (e : dEntry) : Prop := dFresh j (2 * i1 - j) (2 * i2 - j) = Some e.
Definition dInv (s : dState) : Prop :=
  forall j i1 i2 e, dCache s j i1 i2 = Some e -> goodEntry j i1 i2 e.

Lemma dInv_init : dInv dInit.
Proof. intros j i1 i2 e H. discriminate H. Qed.

Lemma wignerD_000 theta : wignerD 0 0 0 theta = 1%R.
Proof.
  unfold wignerD, wignerDSummand, facR. cbn. change (Z.to_nat (0 / 2)) with 0%nat. cbn.
  rewrite !Rmult_1_r, sqrt_1. change (Pos.to_nat 1) with 1%nat. cbn [sumUpTo]. cbn. lra.
Qed.

Lemma theta_cases theta a b c d : 0 <= a -> 0 <= b -> 0 <= c -> 0 <= d -> a + b = c + d ->
  forall e, (if isNeg theta then dFresh (a + b) (c - d) (a - b) else dFresh (a + b) (a - b) (c - d)) = Some e ->
  let th := if isNeg theta then Rabs (theta / 2) else (theta / 2)%R in
  entryVal e (cos th) (sin th) = wignerD (a + b) (a - b) (c - d) theta.
Proof.
  intros Ha Hb Hc Hd Hj e He th. unfold th, isNeg in *. destruct (Rlt_dec theta 0) as [Hn|Hn].
  - rewrite Rabs_left by lra. replace (- (theta / 2))%R with ((- theta) / 2)%R by lra.
    rewrite Hj in He. rewrite (entry_is_wigner c d a b Hc Hd Ha Hb (eq_sym Hj) (- theta) e He).
    rewrite <- Hj. now apply wignerD_swap.
  - now apply (entry_is_wigner a b c d Ha Hb Hc Hd Hj).
Qed.

Lemma dCall_correct s j m n theta : dInv s -> j < 41 -> isProjOf j m -> isProjOf j n ->
  exists s', dCall s j m n theta = (s', DVal (wignerD j m n theta)) /\ dUse s' = dUse s
    /\ (dUse s = true -> dInv s')
    /\ ((dUse s = false) -> (forall x y z, dCache s x y z = None) -> (forall x y z, dCache s' x y z = None)).
Proof.
  intros Hinv Hj Hm Hn.
  destruct (proj_params j m Hm) as (a & b & Ha & Hb & Ejab & ->).
  destruct (proj_params j n Hn) as (c & d & Hc & Hd & Ejcd & ->).
  unfold dCall.
  replace (41 <=? j) with false by (symmetry; apply Z.leb_gt; lia).
  replace ((j <? 0) || (j <? Z.abs (a - b)) || (j <? Z.abs (c - d))) with false.
  2:{ symmetry. rewrite !orb_false_iff, !Z.ltb_ge. lia. }
  destruct (Z.eqb_spec j 0) as [E0|Ne0].
  { assert (a = 0 /\ b = 0 /\ c = 0 /\ d = 0) as (-> & -> & -> & ->) by lia. rewrite E0.
    exists s. rewrite wignerD_000. auto. }
  assert (exists m' n' a' b' c' d', (if isNeg theta then (c - d, a - b) else (a - b, c - d)) = (m', n')
     /\ m' = a' - b' /\ n' = c' - d' /\ 0 <= a' /\ 0 <= b' /\ 0 <= c' /\ 0 <= d' /\ a' + b' = j /\ c' + d' = j
     /\ (isNeg theta = true -> (a', b', c', d') = (c, d, a, b)) /\ (isNeg theta = false -> (a', b', c', d') = (a, b, c, d)))
    as (m' & n' & a' & b' & c' & d' & E & -> & -> & Ha' & Hb' & Hc' & Hd' & Hj1 & Hj2 & Hneg & Hpos).
  { destruct (isNeg theta); [exists (c - d), (a - b), c, d, a, b|exists (a - b), (c - d), a, b, c, d];
      repeat split; auto; try lia; discriminate. }
  rewrite E.
  pose proof (h1 a' b' 0 0) as H1. pose proof (h2 a' b' c' d' ltac:(lia)) as H2. cbv zeta in H1, H2.
  rewrite Hj1 in H1, H2. rewrite H1, H2.
  pose proof (dFresh_some a' b' c' d' Ha' Hb' Hc' Hd' ltac:(lia)) as Hf. cbv zeta in Hf. rewrite Hj1 in Hf.
  assert (Hval : forall e, dFresh j (a' - b') (c' - d') = Some e ->
    DVal (entryVal e (cos (if isNeg theta then Rabs (theta / 2) else theta / 2))
            (sin (if isNeg theta then Rabs (theta / 2) else theta / 2))) = DVal (wignerD j (a - b) (c - d) theta)).
  { intros e He. f_equal. rewrite Ejab. apply theta_cases; auto; try lia.
    destruct (isNeg theta); [specialize (Hneg eq_refl); injection Hneg as -> -> -> ->
                            |specialize (Hpos eq_refl); injection Hpos as -> -> -> ->]; rewrite <- Ejab; exact He. }
  destruct (dUse s) eqn:Eu.
  - destruct (dCache s j a' c') as [e|] eqn:Ec.
    + exists s. assert (He : dFresh j (a' - b') (c' - d') = Some e).
      { apply Hinv in Ec. unfold goodEntry in Ec. 
        replace (a' - b') with (2 * a' - j) by lia. replace (c' - d') with (2 * c' - j) by lia. exact Ec. }
      rewrite (Hval e He). repeat split; auto; discriminate.
    + rewrite Hf. eexists. rewrite (Hval _ Hf). split; [reflexivity|]. cbn [dUse dCache]. split; [reflexivity|].
      split; [|discriminate]. intros _ x y z e. unfold dUpd.
      cbn [dCache emptyEntry eTerms app eSign eRad].
      destruct ((j =? x) && (a' =? y) && (c' =? z)) eqn:Eq.
      * rewrite !andb_true_iff, !Z.eqb_eq in Eq. destruct Eq as [[<- <-] <-]. intros Hs. unfold goodEntry. rewrite <- Hs.
        replace (2 * a' - j) with (a' - b') by lia. replace (2 * c' - j) with (c' - d') by lia. rewrite Hf. reflexivity.
      * apply Hinv.
  - rewrite Hf. eexists. rewrite (Hval _ Hf). split; [reflexivity|]. cbn [dUse dCache]. split; [reflexivity|].
    split; [discriminate|]. intros _ Hnone x y z. unfold dUpd. rewrite !Hnone.
    now destruct ((j =? x) && (a' =? y) && (c' =? z)).
Qed.

Definition validCall (op : dOp) : Prop :=
  match op with DSetUse _ => True | DCall j m n _ => j < 41 /\ isProjOf j m /\ isProjOf j n end.
Definition answers (op : dOp) : list dOutcome :=
  match op with DSetUse _ => [] | DCall j m n t => [DVal (wignerD j m n t)] end.

Lemma dRun_on ops : forall s, dInv s -> dUse s = true -> Forall validCall ops -> ~ In (DSetUse false) ops ->
  dRun s ops = flat_map answers ops.
Proof.
  induction ops as [|op r IH]; intros s Hi Hu Hv Hno; [reflexivity|].
  inversion Hv; subst. destruct op as [b|j m n t]; cbn [dRun flat_map answers app].
  - apply IH; auto.
    + destruct b; [reflexivity|]. exfalso. apply Hno. now left.
    + intros H. apply Hno. now right.
  - destruct H1 as (Hj & Hm & Hn). destruct (dCall_correct s j m n t Hi Hj Hm Hn) as (s' & -> & Hu' & Hi' & _).
    f_equal. apply IH; auto; [congruence|]. intros H. apply Hno. now right.
Qed.

Lemma dRun_off_then ops rest : forall s, (forall x y z, dCache s x y z = None) -> dUse s = false ->
  Forall validCall ops -> ~ In (DSetUse true) ops ->
  exists s', dRun s (ops ++ rest) = flat_map answers ops ++ dRun s' rest
    /\ (forall x y z, dCache s' x y z = None) /\ dUse s' = false.
Proof.
  induction ops as [|op r IH]; intros s Hi Hu Hv Hno; [exists s; auto|].
  inversion Hv; subst. destruct op as [b|j m n t]; cbn [dRun flat_map answers app].
  - apply IH; auto.
    + destruct b; [|reflexivity]. exfalso. apply Hno. now left.
    + intros H. apply Hno. now right.
  - destruct H1 as (Hj & Hm & Hn).
    assert (dInv s) as Hinv by (intros x y z e He; rewrite Hi in He; discriminate).
    destruct (dCall_correct s j m n t Hinv Hj Hm Hn) as (s' & -> & Hu' & _ & Hn').
    destruct (IH s') as (s'' & E & H1 & H2'); auto; [congruence|intros H; apply Hno; now right|].
    exists s''. rewrite E. auto.
Qed.

(* ---------- toggling ---------- *)
Lemma entryVal_double sg rd ts c s :
  entryVal {| eSign := sg; eRad := rd; eTerms := ts ++ ts |} c s
  = (2 * entryVal {| eSign := sg; eRad := rd; eTerms := ts |} c s)%R.
Proof.
  unfold entryVal. cbn [eSign eRad eTerms]. rewrite map_app.
  assert (forall l r : list R, fold_right Rplus 0 (l ++ r) = fold_right Rplus 0 l + fold_right Rplus 0 r)%R as H.
  { induction l; intros; cbn; [lra|]. rewrite IHl. lra. }
  rewrite H. lra.
Qed.

(* ---------- factorial cache ---------- *)
Definition facInv (cache : list Z) : Prop :=
  (0 < length cache)%nat /\ forall i, (i < length cache)%nat -> nth i cache 0 = Z.of_nat (fact i).

Lemma facFill_spec maxT todo : forall cache, facInv cache ->
  match facFill maxT cache (length cache) todo with
  | Some c => facInv c /\ length c = (length cache + todo)%nat
              /\ (forall i, (length cache <= i < length cache + todo)%nat -> Z.of_nat (fact i) <= maxT)
  | None => exists i, (length cache <= i < length cache + todo)%nat /\ maxT < Z.of_nat (fact i)
  end.
Proof.
  induction todo as [|t IH]; intros cache Hc; cbn [facFill].
  - split; [exact Hc|]. split; [lia|]. intros i Hi; lia.
  - pose proof Hc as [Hl Hn]. rewrite (Hn (length cache - 1)%nat) by lia.
    assert (Z.of_nat (length cache) * Z.of_nat (fact (length cache - 1)) = Z.of_nat (fact (length cache))) as HF.
    { destruct (length cache) as [|k]; [lia|]. replace (S k - 1)%nat with k by lia.
      change (fact (S k)) with (S k * fact k)%nat. lia. }
    destruct (Z.ltb_spec (maxT / Z.of_nat (length cache)) (Z.of_nat (fact (length cache - 1)))) as [Hlt|Hge].
    + exists (length cache). split; [lia|]. rewrite <- HF.
      assert (0 < Z.of_nat (length cache)) by lia.
      pose proof (Z.mul_div_le maxT (Z.of_nat (length cache)) H).
      pose proof (Z.mod_pos_bound maxT (Z.of_nat (length cache)) H).
      pose proof (Z.div_mod maxT (Z.of_nat (length cache)) ltac:(lia)). nia.
    + assert (facInv (cache ++ [Z.of_nat (length cache) * Z.of_nat (fact (length cache - 1))])) as Hc'.
      { split; [rewrite app_length; cbn; lia|]. intros i Hi. rewrite app_length in Hi. cbn in Hi.
        destruct (Nat.eq_dec i (length cache)) as [->|Hne].
        - rewrite app_nth2, Nat.sub_diag by lia. cbn [nth]. exact HF.
        - rewrite app_nth1 by lia. apply Hn. lia. }
      specialize (IH _ Hc'). rewrite app_length in IH. cbn [length] in IH.
      rewrite Nat.add_1_r in IH.
      destruct (facFill maxT (cache ++ [Z.of_nat (length cache) * Z.of_nat (fact (length cache - 1))]) (S (length cache)) t) as [c|].
      * destruct IH as (I1 & I2 & I3). split; [exact I1|]. split; [lia|].
        intros i Hi. destruct (Nat.eq_dec i (length cache)) as [->|Hne]; [|apply I3; lia].
        rewrite <- HF. apply Z.le_trans with (Z.of_nat (length cache) * (maxT / Z.of_nat (length cache))).
        -- apply Z.mul_le_mono_nonneg_l; lia.
        -- apply Z.mul_div_le. lia.
      * destruct IH as (i & Hi & Hm). exists i. split; [lia|exact Hm].
Qed.
