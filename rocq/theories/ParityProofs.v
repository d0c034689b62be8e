(* C75: symmetries of the Wigner d function and of the Clebsch-Gordan coefficients. *)
From Coq Require Import ZArith Reals List Bool Lia Lra Factorial Permutation.
From Verif Require Import SpinModel SpinSpec SpinProofs CGModel CGSpec CGProofs CGValProofs CGValProps DFuncModel DFuncSpec DFuncProofs AmpProofs4.
Import ListNotations.
Open Scope Z_scope.

Definition wsum (a b c : Z) (x y : R) (s : Z) : R :=
  (IZR (minusOnePow (a - c + s)) * powerRZ x ((c - s) + (b - s)) * powerRZ y ((a - c + s) + s) / (facR (c - s) * facR s * facR (a - c + s) * facR (b - s)))%R.
Lemma wignerD_params a b c d theta : 0 <= a -> 0 <= b -> 0 <= c -> 0 <= d -> a + b = c + d ->
  wignerD (a + b) (a - b) (c - d) theta = (sqrt (facR a * facR b * facR c * facR d)
    * sumL (wsum a b c (cos (theta / 2)) (sin (theta / 2))) (zrange (Z.max 0 (c - a)) (Z.min c b)))%R.
Proof.
  intros Ha Hb Hc Hd Hj. unfold wignerD.
  pose proof (g1 a b 0 0) as G1. pose proof (g2 a b c d Hj) as G2.
  pose proof (g3 a b 0 0) as G3. pose proof (g4 a b c d Hj) as G4. cbv zeta in *.
  rewrite G1, G2, G3, G4. f_equal. rewrite sumUpTo_sumL.
  assert ((a - b - (c - d)) / 2 = a - c) as G6.
  { replace (a - b - (c - d)) with (2 * (a - c)) by lia. apply half2. }
  set (g := fun s => (0 <=? s) && (0 <=? c - s) && (0 <=? a - c + s) && (0 <=? b - s)).
  rewrite <- (sumL_guard (wignerDSummand (a + b) (a - b) (c - d) theta) g (zrange (Z.max 0 (c - a)) (Z.min c b))).
  - apply sumL_ext. intros s Hs. apply zrange_In in Hs. unfold wignerDSummand, wsum. rewrite G6, G2, G3.
    replace ((0 <=? s) && (0 <=? c - s) && (0 <=? a - c + s) && (0 <=? b - s)) with true by (symmetry; rewrite !andb_true_iff, !Z.leb_le; lia).
    replace (a + b - (a - c) - 2 * s) with (c - s + (b - s)) by lia. replace (a - c + 2 * s) with (a - c + s + s) by lia. reflexivity.
  - apply zrange_NoDup.
  - apply seqZ_NoDup.
  - intros s. rewrite zrange_In, seqZ_In. unfold g. rewrite !andb_true_iff, !Z.leb_le. lia.
  - intros s Hs. unfold g in Hs. unfold wignerDSummand. rewrite G6, G2, G3. now rewrite Hs.
Qed.
Lemma zrange_shift k lo hi : Permutation (map (fun s => s + k) (zrange lo hi)) (zrange (lo + k) (hi + k)).
Proof.
  apply NoDup_Permutation; [apply map_inj_NoDup; [lia|apply zrange_NoDup]|apply zrange_NoDup|].
  intros x. rewrite in_map_iff, zrange_In. split; [intros (y & <- & Hy); apply zrange_In in Hy; lia|]. intros H. exists (x - k). split; [lia|]. apply zrange_In. lia.
Qed.
Lemma zrange_refl k lo hi : Permutation (map (fun s => k - s) (zrange lo hi)) (zrange (k - hi) (k - lo)).
Proof.
  apply NoDup_Permutation; [apply map_inj_NoDup; [lia|apply zrange_NoDup]|apply zrange_NoDup|].
  intros x. rewrite in_map_iff, zrange_In. split; [intros (y & <- & Hy); apply zrange_In in Hy; lia|]. intros H. exists (k - x). split; [lia|]. apply zrange_In. lia.
Qed.
Lemma hf x y : x = 2 * y -> x / 2 = y. Proof. intros ->. rewrite Z.mul_comm. apply Z.div_mul. lia. Qed.

(* d_{-m,-n} = (-1)^(m-n) d_{m,n} *)
Lemma wignerD_neg j m n theta : isProjOf j m -> isProjOf j n ->
  wignerD j (- m) (- n) theta = (IZR (minusOnePow ((m - n) / 2)) * wignerD j m n theta)%R.
Proof.
  intros Hm Hn. destruct (proj_params _ _ Hm) as (a & b & Ha & Hb & -> & ->). destruct (proj_params _ _ Hn) as (c & d & Hc & Hd & E & ->).
  rewrite (hf (a - b - (c - d)) (a - c)) by lia.
  rewrite (wignerD_params a b c d) by lia. replace (a + b) with (b + a) by lia. replace (- (a - b)) with (b - a) by lia. replace (- (c - d)) with (d - c) by lia.
  rewrite (wignerD_params b a d c) by lia.
  replace (facR b * facR a * facR d * facR c)%R with (facR a * facR b * facR c * facR d)%R by ring.
  transitivity (sqrt (facR a * facR b * facR c * facR d) * (IZR (minusOnePow (a - c)) * sumL (wsum a b c (cos (theta / 2)) (sin (theta / 2))) (zrange (Z.max 0 (c - a)) (Z.min c b))))%R; [f_equal|ring].
  replace (zrange (Z.max 0 (d - b)) (Z.min d a)) with (zrange (Z.max 0 (c - a) + (a - c)) (Z.min c b + (a - c))) by (f_equal; lia).
  rewrite <- (sumL_perm _ _ _ (zrange_shift (a - c) _ _)), sumL_map, <- sumL_scal. apply sumL_ext. intros s _. unfold wsum.
  replace (b - d + (s + (a - c))) with s by lia. replace (d - (s + (a - c))) with (b - s) by lia. replace (a - (s + (a - c))) with (c - s) by lia.
  replace (s + (a - c)) with (a - c + s) by lia. replace (b - s + (c - s)) with (c - s + (b - s)) by lia. replace (s + (a - c + s)) with (a - c + s + s) by lia.
  rewrite mop_add, mult_IZR. assert (IZR (minusOnePow (a - c)) * IZR (minusOnePow (a - c)) = 1)%R as S1 by (rewrite <- mult_IZR, mop_sq; reflexivity).
  pose proof (facR_pos s). pose proof (facR_pos (c - s)). pose proof (facR_pos (a - c + s)). pose proof (facR_pos (b - s)).
  transitivity ((IZR (minusOnePow (a - c)) * IZR (minusOnePow (a - c))) * IZR (minusOnePow s) * powerRZ (cos (theta / 2)) (c - s + (b - s)) * powerRZ (sin (theta / 2)) (a - c + s + s) / (facR (c - s) * facR s * facR (a - c + s) * facR (b - s)))%R; [rewrite S1|]; field; repeat split; lra.
Qed.
(* d_{m,n}(pi - theta) = (-1)^(j+m) d_{m,-n}(theta) *)
Lemma wignerD_pi j m n theta : isProjOf j m -> isProjOf j n ->
  wignerD j m n (PI - theta) = (IZR (minusOnePow ((j + m) / 2)) * wignerD j m (- n) theta)%R.
Proof.
  intros Hm Hn. destruct (proj_params _ _ Hm) as (a & b & Ha & Hb & -> & ->). destruct (proj_params _ _ Hn) as (c & d & Hc & Hd & E & ->).
  rewrite (hf (a + b + (a - b)) a) by lia.
  rewrite (wignerD_params a b c d) by lia. replace (- (c - d)) with (d - c) by lia. rewrite (wignerD_params a b d c) by lia.
  replace ((PI - theta) / 2)%R with (PI / 2 - theta / 2)%R by lra. rewrite cos_shift, sin_shift.
  replace (facR a * facR b * facR d * facR c)%R with (facR a * facR b * facR c * facR d)%R by ring.
  set (x := cos (theta / 2)). set (y := sin (theta / 2)).
  transitivity (sqrt (facR a * facR b * facR c * facR d) * (IZR (minusOnePow a) * sumL (wsum a b d x y) (zrange (Z.max 0 (d - a)) (Z.min d b))))%R; [f_equal|ring].
  replace (zrange (Z.max 0 (d - a)) (Z.min d b)) with (zrange (b - Z.min c b) (b - Z.max 0 (c - a))) by (f_equal; lia).
  rewrite <- (sumL_perm _ _ _ (zrange_refl b _ _)), sumL_map, <- sumL_scal. apply sumL_ext. intros s _. unfold wsum.
  replace (a - d + (b - s)) with (c - s) by lia. replace (d - (b - s)) with (a - c + s) by lia. replace (b - (b - s)) with s by lia.
  replace (minusOnePow (c - s)) with (minusOnePow a * minusOnePow (a - c + s)).
  2:{ rewrite <- mop_add. replace (a + (a - c + s)) with (2 * a + - (c - s)) by lia. now rewrite mop_add, mop_2, mop_opp, Z.mul_1_l. }
  rewrite mult_IZR. assert (IZR (minusOnePow a) * IZR (minusOnePow a) = 1)%R as S1 by (rewrite <- mult_IZR, mop_sq; reflexivity).
  pose proof (facR_pos s). pose proof (facR_pos (c - s)). pose proof (facR_pos (a - c + s)). pose proof (facR_pos (b - s)).
  transitivity ((IZR (minusOnePow a) * IZR (minusOnePow a)) * IZR (minusOnePow (a - c + s)) * powerRZ y (c - s + (b - s)) * powerRZ x (a - c + s + s) / (facR (c - s) * facR s * facR (a - c + s) * facR (b - s)))%R; [rewrite S1|]; field; repeat split; lra.
Qed.
Lemma powerRZ_0 k : k <> 0 -> powerRZ 0 k = 0%R.
Proof.
  intros H. destruct k as [|p|p]; [contradiction| |]; unfold powerRZ; (rewrite pow_i by lia); [reflexivity|apply Rinv_0].
Qed.
(* d_{m,n}(0) = 0 for m <> n *)
Lemma wignerD_at_0 j m n : isProjOf j m -> isProjOf j n -> m <> n -> wignerD j m n 0 = 0%R.
Proof.
  intros Hm Hn N. destruct (proj_params _ _ Hm) as (a & b & Ha & Hb & -> & ->). destruct (proj_params _ _ Hn) as (c & d & Hc & Hd & E & ->).
  rewrite wignerD_params by lia. replace (0 / 2)%R with 0%R by lra. rewrite sin_0.
  rewrite (sumL_ext _ (fun s => 0 * 0)%R), sumL_scal; [ring|]. intros s Hs. apply zrange_In in Hs. unfold wsum. rewrite powerRZ_0 by lia. unfold Rdiv. ring.
Qed.
(* reversal of all projections, for any arguments *)
Lemma CG_rev j1 m1 j2 m2 J M : CG j1 (- m1) j2 (- m2) J (- M) = (IZR (minusOnePow ((j1 + j2 - J) / 2)) * CG j1 m1 j2 m2 J M)%R.
Proof.
  destruct (Req_EM_T (CG j1 m1 j2 m2 J M) 0) as [E|N].
  - rewrite E, Rmult_0_r. destruct (Req_EM_T (CG j1 (- m1) j2 (- m2) J (- M)) 0) as [E'|N']; [exact E'|].
    apply CG_nz in N'. assert (couples j1 j2 J) as K by apply N'. rewrite (C69_reversal _ _ _ _ _ _ K), E. ring.
  - apply CG_nz in N. apply C69_reversal. apply N.
Qed.
