(* Rotations, boosts and frames (C73). *)
From Coq Require Import List ZArith Reals Bool Lia Lra Psatz.
From Verif Require Import CGBoxModel PhysModel PhaseModel PhaseSpec PhaseProofs FrameModel FrameSpec.
Import ListNotations.
Open Scope R_scope.

Lemma atan2_spec y x : x * x + y * y <> 0 ->
  cos (atan2 y x) = x / sqrt (x * x + y * y) /\ sin (atan2 y x) = y / sqrt (x * x + y * y).
Proof.
  intros H. set (r := sqrt (x * x + y * y)).
  assert (0 < x * x + y * y) as P by (pose proof (Rle_0_sqr x); pose proof (Rle_0_sqr y); unfold Rsqr in *; lra).
  assert (0 < r) as Pr by (now apply sqrt_lt_R0).
  assert (r * r = x * x + y * y) as Er by (apply sqrt_sqrt; lra).
  assert (forall z, z <> 0 -> sqrt (1 + (y / z)²) = sqrt (z * z + y * y) / Rabs z) as Q.
  { intros z Nz. rewrite <- (sqrt_Rsqr_abs z). unfold Rsqr. rewrite <- sqrt_div_alt; [|now apply Rsqr_pos_lt].
    f_equal. field. exact Nz. }
  unfold atan2, rltb.
  destruct (Rlt_dec 0 x) as [X|X].
  { rewrite cos_atan, sin_atan, Q by lra. fold r. rewrite Rabs_right by lra. split; field; lra. }
  destruct (Rlt_dec x 0) as [X'|X'].
  { assert (cos (atan (y / x)) = - x / r /\ sin (atan (y / x)) = - y / r) as [Ec Es].
    { rewrite cos_atan, sin_atan, Q by lra. fold r. rewrite Rabs_left by lra. split; field; lra. }
    destruct (Rlt_dec y 0).
    - replace (atan (y / x) - PI) with (- (PI - atan (y / x))) by ring.
      rewrite cos_neg, sin_neg, Rtrigo_facts.cos_pi_minus, sin_PI_x, Ec, Es. split; field; lra.
    - rewrite neg_cos, neg_sin, Ec, Es. split; field; lra. }
  assert (x = 0) as -> by lra.
  assert (r * r = y * y) as Er' by lra.
  destruct (Rlt_dec 0 y).
  { assert (r = y) as -> by nra. rewrite cos_PI2, sin_PI2. split; field; lra. }
  destruct (Rlt_dec y 0).
  { assert (r = - y) as -> by nra. rewrite cos_neg, sin_neg, cos_PI2, sin_PI2. split; field; lra. }
  assert (y = 0) by lra. subst. lra.
Qed.

Lemma sq_sqrt x : 0 <= x -> sqrt x * sqrt x = x.
Proof. apply sqrt_sqrt. Qed.
Lemma sum2_zero x y : x * x + y * y = 0 -> x = 0 /\ y = 0.
Proof. intros H. pose proof (Rle_0_sqr x). pose proof (Rle_0_sqr y). unfold Rsqr in *. split; nra. Qed.

(* the polar angles of a vector *)
Lemma phi_spec v : vPerp v * cos (vPhi v) = vx v /\ vPerp v * sin (vPhi v) = vy v.
Proof.
  unfold vPerp, vPhi, reqb. destruct (Req_EM_T (vx v) 0) as [E1|N1]; [destruct (Req_EM_T (vy v) 0) as [E2|N2]|]; cbn [andb].
  - rewrite E1, E2, cos_0, sin_0. replace (0 * 0 + 0 * 0) with 0 by ring. rewrite sqrt_0. lra.
  - assert (vx v * vx v + vy v * vy v <> 0) as N by (intros H; apply sum2_zero in H; tauto).
    destruct (atan2_spec _ _ N) as [-> ->]. assert (sqrt (vx v * vx v + vy v * vy v) <> 0).
    { intros H. apply sqrt_eq_0 in H; [tauto|]. pose proof (Rle_0_sqr (vx v)). pose proof (Rle_0_sqr (vy v)). unfold Rsqr in *. lra. }
    split; field; assumption.
  - assert (vx v * vx v + vy v * vy v <> 0) as N by (intros H; apply sum2_zero in H; tauto).
    destruct (atan2_spec _ _ N) as [-> ->]. assert (sqrt (vx v * vx v + vy v * vy v) <> 0).
    { intros H. apply sqrt_eq_0 in H; [tauto|]. pose proof (Rle_0_sqr (vx v)). pose proof (Rle_0_sqr (vy v)). unfold Rsqr in *. lra. }
    split; field; assumption.
Qed.
Lemma perp_sq v : vPerp v * vPerp v = vx v * vx v + vy v * vy v.
Proof. apply sqrt_sqrt. pose proof (Rle_0_sqr (vx v)). pose proof (Rle_0_sqr (vy v)). unfold Rsqr in *. lra. Qed.
Lemma perp_pos v : 0 <= vPerp v.
Proof. apply sqrt_pos. Qed.
Lemma norm3_sq v : norm3 v * norm3 v = vx v * vx v + vy v * vy v + vz v * vz v.
Proof. apply sqrt_sqrt. pose proof (Rle_0_sqr (vx v)). pose proof (Rle_0_sqr (vy v)). pose proof (Rle_0_sqr (vz v)). unfold Rsqr in *. lra. Qed.
Lemma norm3_pos v : 0 <= norm3 v.
Proof. apply sqrt_pos. Qed.
Lemma norm3_perp v : norm3 v = sqrt (vz v * vz v + vPerp v * vPerp v).
Proof. unfold norm3. rewrite perp_sq. f_equal. ring. Qed.
Lemma norm3_zero v : norm3 v = 0 -> vx v = 0 /\ vy v = 0 /\ vz v = 0.
Proof.
  intros H. pose proof (norm3_sq v) as E. rewrite H in E. pose proof (Rle_0_sqr (vx v)). pose proof (Rle_0_sqr (vy v)).
  pose proof (Rle_0_sqr (vz v)). unfold Rsqr in *. repeat split; nra.
Qed.
Lemma theta_spec v : norm3 v * cos (vTheta v) = vz v /\ norm3 v * sin (vTheta v) = vPerp v.
Proof.
  destruct (Req_EM_T (norm3 v) 0) as [Z|N].
  - destruct (norm3_zero _ Z) as (E1 & E2 & E3). pose proof (perp_sq v) as Q. rewrite E1, E2 in Q. rewrite Z, E3.
    assert (vPerp v = 0) by (pose proof (perp_pos v); nra). lra.
  - unfold vTheta, reqb.
    assert (vz v * vz v + vPerp v * vPerp v <> 0) as N2.
    { rewrite norm3_perp in N. intros H. rewrite H, sqrt_0 in N. lra. }
    assert (cos (atan2 (vPerp v) (vz v)) = vz v / norm3 v /\ sin (atan2 (vPerp v) (vz v)) = vPerp v / norm3 v) as [Ec Es].
    { rewrite norm3_perp. now apply atan2_spec. }
    destruct (Req_EM_T (vx v) 0) as [E1|N1]; [destruct (Req_EM_T (vy v) 0) as [E2|N3]; [destruct (Req_EM_T (vz v) 0) as [E4|N4]|]|];
      cbn [andb]; try (rewrite Ec, Es; split; field; assumption).
    exfalso. apply N. unfold norm3. rewrite E1, E2, E4. replace (0 * 0 + 0 * 0 + 0 * 0) with 0 by ring. apply sqrt_0.
Qed.

(* ---- matrices ---- *)
Lemma lapply_mul A B p : lapply (lmul A B) p = lapply A (lapply B p).
Proof. unfold lapply, lmul, rowMul, rowDot. cbn [qX qY qZ qT lx ly lz lt]. apply lv_eq; ring. Qed.
Lemma det_mul A B : det4 (lmul A B) = det4 A * det4 B.
Proof.
  destruct A as [[a1 a2 a3 a4] [b1 b2 b3 b4] [c1 c2 c3 c4] [d1 d2 d3 d4]].
  destruct B as [[e1 e2 e3 e4] [f1 f2 f3 f4] [g1 g2 g3 g4] [h1 h2 h3 h4]].
  unfold det4, lmul, rowMul, det3. cbn [qX qY qZ qT lx ly lz lt]. ring.
Qed.
Lemma linv_mul A B : linv (lmul A B) = lmul (linv B) (linv A).
Proof. unfold linv, lmul, rowMul. cbn [qX qY qZ qT lx ly lz lt]. f_equal; apply lv_eq; ring. Qed.
