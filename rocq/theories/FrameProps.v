(* C73: reference frames *)
From Coq Require Import List ZArith Reals Bool Lia Lra Psatz.
From Verif Require Import CGBoxModel PhysModel PhaseModel PhaseSpec PhaseProofs FrameModel FrameSpec FrameProofs FrameProofs2 FrameProofs3.
Import ListNotations.
Open Scope R_scope.

(* the transformation returned by gjTransform leads into the Gottfried-Jackson frame, provided the
   production plane is defined and the momentum of the beam in the rest frame of X is not
   perpendicular to the horizontal direction of the production plane *)
Theorem C73_gottfried_jackson_frame : forall beam X M, massive M X ->
  norm3 (cross (vect beam) (vect X)) <> 0 ->
  vdot (inPlane (cross (vect beam) (vect X))) (restMomentum X M beam) <> 0 ->
  exists G, gjTransform beam X = Some G /\ isGottfriedJackson beam X M G.
Proof. intros beam X M HX Hn HP. destruct (gj_frame beam X M HX Hn HP) as (G & E & _ & H). eauto. Qed.

(* for a beam along z (fixed-target experiments) only the production plane has to be defined *)
Theorem C73_gottfried_jackson_frame_beam_along_z : forall beam X M m, massive M X -> 0 <= m -> hasMass m beam -> 0 < lt beam ->
  lx beam = 0 -> ly beam = 0 -> norm3 (cross (vect beam) (vect X)) <> 0 ->
  exists G, gjTransform beam X = Some G /\ isGottfriedJackson beam X M G.
Proof.
  intros beam X M m HX Hm HB Pt Ex Ey Hn. apply C73_gottfried_jackson_frame; try assumption.
  pose proof (massive_mink _ _ HX) as EX. destruct HX as (PM & PX & _).
  destruct beam as [a b p e]. cbn [lx ly lz lt] in *. subst a b. destruct X as [x y z t]. cbn [lt] in PX.
  unfold hasMass in HB. unfold mink in EX. cbn [lx ly lz lt pow] in *.
  unfold cross, vect in *. cbn [lx ly lz vx vy vz] in *.
  assert (p <> 0 /\ (x <> 0 \/ y <> 0)) as [Np Nxy].
  { split.
    - intros ->. apply Hn. unfold norm3. cbn [vx vy vz]. replace (_ + _) with 0 by ring. apply sqrt_0.
    - destruct (Req_EM_T x 0) as [->|]; [|tauto]. destruct (Req_EM_T y 0) as [->|]; [|tauto].
      exfalso. apply Hn. unfold norm3. cbn [vx vy vz]. replace (_ + _) with 0 by ring. apply sqrt_0. }
  assert (inPlane (V3 (0 * z - p * y) (p * x - 0 * z) (0 * y - 0 * x)) = V3 (p * x) (p * y) 0) as ->.
  { unfold inPlane. cbn [vx vy]. destruct (Req_EM_T (0 * z - p * y) 0); [destruct (Req_EM_T (p * x - 0 * z) 0) as [Q|Q]|]; try (f_equal; ring).
    exfalso. assert (p * y = 0) as Q1 by lra. assert (p * x = 0) as Q2 by lra.
    apply Rmult_integral in Q1. apply Rmult_integral in Q2. tauto. }
  unfold vdot, restMomentum. cbn [vx vy vz lx ly lz lt].
  set (k := (0 * x + 0 * y + p * z) / (M * (t + M)) - e / M).
  assert (k < 0) as Hk.
  { assert (k = (p * z - e * (t + M)) / (M * (t + M))) as -> by (unfold k; field; lra).
    assert (p * z < e * (t + M)).
    { assert (0 < e * M) by nra. assert (p * z <= e * t); [|nra].
      assert (p * p <= e * e) as A by nra. assert (z * z <= t * t) as B by nra.
      assert ((p * z) * (p * z) <= (e * t) * (e * t)) as Q.
      { replace ((p * z) * (p * z)) with ((p * p) * (z * z)) by ring. replace ((e * t) * (e * t)) with ((e * e) * (t * t)) by ring.
        apply Rmult_le_compat; try assumption; nra. }
      assert (0 <= e * t) by nra. destruct (Rle_dec (p * z) (e * t)); [assumption|]. nra. }
    apply Ropp_lt_cancel. rewrite Ropp_0, <- Ropp_div. apply Rdiv_lt_0_compat; [lra|]. apply Rmult_lt_0_compat; lra. }
  replace (p * x * (0 + k * x) + p * y * (0 + k * y) + 0 * (p + k * z)) with (p * k * (x * x + y * y)) by ring.
  apply Rmult_integral_contrapositive_currified; [apply Rmult_integral_contrapositive_currified; lra|].
  intros Q. apply sum2_zero in Q. tauto.
Qed.

(* hfTransform leads into the helicity frame of every daughter that does not fly along the z axis *)
Theorem C73_helicity_frame : forall d m, massive m d -> lx d <> 0 \/ ly d <> 0 ->
  exists H, hfTransform d = Some H /\ isHelicityFrame d m H.
Proof.
  intros d m Hd Hxy. unfold hfTransform. set (n := cross (V3 0 0 1) (vect d)). set (r1 := rotToY n).
  pose proof (good_toY n) as G1. fold r1 in G1.
  set (d1 := rotVec r1 d). set (r2 := rotToZ d1). pose proof (good_toZ d1) as G2. fold r2 in G2.
  assert (n = V3 (- ly d) (lx d) 0) as En by (unfold n, cross, vect; cbn [vx vy vz]; f_equal; ring).
  assert (norm3 n <> 0) as Nn.
  { intros Q. apply norm3_zero in Q. rewrite En in Q. cbn [vx vy vz] in Q. destruct Hxy; lra. }
  assert (ly d1 = 0) as Y1.
  { pose proof (rotToY_y n d) as Q. unfold n in Q at 3. rewrite cross_dot_r in Q. fold r1 d1 in Q. apply Rmult_integral in Q. tauto. }
  assert (0 < lx d1) as X1.
  { destruct (inPlane_row n) as (k & Pk & Ek). fold r1 in Ek. unfold d1, rotVec. cbn [lx]. rewrite Ek.
    assert (inPlane n = V3 (lx d) (ly d) 0) as ->.
    { rewrite En. unfold inPlane. cbn [vx vy]. destruct (Req_EM_T (- ly d) 0); [destruct (Req_EM_T (lx d) 0)|]; try (f_equal; ring). destruct Hxy; lra. }
    unfold vdot, vect. cbn [vx vy vz].
    replace (k * lx d * lx d + k * ly d * ly d + k * 0 * lz d) with (k * (lx d * lx d + ly d * ly d)) by ring.
    apply Rmult_lt_0_compat; [exact Pk|]. destruct (Req_EM_T (lx d * lx d + ly d * ly d) 0) as [Q|Q]; [apply sum2_zero in Q; tauto|].
    pose proof (Rle_0_sqr (lx d)). pose proof (Rle_0_sqr (ly d)). unfold Rsqr in *. lra. }
  assert (rotVec r2 d1 = Lv 0 0 (norm3 (vect d)) (lt d)) as E2.
  { unfold r2. rewrite rotToZ_self; [|exact Y1|left; lra]. f_equal.
    pose proof (isl_mink _ (gd_lor _ G1) d d) as Q. rewrite !ofRot_vec in Q. fold d1 in Q. unfold norm3, vect. cbn [vx vy vz]. f_equal. unfold mink in Q.
    replace (lt d1) with (lt d) in Q by reflexivity. lra. }
  assert (good (lmul (ofRot r2) (ofRot r1))) as G12 by now apply good_mul.
  assert (massive m (rotVec r2 d1)) as HM.
  { unfold d1. rewrite <- !ofRot_vec. apply massive_map; [apply G2|]. apply massive_map; [apply G1|exact Hd]. }
  destruct (toRest _ _ HM) as (b & B & E3 & E4 & GB & EX & B2 & EB). rewrite E3. cbn [bnd].
  assert (lboost (ofRot (rotTransform r1 r2)) (vneg b) = Some (lmul B (lmul (ofRot r2) (ofRot r1)))) as ->.
  { unfold lboost in *. destruct (boostMat (vneg b)) as [B'|]; [|discriminate]. cbn [bnd] in *. unfold transform, rotTransform in *. rewrite ofRot_mul.
    f_equal. injection E4 as <-. f_equal. destruct B' as [[b1 b2 b3 b4] [c1 c2 c3 c4] [d1' d2 d3 d4] [e1 e2 e3 e4]].
    unfold lmul, lrotId, rowMul. cbn [qX qY qZ qT lx ly lz lt]. f_equal; apply lv_eq; ring. }
  eexists. split; [reflexivity|]. assert (0 < m) as Pm by apply Hd. assert (0 < lt d) as Pt by apply Hd. constructor.
  - apply isLorentz_mul; [apply GB|apply G12].
  - rewrite !lapply_mul, !ofRot_vec. fold d1. exact EX.
  - rewrite !lapply_mul, !ofRot_vec.
    assert (forall r, rotVec r (Lv 0 0 0 1) = Lv 0 0 0 1) as RR.
    { intros r. unfold rotVec, vdot, vect. cbn [vx vy vz lx ly lz lt]. apply lv_eq; ring. }
    rewrite !RR, EB, E2. unfold restMomentum, mink. cbn [vx vy vz lx ly lz lt].
    apply lv_eq; field; lra.
  - rewrite !lapply_mul, !ofRot_vec. fold n. unfold ofV3. unfold r1. rewrite rotToY_self. unfold r2. rewrite rotToZ_yaxis. rewrite EB, E2.
    unfold restMomentum, mink. cbn [vx vy vz lx ly lz lt]. apply lv_eq; field; lra.
Qed.
