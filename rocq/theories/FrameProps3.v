(* C73: where the frames are not what they should be; examples *)
From Coq Require Import List ZArith Reals Bool Lia Lra Psatz.
From Verif Require Import CGBoxModel PhysModel PhaseModel PhaseSpec PhaseProofs FrameModel FrameSpec FrameProofs FrameProofs2 FrameProofs3 FrameProofs4 FrameProps FrameProps2.
Import ListNotations.
Open Scope R_scope.

Lemma vPhi_0 z : vPhi (V3 0 0 z) = 0.
Proof. unfold vPhi, reqb. cbn [vx vy]. destruct (Req_EM_T 0 0); [reflexivity|lra]. Qed.
Lemma vTheta_0 : vTheta (V3 0 0 0) = 0.
Proof. unfold vTheta, reqb. cbn [vx vy vz]. destruct (Req_EM_T 0 0); [reflexivity|lra]. Qed.
Lemma rotToY_0 p : rotVec (rotToY (V3 0 0 0)) p = Lv (- ly p) (lz p) (- lx p) (lt p).
Proof.
  unfold rotToY. rewrite vPhi_0, vTheta_0. replace (PI / 2 - 0) with (PI / 2) by ring. replace (0 - PI / 2) with (- (PI / 2)) by ring.
  unfold rotateX, rotateZ. rewrite cos_neg, sin_neg, cos_PI2, sin_PI2. unfold rotId, comb, rotVec, vdot, vect. cbn [rX rY rZ vx vy vz lx ly lz lt].
  apply lv_eq; ring.
Qed.
Lemma signum_0 : signum 0 = 0.
Proof. unfold signum, rltb. destruct (Rlt_dec 0 0); lra. Qed.
Lemma rotToZ_0 p q : lx p = 0 -> rotVec (rotToZ p) q = q.
Proof.
  intros H. unfold rotToZ. rewrite H, signum_0. replace (- 0 * vTheta (vect p)) with 0 by ring. unfold rotateY. rewrite cos_0, sin_0.
  destruct q as [x y z t]. unfold rotId, comb, rotVec, vdot, vect. cbn [rX rY rZ vx vy vz lx ly lz lt]. apply lv_eq; ring.
Qed.

(* a daughter that flies exactly along the z axis of its parent's frame: the transformation leads
   into a rest frame of the daughter, but there the parent moves along the y axis *)
Theorem C73_helicity_frame_along_z_refuted : forall d m, massive m d -> lx d = 0 -> ly d = 0 ->
  exists H, hfTransform d = Some H /\ lapply H d = Lv 0 0 0 m
   /\ lapply H (Lv 0 0 0 1) = Lv 0 (- (lz d / m)) 0 (lt d / m)
   /\ (lz d <> 0 -> ~ isHelicityFrame d m H).
Proof.
  intros d m Hd Hx Hy. assert (0 < m) as Pm by apply Hd. assert (0 < lt d) as Pt by apply Hd.
  assert (cross (V3 0 0 1) (vect d) = V3 0 0 0) as C0.
  { unfold cross, vect. cbn [vx vy vz]. rewrite Hx, Hy. f_equal; ring. }
  unfold hfTransform. rewrite C0. set (r1 := rotToY (V3 0 0 0)). pose proof (good_toY (V3 0 0 0)) as G1. fold r1 in G1.
  assert (forall p, rotVec r1 p = Lv (- ly p) (lz p) (- lx p) (lt p)) as ER by apply rotToY_0.
  set (d1 := rotVec r1 d). assert (lx d1 = 0) as X0 by (unfold d1; rewrite ER, Hy; cbn [lx]; ring).
  set (r2 := rotToZ d1). pose proof (good_toZ d1) as G2. fold r2 in G2. assert (forall p, rotVec r2 p = p) as E2 by (intros p; now apply rotToZ_0).
  assert (massive m (rotVec r2 d1)) as HM.
  { unfold d1. rewrite <- !ofRot_vec. apply massive_map; [apply G2|]. apply massive_map; [apply G1|exact Hd]. }
  destruct (toRest _ _ HM) as (b & B & E3 & E4 & GB & EX & B2 & EB). rewrite E3. cbn [bnd].
  assert (lboost (ofRot (rotTransform r1 r2)) (vneg b) = Some (lmul B (lmul (ofRot r2) (ofRot r1)))) as ->.
  { unfold lboost in *. destruct (boostMat (vneg b)) as [B'|]; [|discriminate]. cbn [bnd] in *. unfold transform, rotTransform in *. rewrite ofRot_mul.
    f_equal. injection E4 as <-. f_equal. destruct B' as [[b1 b2 b3 b4] [c1 c2 c3 c4] [d1' d2 d3 d4] [e1 e2 e3 e4]].
    unfold lmul, lrotId, rowMul. cbn [qX qY qZ qT lx ly lz lt]. f_equal; apply lv_eq; ring. }
  eexists. split; [reflexivity|].
  assert (lapply (lmul B (lmul (ofRot r2) (ofRot r1))) (Lv 0 0 0 1) = Lv 0 (- (lz d / m)) 0 (lt d / m)) as EP.
  { rewrite !lapply_mul, !ofRot_vec.
    assert (forall r, rotVec r (Lv 0 0 0 1) = Lv 0 0 0 1) as RR.
    { intros r. unfold rotVec, vdot, vect. cbn [vx vy vz lx ly lz lt]. apply lv_eq; ring. }
    rewrite !RR, EB, E2. unfold d1. rewrite ER, Hx, Hy. unfold restMomentum, mink. cbn [vx vy vz lx ly lz lt].
    apply lv_eq; field; lra. }
  split; [rewrite !lapply_mul, !ofRot_vec; exact EX|]. split; [exact EP|].
  intros NZ HF. pose proof (hf_parent _ _ _ HF) as Q. rewrite EP in Q. apply (f_equal ly) in Q. cbn [ly] in Q. rename Q into Q2.
  apply NZ. apply Ropp_eq_0_compat in Q2. rewrite Ropp_involutive in Q2. apply (Rmult_eq_reg_r (/ m)); [|apply Rinv_neq_0_compat; lra]. rewrite Rmult_0_l. exact Q2.
Qed.

(* beam and X along the z axis, but not equal: in the frame returned the beam moves along the y axis *)
Theorem C73_collinear_beam_refuted : forall beam X M, massive M X -> lx beam = 0 -> ly beam = 0 -> lx X = 0 -> ly X = 0 ->
  lz beam <> 0 -> beam <> X -> vz (restMomentum X M beam) <> 0 ->
  exists G, gjTransform beam X = Some G /\ lapply G X = Lv 0 0 0 M
   /\ (exists q, q <> 0 /\ lapply G beam = Lv 0 q 0 (mink beam X / M)) /\ ~ isGottfriedJackson beam X M G.
Proof.
  intros beam X M HX H1 H2 H3 H4 NB NE NZ. assert (0 < M) as PM by apply HX. assert (0 < lt X) as PX by apply HX.
  unfold gjTransform. destruct (lvEqb beam X) eqn:EQ; [apply lvEqb_eq in EQ; contradiction|]. clear EQ.
  assert (cross (vect beam) (vect X) = V3 0 0 0) as C0.
  { unfold cross, vect. cbn [vx vy vz]. rewrite H1, H2, H3, H4. f_equal; ring. }
  rewrite C0. set (r1 := rotToY (V3 0 0 0)). pose proof (good_toY (V3 0 0 0)) as G1. fold r1 in G1.
  assert (forall p, rotVec r1 p = Lv (- ly p) (lz p) (- lx p) (lt p)) as ER by apply rotToY_0.
  assert (massive M (rotVec r1 X)) as HX1 by (rewrite <- ofRot_vec; apply massive_map; [apply G1|exact HX]).
  destruct (toRest _ _ HX1) as (b & B & E1 & E2 & GB & EX & _ & EB). rewrite E1. cbn [bnd]. rewrite E2. cbn [bnd].
  assert (lapply B (rotVec r1 beam) = Lv 0 (vz (restMomentum X M beam)) 0 (mink beam X / M)) as EBB.
  { rewrite EB, !ER. unfold restMomentum, mink. cbn [vx vy vz lx ly lz lt]. rewrite H1, H2, H3, H4. apply lv_eq; field; lra. }
  eexists. split; [reflexivity|]. unfold transform.
  assert (lapply (lmul (ofRot (rotToZ (lapply B (rotVec r1 beam)))) (lmul B (ofRot r1))) beam = Lv 0 (vz (restMomentum X M beam)) 0 (mink beam X / M)) as EF.
  { rewrite !lapply_mul, !ofRot_vec. rewrite rotToZ_0 by (rewrite EBB; reflexivity). exact EBB. }
  split; [rewrite !lapply_mul, !ofRot_vec, EX; apply rotToZ_rest|]. split.
  - exists (vz (restMomentum X M beam)). split; [exact NZ|exact EF].
  - intros [_ _ (p & Pp & Q) _]. rewrite EF in Q. apply (f_equal ly) in Q. cbn [ly] in Q. apply NZ. exact Q.
Qed.

Lemma rotToY_explicit v : let c := cos (vPhi v) in let s := sin (vPhi v) in let C := cos (vTheta v) in let S := sin (vTheta v) in
  rotToY v = R3 (V3 s (- c) 0) (V3 (S * c) (S * s) C) (V3 (- C * c) (- C * s) S).
Proof.
  cbv zeta. unfold rotToY, rotateX, rotateZ, rotId, comb. cbn [rX rY rZ vx vy vz].
  replace (cos (PI / 2 - vPhi v)) with (sin (vPhi v)) by now rewrite cos_shift.
  replace (sin (PI / 2 - vPhi v)) with (cos (vPhi v)) by now rewrite sin_shift.
  replace (vTheta v - PI / 2) with (- (PI / 2 - vTheta v)) by ring.
  rewrite cos_neg, sin_neg, cos_shift, sin_shift. f_equal; f_equal; ring.
Qed.
(* a beam whose momentum in the rest frame of X is perpendicular to the horizontal direction of the
   production plane can end up along -z *)
Theorem C73_beam_along_minus_z_refuted :
  let beam := Lv 20 0 0 31 in let X := Lv 12 0 16 25 in
  massive 15 X /\ norm3 (cross (vect beam) (vect X)) <> 0
  /\ exists G, gjTransform beam X = Some G /\ lapply G beam = Lv 0 0 (- (80 / 3)) (107 / 3).
Proof.
  intros beam X. assert (massive 15 X) as HX by (unfold massive, hasMass, X; cbn [lx ly lz lt]; lra).
  assert (cross (vect beam) (vect X) = V3 0 (-320) 0) as C0 by (unfold cross, vect, beam, X; cbn [vx vy vz lx ly lz]; f_equal; ring).
  assert (norm3 (cross (vect beam) (vect X)) <> 0) as Hn.
  { intros Q. apply norm3_zero in Q. rewrite C0 in Q. cbn [vx vy vz] in Q. lra. }
  split; [exact HX|]. split; [exact Hn|].
  unfold gjTransform. destruct (lvEqb beam X) eqn:EQ; [apply lvEqb_eq in EQ; unfold beam, X in EQ; injection EQ; intros; lra|]. clear EQ.
  pose proof (rotToY_explicit (cross (vect beam) (vect X))) as ER. cbv zeta in ER.
  pose proof (good_toY (cross (vect beam) (vect X))) as G1. set (r1 := rotToY (cross (vect beam) (vect X))) in *.
  assert (massive 15 (rotVec r1 X)) as HX1 by (rewrite <- ofRot_vec; apply massive_map; [apply G1|exact HX]).
  destruct (toRest _ _ HX1) as (b & B & E1 & E2 & GB & EX & _ & EB). rewrite E1. cbn [bnd]. rewrite E2. cbn [bnd].
  assert (rotToY (cross (vect beam) (vect X)) = R3 (V3 (-1) 0 0) (V3 0 (-1) 0) (V3 0 0 1)) as ER'.
  { fold r1. cbv zeta in ER. rewrite ER, C0. destruct (phi_spec (V3 0 (-320) 0)) as [P1 P2]. destruct (theta_spec (V3 0 (-320) 0)) as [T1 T2].
    assert (vPerp (V3 0 (-320) 0) = 320) as EP.
    { unfold vPerp. cbn [vx vy vz]. replace (0 * 0 + -320 * -320) with (320 * 320) by ring. apply sqrt_square. lra. }
    assert (norm3 (V3 0 (-320) 0) = 320) as EN.
    { unfold norm3. cbn [vx vy vz]. replace (0 * 0 + -320 * -320 + 0 * 0) with (320 * 320) by ring. apply sqrt_square. lra. }
    rewrite EP in *. rewrite EN in *. cbn [vx vy vz] in *.
    replace (cos (vPhi (V3 0 (-320) 0))) with 0 by lra. replace (sin (vPhi (V3 0 (-320) 0))) with (-1) by lra.
    replace (cos (vTheta (V3 0 (-320) 0))) with 0 by lra. replace (sin (vTheta (V3 0 (-320) 0))) with 1 by lra. f_equal; f_equal; ring. }
  fold r1 in ER'. clear ER. rename ER' into ER.
  assert (lapply B (rotVec r1 beam) = Lv 0 0 (- (80 / 3)) (107 / 3)) as EBB.
  { rewrite EB, ER. unfold restMomentum, mink, rotVec, vdot, vect, beam, X. cbn [rX rY rZ vx vy vz lx ly lz lt]. apply lv_eq; field. }
  eexists. split; [reflexivity|]. unfold transform. rewrite !lapply_mul, !ofRot_vec. rewrite rotToZ_0 by (rewrite EBB; reflexivity). exact EBB.
Qed.

(* ---- examples: the hypotheses can be met ---- *)
Example ex_beam : lv := Lv 0 0 4 5.
Example ex_X : lv := Lv 4 0 0 5.
Example ex_massive : massive 3 ex_X.
Proof. unfold massive, hasMass, ex_X. cbn [lx ly lz lt]. lra. Qed.
Example ex_plane : norm3 (cross (vect ex_beam) (vect ex_X)) <> 0.
Proof. intros Q. apply norm3_zero in Q. unfold cross, vect, ex_beam, ex_X in Q. cbn [vx vy vz lx ly lz] in Q. lra. Qed.
Example C73_gj_example : exists G, gjTransform ex_beam ex_X = Some G /\ isGottfriedJackson ex_beam ex_X 3 G.
Proof.
  apply (C73_gottfried_jackson_frame_beam_along_z ex_beam ex_X 3 3 ex_massive); try (unfold ex_beam; cbn [lx ly lz lt]; lra).
  - unfold hasMass, ex_beam. cbn [lx ly lz lt]. lra.
  - apply ex_plane.
Qed.
Example C73_hf_example : exists H, hfTransform (Lv 3 0 0 5) = Some H /\ isHelicityFrame (Lv 3 0 0 5) 4 H.
Proof. apply C73_helicity_frame; [unfold massive, hasMass; cbn [lx ly lz lt]; lra|left; cbn [lx]; lra]. Qed.
Example C73_inversion_example : spaceInvertDecay ex_beam ex_X [Lv 4 0 1 (5 - 2); Lv 0 0 (-1) 2]
  = Some [lvSub (scale4 (2 * (-1) / (3 * 3)) ex_X) (Lv 4 0 1 3); lvSub (scale4 (2 * 10 / (3 * 3)) ex_X) (Lv 0 0 (-1) 2)].
Proof.
  rewrite (C73_space_inversion _ _ _ _ ex_massive). cbn [map].
  unfold mink, lvSub, scale4, ex_X. cbn [lx ly lz lt]. f_equal. apply f_equal2; [|apply f_equal2; [|reflexivity]]; apply lv_eq; field.
Qed.
