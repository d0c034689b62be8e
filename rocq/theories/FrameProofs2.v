(* Elementary rotations and boosts are Lorentz transformations (C73). *)
From Coq Require Import List ZArith Reals Bool Lia Lra Psatz.
From Verif Require Import CGBoxModel PhysModel PhaseModel PhaseSpec PhaseProofs FrameModel FrameSpec FrameProofs.
Import ListNotations.
Open Scope R_scope.

Record good (L : lrot) : Prop := {
  gd_lor : isLorentz L;
  gd_l : forall p, lapply (linv L) (lapply L p) = p;
  gd_r : forall p, lapply L (lapply (linv L) p) = p }.
Lemma isLorentz_mul A B : isLorentz A -> isLorentz B -> isLorentz (lmul A B).
Proof.
  intros [a1 a2 a3] [b1 b2 b3]. constructor.
  - intros p q. rewrite !lapply_mul. now rewrite a1, b1.
  - rewrite det_mul, a2, b2. ring.
  - intros p H1 H2. rewrite lapply_mul. apply a3; [now apply b3|]. now rewrite b1.
Qed.
Lemma good_mul A B : good A -> good B -> good (lmul A B).
Proof.
  intros [a1 a2 a3] [b1 b2 b3]. constructor.
  - now apply isLorentz_mul.
  - intros p. rewrite linv_mul, !lapply_mul, a2. apply b2.
  - intros p. rewrite linv_mul, !lapply_mul, b3. apply a3.
Qed.

Ltac cs a := assert (sin a * sin a + cos a * cos a = 1) by (pose proof (sin2_cos2 a) as Hsc; unfold Rsqr in Hsc; exact Hsc).
Ltac unf := unfold mink, det4, det3, lapply, linv, rowDot; cbn [qX qY qZ qT lx ly lz lt].
Ltac unr := unfold ofRot, rotateX, rotateY, rotateZ, rotId, comb; cbn [rX rY rZ vx vy vz]; f_equal; apply lv_eq; ring.
Lemma X_eq a : ofRot (rotateX a rotId) = LR (Lv 1 0 0 0) (Lv 0 (cos a) (- sin a) 0) (Lv 0 (sin a) (cos a) 0) (Lv 0 0 0 1).
Proof. unr. Qed.
Lemma Y_eq a : ofRot (rotateY a rotId) = LR (Lv (cos a) 0 (sin a) 0) (Lv 0 1 0 0) (Lv (- sin a) 0 (cos a) 0) (Lv 0 0 0 1).
Proof. unr. Qed.
Lemma Z_eq a : ofRot (rotateZ a rotId) = LR (Lv (cos a) (- sin a) 0 0) (Lv (sin a) (cos a) 0 0) (Lv 0 0 1 0) (Lv 0 0 0 1).
Proof. unr. Qed.
Lemma good_X a : good (ofRot (rotateX a rotId)).
Proof.
  rewrite X_eq. cs a. set (s := sin a) in *. set (c := cos a) in *. constructor; [constructor|..].
  - intros [x y z t] [x' y' z' t']. unf. fold s c.
    transitivity (t * t' - (x * x' + (s * s + c * c) * (y * y' + z * z'))); [ring|]. rewrite H. ring.
  - unf. fold s c. transitivity (s * s + c * c); [ring|exact H].
  - intros [x y z t]. unf. intros. lra.
  - intros [x y z t]. unf. fold s c. apply lv_eq; [ring|transitivity ((s * s + c * c) * y)|transitivity ((s * s + c * c) * z)|ring]; try ring; rewrite H; ring.
  - intros [x y z t]. unf. fold s c. apply lv_eq; [ring|transitivity ((s * s + c * c) * y)|transitivity ((s * s + c * c) * z)|ring]; try ring; rewrite H; ring.
Qed.
Lemma good_Y a : good (ofRot (rotateY a rotId)).
Proof.
  rewrite Y_eq. cs a. set (s := sin a) in *. set (c := cos a) in *. constructor; [constructor|..].
  - intros [x y z t] [x' y' z' t']. unf. fold s c.
    transitivity (t * t' - (y * y' + (s * s + c * c) * (x * x' + z * z'))); [ring|]. rewrite H. ring.
  - unf. fold s c. transitivity (s * s + c * c); [ring|exact H].
  - intros [x y z t]. unf. intros. lra.
  - intros [x y z t]. unf. fold s c. apply lv_eq; [transitivity ((s * s + c * c) * x)|ring|transitivity ((s * s + c * c) * z)|ring]; try ring; rewrite H; ring.
  - intros [x y z t]. unf. fold s c. apply lv_eq; [transitivity ((s * s + c * c) * x)|ring|transitivity ((s * s + c * c) * z)|ring]; try ring; rewrite H; ring.
Qed.
Lemma good_Z a : good (ofRot (rotateZ a rotId)).
Proof.
  rewrite Z_eq. cs a. set (s := sin a) in *. set (c := cos a) in *. constructor; [constructor|..].
  - intros [x y z t] [x' y' z' t']. unf. fold s c.
    transitivity (t * t' - (z * z' + (s * s + c * c) * (x * x' + y * y'))); [ring|]. rewrite H. ring.
  - unf. fold s c. transitivity (s * s + c * c); [ring|exact H].
  - intros [x y z t]. unf. intros. lra.
  - intros [x y z t]. unf. fold s c. apply lv_eq; [transitivity ((s * s + c * c) * x)|transitivity ((s * s + c * c) * y)|ring|ring]; try ring; rewrite H; ring.
  - intros [x y z t]. unf. fold s c. apply lv_eq; [transitivity ((s * s + c * c) * x)|transitivity ((s * s + c * c) * y)|ring|ring]; try ring; rewrite H; ring.
Qed.
Lemma lapply_id p : lapply lrotId p = p.
Proof. destruct p as [x y z t]. unfold lapply, lrotId, rowDot. cbn [qX qY qZ qT lx ly lz lt]. apply lv_eq; ring. Qed.
Lemma linv_id : linv lrotId = lrotId.
Proof. unfold linv, lrotId. cbn [qX qY qZ qT lx ly lz lt]. f_equal; apply lv_eq; ring. Qed.
Lemma good_id : good lrotId.
Proof.
  constructor; [constructor|..]; intros; rewrite ?linv_id, ?lapply_id; auto.
  unfold det4, det3, lrotId. cbn [lx ly lz lt]. ring.
Qed.
Lemma ofRot_mul a b : ofRot (rotMul a b) = lmul (ofRot a) (ofRot b).
Proof. unfold ofRot, rotMul, lmul, rowMul. cbn [qX qY qZ qT lx ly lz lt rX rY rZ vx vy vz]. f_equal; apply lv_eq; ring. Qed.
Lemma rotateX_mul a r : rotateX a r = rotMul (rotateX a rotId) r.
Proof. destruct r as [[a1 a2 a3] [b1 b2 b3] [c1 c2 c3]]. unfold rotateX, rotMul, comb, rotId. cbn [rX rY rZ vx vy vz]. f_equal; f_equal; ring. Qed.
Lemma ofRot_vec r p : lapply (ofRot r) p = rotVec r p.
Proof. unfold lapply, ofRot, rotVec, rowDot, vdot, vect. cbn [qX qY qZ qT lx ly lz lt vx vy vz]. apply lv_eq; ring. Qed.
Lemma good_toY v : good (ofRot (rotToY v)).
Proof. unfold rotToY. rewrite rotateX_mul, ofRot_mul. apply good_mul; [apply good_X|apply good_Z]. Qed.
Lemma good_toZ p : good (ofRot (rotToZ p)).
Proof. apply good_Y. Qed.

(* the rows of rotToY *)
Lemma rotToY_rows v : exists c s C S, c * c + s * s = 1 /\ C * C + S * S = 1
  /\ vx v = norm3 v * (S * c) /\ vy v = norm3 v * (S * s) /\ vz v = norm3 v * C
  /\ c = cos (vPhi v) /\ s = sin (vPhi v)
  /\ rotToY v = R3 (V3 s (- c) 0) (V3 (S * c) (S * s) C) (V3 (- C * c) (- C * s) S).
Proof.
  exists (cos (vPhi v)), (sin (vPhi v)), (cos (vTheta v)), (sin (vTheta v)).
  cs (vPhi v). cs (vTheta v). destruct (phi_spec v) as [P1 P2]. destruct (theta_spec v) as [T1 T2].
  split; [lra|]. split; [lra|]. split; [rewrite <- Rmult_assoc, T2; lra|]. split; [rewrite <- Rmult_assoc, T2; lra|].
  split; [lra|]. split; [reflexivity|]. split; [reflexivity|].
  unfold rotToY, rotateX, rotateZ, rotId, comb. cbn [rX rY rZ vx vy vz].
  replace (cos (PI / 2 - vPhi v)) with (sin (vPhi v)) by now rewrite cos_shift.
  replace (sin (PI / 2 - vPhi v)) with (cos (vPhi v)) by now rewrite sin_shift.
  replace (vTheta v - PI / 2) with (- (PI / 2 - vTheta v)) by ring.
  rewrite cos_neg, sin_neg, cos_shift, sin_shift. f_equal; f_equal; ring.
Qed.
(* rotToY turns v to the y axis; vectors perpendicular to v end up in the (x, z) plane *)
Lemma rotToY_self v t : rotVec (rotToY v) (Lv (vx v) (vy v) (vz v) t) = Lv 0 (norm3 v) 0 t.
Proof.
  destruct (rotToY_rows v) as (c & s & C & S & H1 & H2 & E1 & E2 & E3 & _ & _ & ->).
  unfold rotVec, vdot, vect. cbn [rX rY rZ vx vy vz lx ly lz lt]. rewrite E1, E2, E3. set (n := norm3 v).
  apply lv_eq; [ring| |transitivity (n * (S * C) * (1 - (c * c + s * s))); [ring|rewrite H1; ring]|reflexivity].
  transitivity (n * (C * C + S * S * (c * c + s * s))); [ring|]. rewrite H1. rewrite <- (Rmult_1_r n) at 2. f_equal. lra.
Qed.
Lemma rotToY_y v p : norm3 v * ly (rotVec (rotToY v) p) = vdot v (vect p).
Proof.
  destruct (rotToY_rows v) as (c & s & C & S & H1 & H2 & E1 & E2 & E3 & _ & _ & ->).
  unfold rotVec, vdot, vect. cbn [rX rY rZ vx vy vz lx ly lz lt]. rewrite E1, E2, E3. ring.
Qed.
Lemma signum_sq x : x <> 0 -> signum x * signum x = 1.
Proof. intros H. unfold signum, rltb. destruct (Rlt_dec x 0); [ring|]. destruct (Rlt_dec 0 x); [ring|lra]. Qed.
Lemma signum_abs x : signum x * x = Rabs x.
Proof.
  unfold signum, rltb. destruct (Rlt_dec x 0); [rewrite Rabs_left; lra|]. destruct (Rlt_dec 0 x); [rewrite Rabs_right; lra|].
  assert (x = 0) as -> by lra. rewrite Rabs_R0. ring.
Qed.
Lemma sign_trig x a : x <> 0 -> cos (- signum x * a) = cos a /\ sin (- signum x * a) = - signum x * sin a.
Proof.
  intros H. unfold signum, rltb. destruct (Rlt_dec x 0).
  - replace (- -1 * a) with a by ring. split; ring.
  - destruct (Rlt_dec 0 x); [|lra]. replace (- (1) * a) with (- a) by ring. rewrite cos_neg, sin_neg. split; ring.
Qed.
Lemma rotToZ_y p q : ly (rotVec (rotToZ p) q) = ly q.
Proof. unfold rotVec, rotToZ, rotateY, rotId, vdot, vect, comb. cbn [rX rY rZ vx vy vz ly]. ring. Qed.
Lemma rotToZ_yaxis p a : rotVec (rotToZ p) (Lv 0 a 0 0) = Lv 0 a 0 0.
Proof. unfold rotVec, rotToZ, rotateY, rotId, vdot, vect, comb. cbn [rX rY rZ vx vy vz lx ly lz lt]. apply lv_eq; ring. Qed.
Lemma rotToZ_rest p t : rotVec (rotToZ p) (Lv 0 0 0 t) = Lv 0 0 0 t.
Proof. unfold rotVec, rotToZ, rotateY, rotId, vdot, vect, comb. cbn [rX rY rZ vx vy vz lx ly lz lt]. apply lv_eq; ring. Qed.
Lemma rotToZ_self p : ly p = 0 -> lx p <> 0 \/ 0 <= lz p -> rotVec (rotToZ p) p = Lv 0 0 (norm3 (vect p)) (lt p).
Proof.
  intros Hy H. destruct (theta_spec (vect p)) as [T1 T2]. cs (vTheta (vect p)).
  pose proof (perp_sq (vect p)) as PS. pose proof (perp_pos (vect p)) as PP. pose proof (norm3_sq (vect p)) as NS. pose proof (norm3_pos (vect p)) as NP.
  destruct p as [x y z t]. cbn [ly] in Hy. subst y.
  unfold rotVec, rotToZ, rotateY, rotId, vdot, vect, comb in *. cbn [rX rY rZ vx vy vz lx ly lz lt] in *.
  set (th := vTheta (V3 x 0 z)) in *. set (N := norm3 (V3 x 0 z)) in *. set (P := vPerp (V3 x 0 z)) in *.
  destruct (Req_EM_T x 0) as [E|NE].
  - subst x. destruct H as [H|H]; [lra|]. assert (signum 0 = 0) as -> by (unfold signum, rltb; destruct (Rlt_dec 0 0); lra).
    replace (- 0 * th) with 0 by ring. rewrite cos_0, sin_0. assert (N = z) by nra. rewrite H1. apply lv_eq; ring.
  - destruct (sign_trig x th NE) as [-> ->]. pose proof (signum_sq x NE) as S2. pose proof (signum_abs x) as SA.
    assert (P = signum x * x) as EP.
    { rewrite SA. assert (P * P = Rabs x * Rabs x) as Q by (rewrite PS, <- SA; transitivity ((signum x * signum x) * (x * x)); [rewrite S2; ring|ring]).
      pose proof (Rabs_pos x). nra. }
    assert (0 < N) as HN by (pose proof (Rabs_pos_lt x NE); nra).
    set (c := cos th) in *. set (s := sin th) in *. set (sg := signum x) in *.
    assert (x = sg * (N * s)) as Ex by (rewrite T2, EP, <- Rmult_assoc, S2; ring).
    apply lv_eq; [|ring| |ring].
    + rewrite <- T1. transitivity (c * x - sg * s * (N * c)); [ring|]. rewrite Ex. ring.
    + rewrite <- T1. rewrite Ex. transitivity (N * (s * s * (sg * sg) + c * c)); [ring|]. rewrite S2. replace (s * s * 1 + c * c) with 1 by lra. ring.
Qed.

(* ---- boosts ---- *)
Lemma boostMat_spec b : b2 b < 1 -> exists B, boostMat b = Some B /\ (forall p, lapply B p = bst b p)
   /\ B = let bg := gam b * gam b / (1 + gam b) in
     LR (Lv (1 + bg * vx b * vx b) (bg * vx b * vy b) (bg * vx b * vz b) (gam b * vx b))
           (Lv (bg * vx b * vy b) (1 + bg * vy b * vy b) (bg * vy b * vz b) (gam b * vy b))
           (Lv (bg * vx b * vz b) (bg * vy b * vz b) (1 + bg * vz b * vz b) (gam b * vz b))
           (Lv (gam b * vx b) (gam b * vy b) (gam b * vz b) (gam b)).
Proof.
  intros H. destruct (gam_spec b H) as [G1 G2]. pose proof (gam2_spec b H) as G3.
  unfold boostMat. fold (b2 b). rewrite osqrt_ok by lra. cbn [bnd].
  rewrite rdiv_ok by (apply Rgt_not_eq, sqrt_lt_R0; lra). cbn [bnd]. fold (gam b).
  rewrite rdiv_ok by lra. cbn [bnd]. eexists. split; [reflexivity|]. split; [|reflexivity].
  intros p. unfold lapply, bst, bp, rowDot. cbn [qX qY qZ qT lx ly lz lt].
  destruct (Req_EM_T (b2 b) 0) as [Z|NZ].
  - assert (vx b = 0 /\ vy b = 0 /\ vz b = 0) as (-> & -> & ->).
    { unfold b2 in Z. pose proof (Rle_0_sqr (vx b)). pose proof (Rle_0_sqr (vy b)). pose proof (Rle_0_sqr (vz b)). unfold Rsqr in *. repeat split; nra. }
    apply lv_eq; ring.
  - assert (gam2 b = gam b * gam b / (1 + gam b)) as ->.
    { assert (gam2 b = (gam b - 1) / b2 b) as -> by (rewrite <- G3; field; exact NZ).
      assert (b2 b = (gam b * gam b - 1) / (gam b * gam b)) as -> by (apply (Rmult_eq_reg_l (gam b * gam b)); [|nra]; field_simplify; nra).
      field. repeat split; try lra. intros Q. apply NZ. nra. }
    set (bg := gam b * gam b / (1 + gam b)). apply lv_eq; ring.
Qed.
Lemma gam_bg b : b2 b < 1 -> let g := gam b in let k := gam b * gam b / (1 + gam b) in k * b2 b = g - 1 /\ k * (g + 1) = g * g /\ g * g * b2 b = g * g - 1.
Proof.
  intros H. cbv zeta. destruct (gam_spec b H) as [G1 G2]. set (g := gam b) in *. split; [|split].
  - apply (Rmult_eq_reg_r (1 + g)); [|lra]. transitivity (g * g * b2 b); [field; lra|nra].
  - field. lra.
  - lra.
Qed.
Lemma good_boost b B : b2 b < 1 -> boostMat b = Some B -> good B.
Proof.
  intros H HB. destruct (boostMat_spec b H) as (B' & E1 & E2 & E3). rewrite HB in E1. injection E1 as <-.
  destruct (gam_bg b H) as (K1 & K2 & K3). cbv zeta in *.
  destruct (gam_spec b H) as [G1 G2].
  set (k := gam b * gam b / (1 + gam b)) in *. set (g := gam b) in *.
  assert (k * k * b2 b = 2 * k - 2 * k + k * (g - 1)) as K4 by (transitivity (k * (k * b2 b)); [ring|rewrite K1; ring]).
  assert (2 * k + k * k * b2 b = g * g) as K5 by (rewrite K4; lra).
  destruct b as [x y z]. unfold b2 in *. cbn [vx vy vz] in *.
  assert (forall p q, mink (lapply B p) (lapply B q) = mink p q) as MK.
  { intros [x1 y1 z1 t1] [x2 y2 z2 t2]. rewrite E3. unfold mink, lapply, rowDot. cbn [qX qY qZ qT lx ly lz lt].
    set (u1 := x * x1 + y * y1 + z * z1). set (u2 := x * x2 + y * y2 + z * z2). set (bb := x * x + y * y + z * z) in *.
    transitivity ((g * g * (1 - bb)) * (t1 * t2) - (x1 * x2 + y1 * y2 + z1 * z2)
       + (g * g - (2 * k + k * k * bb)) * (u1 * u2) + g * (g - (1 + k * bb)) * (t1 * u2 + t2 * u1)).
    - unfold u1, u2, bb. ring.
    - rewrite G2, K5, K1. ring. }
  constructor; [constructor|..].
  - exact MK.
  - rewrite E3. unfold det4, det3. cbn [lx ly lz lt]. set (bb := x * x + y * y + z * z) in *.
    transitivity (g * (1 + k * bb - g * bb)); [unfold bb; ring|]. rewrite K1. replace (1 + (g - 1) - g * bb) with (g * (1 - bb)) by ring. lra.
  - intros p P1 P2. assert (0 < 1) as O by lra. pose proof (bst_lorentz (V3 x y z) H) as BL.
    destruct (Rle_lt_or_eq_dec 0 (lt (lapply B p))) as [L|L]; [|exact L|].
    + rewrite E2. apply (lo_pos _ BL); unfold dot; unfold mink in P2; lra.
    + pose proof (MK p p) as Q. unfold mink in Q, P2. rewrite <- L in Q.
      pose proof (Rle_0_sqr (lx (lapply B p))). pose proof (Rle_0_sqr (ly (lapply B p))). pose proof (Rle_0_sqr (lz (lapply B p))). unfold Rsqr in *. lra.
  - intros [x1 y1 z1 t1]. rewrite E3. unfold linv, lapply, rowDot. cbn [qX qY qZ qT lx ly lz lt].
    set (u := x * x1 + y * y1 + z * z1). set (bb := x * x + y * y + z * z) in *.
    apply lv_eq.
    + transitivity (x1 + (2 * k + k * k * bb - g * g) * (u * x) + g * (1 + k * bb - g) * (t1 * x)); [unfold u, bb; ring|]. rewrite K5, K1. ring.
    + transitivity (y1 + (2 * k + k * k * bb - g * g) * (u * y) + g * (1 + k * bb - g) * (t1 * y)); [unfold u, bb; ring|]. rewrite K5, K1. ring.
    + transitivity (z1 + (2 * k + k * k * bb - g * g) * (u * z) + g * (1 + k * bb - g) * (t1 * z)); [unfold u, bb; ring|]. rewrite K5, K1. ring.
    + transitivity (g * g * (1 - bb) * t1 - g * (1 + k * bb - g) * u); [unfold u, bb; ring|]. rewrite G2, K1. ring.
  - intros [x1 y1 z1 t1]. rewrite E3. unfold linv, lapply, rowDot. cbn [qX qY qZ qT lx ly lz lt].
    set (u := x * x1 + y * y1 + z * z1). set (bb := x * x + y * y + z * z) in *.
    apply lv_eq.
    + transitivity (x1 + (2 * k + k * k * bb - g * g) * (u * x) - g * (1 + k * bb - g) * (t1 * x)); [unfold u, bb; ring|]. rewrite K5, K1. ring.
    + transitivity (y1 + (2 * k + k * k * bb - g * g) * (u * y) - g * (1 + k * bb - g) * (t1 * y)); [unfold u, bb; ring|]. rewrite K5, K1. ring.
    + transitivity (z1 + (2 * k + k * k * bb - g * g) * (u * z) - g * (1 + k * bb - g) * (t1 * z)); [unfold u, bb; ring|]. rewrite K5, K1. ring.
    + transitivity (g * g * (1 - bb) * t1 + g * (1 + k * bb - g) * u); [unfold u, bb; ring|]. rewrite G2, K1. ring.
Qed.
