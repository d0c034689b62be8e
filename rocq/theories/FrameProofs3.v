(* The Gottfried-Jackson and helicity frames (C73). *)
From Coq Require Import List ZArith Reals Bool Lia Lra Psatz.
From Verif Require Import CGBoxModel PhysModel PhaseModel PhaseSpec PhaseProofs FrameModel FrameSpec FrameProofs FrameProofs2.
Import ListNotations.
Open Scope R_scope.

Lemma massive_mink M p : massive M p -> mink p p = M * M.
Proof. intros (_ & _ & H). unfold hasMass in H. unfold mink. cbn [pow] in H. lra. Qed.
Lemma massive_map L M p : isLorentz L -> massive M p -> massive M (lapply L p).
Proof.
  intros HL HM. pose proof (massive_mink _ _ HM) as E. destruct HM as (H1 & H2 & H3). split; [exact H1|]. split.
  - apply (isl_future _ HL); [exact H2|]. rewrite E. nra.
  - pose proof (isl_mink _ HL p p) as Q. rewrite E in Q. unfold hasMass. unfold mink in Q. cbn [pow]. lra.
Qed.
(* the boost to the rest frame *)
Lemma toRest M P : massive M P -> exists b B, boostVector P = Some b /\ lboost lrotId (vneg b) = Some B /\ good B
  /\ lapply B P = Lv 0 0 0 M /\ b2 (vneg b) < 1
  /\ (forall p, lapply B p = Lv (vx (restMomentum P M p)) (vy (restMomentum P M p)) (vz (restMomentum P M p)) (mink P p / M)).
Proof.
  intros H. pose proof (massive_mink _ _ H) as E. destruct H as (H1 & H2 & H3).
  assert (dot P P = M * M) as D by (unfold dot; unfold mink in E; exact E).
  exists (bv P). rewrite boostVector_bv by exact H2.
  assert (b2 (vneg (bv P)) < 1) as B2.
  { pose proof (bv_lt1 P H2 ltac:(rewrite D; nra)) as Q. unfold b2, vneg in *. cbn [vx vy vz]. lra. }
  destruct (boostMat_spec _ B2) as (B & E1 & E2 & E3). pose proof (good_boost _ _ B2 E1) as GB.
  exists (transform lrotId B). unfold lboost. rewrite E1. cbn [bnd]. split; [reflexivity|]. split; [reflexivity|].
  assert (forall p, lapply (transform lrotId B) p = bst (vneg (bv P)) p) as AP.
  { intros p. unfold transform. rewrite lapply_mul, lapply_id. apply E2. }
  assert (good (transform lrotId B)) as GT by (apply good_mul; [exact GB|apply good_id]).
  (* the gamma factor *)
  assert (lt P <> 0) as NZ by lra.
  assert (gam (vneg (bv P)) = lt P / M) as EG.
  { unfold gam. replace (b2 (vneg (bv P))) with (b2 (bv P)) by (unfold b2, vneg; cbn [vx vy vz]; ring).
    rewrite bv_b2, D by exact H2. replace (M * M / (lt P * lt P)) with ((M / lt P)²) by (unfold Rsqr; field; lra).
    rewrite sqrt_Rsqr by (apply Rlt_le, Rdiv_lt_0_compat; lra). field. lra. }
  assert (forall p, lapply (transform lrotId B) p = Lv (vx (restMomentum P M p)) (vy (restMomentum P M p)) (vz (restMomentum P M p)) (mink P p / M)) as AQ.
  { intros p. unfold transform. rewrite lapply_mul, lapply_id, E3. cbv zeta. rewrite EG.
    assert (lt P / M * (lt P / M) / (1 + lt P / M) = lt P * lt P / (M * (lt P + M))) as ->.
    { field. repeat split; lra. }
    destruct P as [a b c e]. destruct p as [x y z t]. unfold restMomentum, bv, vneg, lapply, rowDot, mink. cbn [vx vy vz lx ly lz lt qX qY qZ qT] in *.
    assert (e + M <> 0) by lra.
    apply lv_eq; field; repeat split; lra. }
  repeat split; try assumption; try apply GT.
  rewrite AQ. rewrite E. unfold restMomentum. cbn [vx vy vz].
  assert (lx P * lx P + ly P * ly P + lz P * lz P = (lt P - M) * (lt P + M)) as Q by (unfold mink in E; lra).
  rewrite Q. assert ((lt P - M) * (lt P + M) / (M * (lt P + M)) - lt P / M = -1) as -> by (field; lra).
  apply lv_eq; try ring. field. lra.
Qed.

Lemma cross_dot_l a b : vdot (cross a b) a = 0.
Proof. unfold vdot, cross. cbn [vx vy vz]. ring. Qed.
Lemma cross_dot_r a b : vdot (cross a b) b = 0.
Proof. unfold vdot, cross. cbn [vx vy vz]. ring. Qed.

Lemma rotVec_rest r X M p : good (ofRot r) -> 
  ofV3 (restMomentum (rotVec r X) M (rotVec r p)) = rotVec r (ofV3 (restMomentum X M p)).
Proof.
  intros G. assert (forall p q, vdot (vect (rotVec r p)) (vect (rotVec r q)) = vdot (vect p) (vect q)) as D.
  { intros a b. pose proof (isl_mink _ (gd_lor _ G) a b) as Q. rewrite !ofRot_vec in Q. unfold mink, rotVec in Q.
    unfold rotVec. unfold vdot in *. unfold vect in *. cbn [vx vy vz lx ly lz lt] in *. lra. }
  pose proof (D p X) as DX. destruct r as [[a1 a2 a3] [b1 b2 b3] [c1 c2 c3]].
  unfold restMomentum. unfold vdot, vect in DX. cbn [vx vy vz] in DX.
  replace (lt (rotVec _ p)) with (lt p) by reflexivity. replace (lt (rotVec _ X)) with (lt X) by reflexivity.
  rewrite DX. set (k := _ / _ - _). clearbody k. unfold rotVec, ofV3, vdot, vect. cbn [rX rY rZ vx vy vz lx ly lz lt]. apply lv_eq; ring.
Qed.

Lemma inPlane_row n : exists k, 0 < k /\ rX (rotToY n) = V3 (k * vx (inPlane n)) (k * vy (inPlane n)) (k * vz (inPlane n)).
Proof.
  destruct (rotToY_rows n) as (c & s & C & S & _ & _ & _ & _ & _ & Ec & Es & ->). cbn [rX].
  destruct (phi_spec n) as [P1 P2]. rewrite <- Ec in P1. rewrite <- Es in P2.
  assert (vx n = 0 /\ vy n = 0 -> c = 1 /\ s = 0) as Z.
  { intros [Z1 Z2]. rewrite Ec, Es. unfold vPhi, reqb. rewrite Z1, Z2. destruct (Req_EM_T 0 0); [|lra]. cbn [andb]. now rewrite cos_0, sin_0. }
  assert (~ (vx n = 0 /\ vy n = 0) -> 0 < vPerp n) as NZ.
  { intros N. apply sqrt_lt_R0. pose proof (Rle_0_sqr (vx n)). pose proof (Rle_0_sqr (vy n)). unfold Rsqr in *.
    destruct (Req_EM_T (vx n * vx n + vy n * vy n) 0) as [Q|Q]; [apply sum2_zero in Q; tauto|lra]. }
  unfold inPlane. destruct (Req_EM_T (vx n) 0) as [E1|N1]; [destruct (Req_EM_T (vy n) 0) as [E2|N2]|].
  - destruct (Z (conj E1 E2)) as [-> ->]. exists 1. split; [lra|]. cbn [vx vy vz]. f_equal; ring.
  - assert (0 < vPerp n) as P by (apply NZ; tauto). exists (/ vPerp n). split; [now apply Rinv_0_lt_compat|].
    cbn [vx vy vz]. rewrite <- P1, <- P2. f_equal; field; lra.
  - assert (0 < vPerp n) as P by (apply NZ; tauto). exists (/ vPerp n). split; [now apply Rinv_0_lt_compat|].
    cbn [vx vy vz]. rewrite <- P1, <- P2. f_equal; field; lra.
Qed.

Lemma cross_zero_self p : cross (vect p) (vect p) = V3 0 0 0.
Proof. unfold cross, vect. cbn [vx vy vz]. f_equal; ring. Qed.
Lemma lvEqb_eq p q : lvEqb p q = true <-> p = q.
Proof.
  destruct p as [a b c d], q as [a' b' c' d']. unfold lvEqb, reqb. cbn [lx ly lz lt].
  destruct (Req_EM_T a a'), (Req_EM_T b b'), (Req_EM_T c c'), (Req_EM_T d d'); cbn [andb]; split; intros H; try discriminate; try congruence; injection H; intros; contradiction.
Qed.

Section GJ.
  Variables (beam X : lv) (M : R).
  Hypothesis HX : massive M X.
  Let n := cross (vect beam) (vect X).
  Hypothesis Hn : norm3 n <> 0.
  Let r1 := rotToY n.

  Lemma gj_parts : exists b B, boostVector (rotVec r1 X) = Some b /\ lboost lrotId (vneg b) = Some B /\ good B
    /\ lapply B (rotVec r1 X) = Lv 0 0 0 M
    /\ gjTransform beam X = Some (lmul (ofRot (rotToZ (lapply B (rotVec r1 beam)))) (lmul B (ofRot r1)))
    /\ lapply B (Lv 0 (norm3 n) 0 0) = Lv 0 (norm3 n) 0 0
    /\ ly (lapply B (rotVec r1 beam)) = 0
    /\ (exists k, 0 < k /\ lx (lapply B (rotVec r1 beam)) = k * vdot (inPlane n) (restMomentum X M beam))
    /\ norm3 (vect (lapply B (rotVec r1 beam))) <> 0.
  Proof.
    pose proof (good_toY n) as G1. fold r1 in G1.
    assert (massive M (rotVec r1 X)) as HX1 by (rewrite <- ofRot_vec; apply massive_map; [apply G1|exact HX]).
    destruct (toRest _ _ HX1) as (b & B & E1 & E2 & GB & EX & B2 & EB). exists b, B. do 4 (split; [assumption|]).
    assert (0 < M) as PM by apply HX. assert (0 < lt X) as PX by apply HX.
    assert (ly (rotVec r1 X) = 0) as YX.
    { pose proof (rotToY_y n X) as Q. unfold n in Q at 3. rewrite cross_dot_r in Q. fold r1 in Q. apply Rmult_integral in Q. tauto. }
    assert (ly (rotVec r1 beam) = 0) as YB.
    { pose proof (rotToY_y n beam) as Q. unfold n in Q at 3. rewrite cross_dot_l in Q. fold r1 in Q. apply Rmult_integral in Q. tauto. }
    split.
    { unfold gjTransform. destruct (lvEqb beam X) eqn:EQ.
      - exfalso. apply lvEqb_eq in EQ. apply Hn. unfold n. rewrite EQ, cross_zero_self. unfold norm3. cbn [vx vy vz].
        replace (0 * 0 + 0 * 0 + 0 * 0) with 0 by ring. apply sqrt_0.
      - fold n. fold r1. rewrite E1. cbn [bnd]. rewrite E2. cbn [bnd]. reflexivity. }
    split.
    { rewrite EB. unfold restMomentum, mink. cbn [vx vy vz lx ly lz lt]. rewrite YX. apply lv_eq; try (field; lra).
      - rewrite ?Rmult_0_l, ?Rmult_0_r. field. repeat split; cbn [rotVec lt]; lra.
      - rewrite ?Rmult_0_l, ?Rmult_0_r. field. repeat split; cbn [rotVec lt]; lra. }
    split.
    { rewrite EB. unfold restMomentum. cbn [vy ly]. rewrite YX, YB. ring. }
    assert (lapply B (rotVec r1 beam) = Lv (lx (rotVec r1 (ofV3 (restMomentum X M beam)))) (ly (rotVec r1 (ofV3 (restMomentum X M beam))))
       (lz (rotVec r1 (ofV3 (restMomentum X M beam)))) (mink (rotVec r1 X) (rotVec r1 beam) / M)) as EBB.
    { rewrite EB. pose proof (rotVec_rest r1 X M beam G1) as Q. rewrite <- Q. reflexivity. }
    split.
    { destruct (inPlane_row n) as (k & Pk & Ek). exists k. split; [exact Pk|]. rewrite EBB. cbn [lx]. unfold rotVec. cbn [lx].
      fold r1 in Ek. rewrite Ek. unfold vdot, vect, ofV3. cbn [vx vy vz lx ly lz]. ring. }
    intros N0. apply norm3_zero in N0.
    assert (restMomentum X M beam = V3 0 0 0) as Z.
    { assert (rotVec r1 (ofV3 (restMomentum X M beam)) = Lv 0 0 0 0) as Q.
      { rewrite EBB in N0. unfold vect in N0. cbn [lx ly lz vx vy vz] in N0. destruct N0 as (N1 & N2 & N3).
        destruct (rotVec r1 (ofV3 (restMomentum X M beam))) as [q1 q2 q3 q4] eqn:EQ. cbn [lx ly lz] in *. subst. f_equal.
        transitivity (lt (rotVec r1 (ofV3 (restMomentum X M beam)))); [now rewrite EQ|reflexivity]. }
      rewrite <- ofRot_vec in Q. apply (f_equal (lapply (linv (ofRot r1)))) in Q. rewrite (gd_l _ G1) in Q.
      assert (lapply (linv (ofRot r1)) (Lv 0 0 0 0) = Lv 0 0 0 0) as Q0 by (unfold lapply, rowDot; cbn [lx ly lz lt]; apply lv_eq; ring).
      rewrite Q0 in Q. unfold ofV3 in Q. destruct (restMomentum X M beam) as [u v w]. cbn [vx vy vz] in Q. injection Q. intros. subst. reflexivity. }
    apply Hn. unfold restMomentum in Z. cbv zeta in Z. set (k := _ / _ - _) in Z. injection Z. intros Z1 Z2 Z3.
    assert (n = V3 0 0 0) as ->.
    { unfold n, cross, vect. cbn [vx vy vz]. f_equal.
      - replace (ly beam) with (- k * ly X) by lra. replace (lz beam) with (- k * lz X) by lra. ring.
      - replace (lx beam) with (- k * lx X) by lra. replace (lz beam) with (- k * lz X) by lra. ring.
      - replace (lx beam) with (- k * lx X) by lra. replace (ly beam) with (- k * ly X) by lra. ring. }
    unfold norm3. cbn [vx vy vz]. replace (0 * 0 + 0 * 0 + 0 * 0) with 0 by ring. apply sqrt_0.
  Qed.

  Lemma gj_frame : vdot (inPlane n) (restMomentum X M beam) <> 0 ->
    exists G, gjTransform beam X = Some G /\ good G /\ isGottfriedJackson beam X M G.
  Proof.
    intros HP. destruct gj_parts as (b & B & E1 & E2 & GB & EX & EG & EN & EY & (k & Pk & Ek) & NB).
    rewrite EG. eexists. split; [reflexivity|]. pose proof (good_toY n) as G1. fold r1 in G1.
    set (r2 := rotToZ (lapply B (rotVec r1 beam))). pose proof (good_toZ (lapply B (rotVec r1 beam))) as G2. fold r2 in G2.
    assert (good (lmul (ofRot r2) (lmul B (ofRot r1)))) as G by (apply good_mul; [exact G2|now apply good_mul]).
    split; [exact G|]. constructor.
    - apply G.
    - rewrite !lapply_mul, !ofRot_vec, EX. unfold r2. apply rotToZ_rest.
    - exists (norm3 (vect (lapply B (rotVec r1 beam)))). split; [pose proof (norm3_pos (vect (lapply B (rotVec r1 beam)))); lra|].
      rewrite !lapply_mul, !ofRot_vec. unfold r2. rewrite rotToZ_self; [reflexivity|exact EY|left].
      rewrite Ek. apply Rmult_integral_contrapositive_currified; [lra|exact HP].
    - rewrite !lapply_mul, !ofRot_vec. fold n. unfold ofV3. unfold r1. rewrite rotToY_self. fold r1. rewrite EN. unfold r2. apply rotToZ_yaxis.
  Qed.
End GJ.
