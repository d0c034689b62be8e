(* General Lorentz transformations; uniqueness of the Gottfried-Jackson frame (C73). *)
From Coq Require Import List ZArith Reals Bool Lia Lra Psatz.
From Verif Require Import CGBoxModel PhysModel PhaseModel PhaseSpec PhaseProofs FrameModel FrameSpec FrameProofs FrameProofs2 FrameProofs3.
Import ListNotations.
Open Scope R_scope.

Lemma lor_left L : (forall p q, mink (lapply L p) (lapply L q) = mink p q) -> forall p, lapply (linv L) (lapply L p) = p.
Proof.
  intros H p.
  assert (forall v, lapply (linv L) v = Lv (- mink (lapply L (Lv 1 0 0 0)) v) (- mink (lapply L (Lv 0 1 0 0)) v)
     (- mink (lapply L (Lv 0 0 1 0)) v) (mink (lapply L (Lv 0 0 0 1)) v)) as E.
  { intros [x y z t]. destruct L as [[a1 a2 a3 a4] [b1 b2 b3 b4] [c1 c2 c3 c4] [d1 d2 d3 d4]].
    unfold lapply, linv, mink, rowDot. cbn [qX qY qZ qT lx ly lz lt]. apply lv_eq; ring. }
  rewrite E, !H. destruct p as [x y z t]. unfold mink. cbn [lx ly lz lt]. apply lv_eq; ring.
Qed.
(* adjugate *)
Definition adj4 (L : lrot) : lrot :=
  let '(LR (Lv a1 a2 a3 a4) (Lv b1 b2 b3 b4) (Lv c1 c2 c3 c4) (Lv d1 d2 d3 d4)) := L in
  LR (Lv (det3 b2 b3 b4 c2 c3 c4 d2 d3 d4) (- det3 a2 a3 a4 c2 c3 c4 d2 d3 d4) (det3 a2 a3 a4 b2 b3 b4 d2 d3 d4) (- det3 a2 a3 a4 b2 b3 b4 c2 c3 c4))
     (Lv (- det3 b1 b3 b4 c1 c3 c4 d1 d3 d4) (det3 a1 a3 a4 c1 c3 c4 d1 d3 d4) (- det3 a1 a3 a4 b1 b3 b4 d1 d3 d4) (det3 a1 a3 a4 b1 b3 b4 c1 c3 c4))
     (Lv (det3 b1 b2 b4 c1 c2 c4 d1 d2 d4) (- det3 a1 a2 a4 c1 c2 c4 d1 d2 d4) (det3 a1 a2 a4 b1 b2 b4 d1 d2 d4) (- det3 a1 a2 a4 b1 b2 b4 c1 c2 c4))
     (Lv (- det3 b1 b2 b3 c1 c2 c3 d1 d2 d3) (det3 a1 a2 a3 c1 c2 c3 d1 d2 d3) (- det3 a1 a2 a3 b1 b2 b3 d1 d2 d3) (det3 a1 a2 a3 b1 b2 b3 c1 c2 c3)).
Lemma adj_right L p : lapply L (lapply (adj4 L) p) = Lv (det4 L * lx p) (det4 L * ly p) (det4 L * lz p) (det4 L * lt p).
Proof.
  destruct L as [[a1 a2 a3 a4] [b1 b2 b3 b4] [c1 c2 c3 c4] [d1 d2 d3 d4]]. destruct p as [x y z t].
  unfold adj4, lapply, det4, rowDot, det3. cbn [qX qY qZ qT lx ly lz lt]. apply lv_eq; ring.
Qed.
Lemma lor_good L : isLorentz L -> good L.
Proof.
  intros H. pose proof (lor_left L (isl_mink _ H)) as HL. constructor; [exact H|exact HL|].
  intros p. assert (lapply L (lapply (adj4 L) p) = p) as E.
  { rewrite adj_right, (isl_det _ H). destruct p as [x y z t]. cbn [lx ly lz lt]. apply lv_eq; ring. }
  rewrite <- E at 1. rewrite HL. exact E.
Qed.
Lemma lapply_ext A B : (forall p, lapply A p = lapply B p) -> A = B.
Proof.
  intros H. pose proof (H (Lv 1 0 0 0)) as H1. pose proof (H (Lv 0 1 0 0)) as H2. pose proof (H (Lv 0 0 1 0)) as H3. pose proof (H (Lv 0 0 0 1)) as H4.
  destruct A as [[a1 a2 a3 a4] [b1 b2 b3 b4] [c1 c2 c3 c4] [d1 d2 d3 d4]].
  destruct B as [[e1 e2 e3 e4] [f1 f2 f3 f4] [g1 g2 g3 g4] [h1 h2 h3 h4]].
  unfold lapply, rowDot in *. cbn [qX qY qZ qT lx ly lz lt] in *.
  injection H1. injection H2. injection H3. injection H4. intros. f_equal; apply lv_eq; lra.
Qed.
Lemma lapply_scale L k p : lapply L (Lv (k * lx p) (k * ly p) (k * lz p) (k * lt p)) =
  Lv (k * lx (lapply L p)) (k * ly (lapply L p)) (k * lz (lapply L p)) (k * lt (lapply L p)).
Proof. unfold lapply, rowDot. cbn [lx ly lz lt]. apply lv_eq; ring. Qed.

(* components of a transformed vector, read off from the transformed axes *)
Lemma comp_t G X M p : isLorentz G -> M <> 0 -> lapply G X = Lv 0 0 0 M -> lt (lapply G p) = mink p X / M.
Proof.
  intros HG HM E. rewrite <- (isl_mink _ HG), E. unfold mink. cbn [lx ly lz lt]. field. exact HM.
Qed.
Lemma comp_y G n N p : isLorentz G -> N <> 0 -> lapply G n = Lv 0 N 0 0 -> ly (lapply G p) = - mink p n / N.
Proof.
  intros HG HM E. rewrite <- (isl_mink _ HG), E. unfold mink. cbn [lx ly lz lt]. field. exact HM.
Qed.

Lemma det_row a w' b c d : w' = Lv (det3 (ly b) (lz b) (lt b) (ly c) (lz c) (lt c) (ly d) (lz d) (lt d))
    (- det3 (lx b) (lz b) (lt b) (lx c) (lz c) (lt c) (lx d) (lz d) (lt d))
    (det3 (lx b) (ly b) (lt b) (lx c) (ly c) (lt c) (lx d) (ly d) (lt d))
    (- det3 (lx b) (ly b) (lz b) (lx c) (ly c) (lz c) (lx d) (ly d) (lz d)) ->
  det4 (LR a b c d) = rowDot a w'.
Proof. intros ->. unfold det4, rowDot. cbn [lx ly lz lt]. ring. Qed.

Lemma row_ext r r' : (forall p, rowDot r p = rowDot r' p) -> r = r'.
Proof.
  intros H. pose proof (H (Lv 1 0 0 0)) as H1. pose proof (H (Lv 0 1 0 0)) as H2. pose proof (H (Lv 0 0 1 0)) as H3. pose proof (H (Lv 0 0 0 1)) as H4.
  destruct r as [a b c d], r' as [a' b' c' d']. unfold rowDot in *. cbn [lx ly lz lt] in *. apply lv_eq; lra.
Qed.
Lemma frame_unique G G' : isLorentz G -> isLorentz G' ->
  (forall p, ly (lapply G p) = ly (lapply G' p)) -> (forall p, lz (lapply G p) = lz (lapply G' p)) ->
  (forall p, lt (lapply G p) = lt (lapply G' p)) -> G = G'.
Proof.
  intros HG HG' HY HZ HT. destruct G as [a b c d], G' as [a' b' c' d']. unfold lapply in HY, HZ, HT. cbn [qX qY qZ qT lx ly lz lt] in *.
  apply row_ext in HY. apply row_ext in HZ. apply row_ext in HT. subst b' c' d'. f_equal. apply row_ext.
  assert (forall p q, rowDot a p * rowDot a q = rowDot a' p * rowDot a' q) as Q.
  { intros p q. pose proof (isl_mink _ HG p q) as M1. pose proof (isl_mink _ HG' p q) as M2. rewrite <- M2 in M1. unfold mink, lapply in M1.
    cbn [qX qY qZ qT lx ly lz lt] in M1. lra. }
  set (w := Lv (det3 (ly b) (lz b) (lt b) (ly c) (lz c) (lt c) (ly d) (lz d) (lt d))
    (- det3 (lx b) (lz b) (lt b) (lx c) (lz c) (lt c) (lx d) (lz d) (lt d))
    (det3 (lx b) (ly b) (lt b) (lx c) (ly c) (lt c) (lx d) (ly d) (lt d))
    (- det3 (lx b) (ly b) (lz b) (lx c) (ly c) (lz c) (lx d) (ly d) (lz d))).
  pose proof (isl_det _ HG) as D1. rewrite (det_row a w) in D1 by reflexivity.
  pose proof (isl_det _ HG') as D2. rewrite (det_row a' w) in D2 by reflexivity.
  intros p. pose proof (Q p w) as E. rewrite D1, D2 in E. lra.
Qed.
Lemma gj_unique beam X M G G' : 0 < M -> norm3 (cross (vect beam) (vect X)) <> 0 ->
  isGottfriedJackson beam X M G -> isGottfriedJackson beam X M G' -> G = G'.
Proof.
  intros HM Hn [g1 g2 (p & Pp & g3) g4] [h1 h2 (q & Pq & h3) h4].
  set (n := cross (vect beam) (vect X)) in *.
  assert (forall v, lt (lapply G v) = lt (lapply G' v)) as HT.
  { intros v. rewrite (comp_t G X M v), (comp_t G' X M v); try assumption; try lra; reflexivity. }
  assert (p = q) as E.
  { pose proof (isl_mink _ g1 beam beam) as Q1. pose proof (isl_mink _ h1 beam beam) as Q2.
    rewrite g3 in Q1. rewrite h3 in Q2. rewrite HT in Q1. rewrite <- Q2 in Q1. unfold mink in Q1. cbn [lx ly lz lt] in Q1. nra. }
  subst q. apply frame_unique; try assumption.
  - intros v. rewrite (comp_y G (ofV3 n) (norm3 n) v), (comp_y G' (ofV3 n) (norm3 n) v); try assumption; reflexivity.
  - intros v. pose proof (isl_mink _ g1 v beam) as Q1. pose proof (isl_mink _ h1 v beam) as Q2. rewrite g3 in Q1. rewrite h3 in Q2.
    rewrite !HT in Q1. rewrite <- Q2 in Q1. unfold mink in Q1. cbn [lx ly lz lt] in Q1. rewrite !Rmult_0_r in Q1. apply (Rmult_eq_reg_r p); [|lra]. rewrite (HT v) in Q1. lra.
Qed.

(* cross product under rotations *)
Lemma rot_cross r a b : isLorentz (ofRot r) -> vect (rotVec r (ofV3 (cross a b))) = cross (vect (rotVec r (ofV3 a))) (vect (rotVec r (ofV3 b))).
Proof.
  intros HR. pose proof (lor_good _ HR) as G.
  assert (forall u v, vdot (vect (rotVec r (ofV3 u))) (vect (rotVec r (ofV3 v))) = vdot u v) as D.
  { intros u v. pose proof (isl_mink _ HR (ofV3 u) (ofV3 v)) as Q. rewrite !ofRot_vec in Q.
    assert (forall a b, lt a = 0 -> mink a b = - vdot (vect a) (vect b)) as MV.
    { intros a' b' Z. unfold mink, vdot, vect. cbn [vx vy vz]. rewrite Z. ring. }
    rewrite !MV in Q by reflexivity. apply Ropp_eq_compat in Q. rewrite !Ropp_involutive in Q. exact Q. }
  assert (forall c, vdot (vect (rotVec r (ofV3 c))) (cross (vect (rotVec r (ofV3 a))) (vect (rotVec r (ofV3 b)))) = vdot c (cross a b)) as T.
  { intros c. pose proof (isl_det _ HR) as Dt. unfold det4, ofRot, det3 in Dt. cbn [lx ly lz lt] in Dt.
    destruct r as [[a1 a2 a3] [b1 b2 b3] [c1 c2 c3]]. cbn [rX rY rZ vx vy vz] in Dt.
    transitivity (det3 a1 a2 a3 b1 b2 b3 c1 c2 c3 * vdot c (cross a b)).
    - unfold vdot, cross, rotVec, vect, ofV3, det3, vdot. cbn [rX rY rZ vx vy vz lx ly lz lt]. ring.
    - assert (det3 a1 a2 a3 b1 b2 b3 c1 c2 c3 = 1) as -> by (unfold det3; rewrite <- Dt; ring). ring. }
  (* compare scalar products with all vectors *)
  assert (forall u, vdot u (vect (rotVec r (ofV3 (cross a b)))) = vdot u (cross (vect (rotVec r (ofV3 a))) (vect (rotVec r (ofV3 b))))) as A.
  { intros u. set (c := vect (lapply (linv (ofRot r)) (ofV3 u))).
    assert (rotVec r (ofV3 c) = ofV3 u) as Ec.
    { rewrite <- ofRot_vec. replace (ofV3 c) with (lapply (linv (ofRot r)) (ofV3 u)); [apply (gd_r _ G)|].
      unfold c, ofV3, vect, lapply, linv, ofRot, rowDot. cbn [qX qY qZ qT lx ly lz lt vx vy vz]. apply lv_eq; ring. }
    assert (u = vect (rotVec r (ofV3 c))) as Eu by (rewrite Ec; destruct u; reflexivity).
    rewrite Eu, D, T. reflexivity. }
  pose proof (A (V3 1 0 0)) as A1. pose proof (A (V3 0 1 0)) as A2. pose proof (A (V3 0 0 1)) as A3.
  destruct (vect (rotVec r (ofV3 (cross a b)))) as [u1 u2 u3]. destruct (cross _ _) as [w1 w2 w3].
  unfold vdot in A1, A2, A3. cbn [vx vy vz] in *. f_equal; lra.
Qed.
