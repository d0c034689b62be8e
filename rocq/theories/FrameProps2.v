(* C73: uniqueness and invariance of the frames, space inversion and reflection, collinear momenta *)
From Coq Require Import List ZArith Reals Bool Lia Lra Psatz.
From Verif Require Import CGBoxModel PhysModel PhaseModel PhaseSpec PhaseProofs FrameModel FrameSpec FrameProofs FrameProofs2 FrameProofs3 FrameProofs4 FrameProps.
Import ListNotations.
Open Scope R_scope.

(* the three conditions fix the Gottfried-Jackson frame *)
Theorem C73_gottfried_jackson_frame_unique : forall beam X M G G', 0 < M -> norm3 (cross (vect beam) (vect X)) <> 0 ->
  isGottfriedJackson beam X M G -> isGottfriedJackson beam X M G' -> G = G'.
Proof. exact gj_unique. Qed.

(* momenta in the Gottfried-Jackson frame do not change when all momenta are transformed by a
   Lorentz transformation that maps the normal of the production plane to the new normal *)
Theorem C73_gottfried_jackson_momenta_invariant : forall beam X M L k G G', 0 < M ->
  norm3 (cross (vect beam) (vect X)) <> 0 -> isLorentz L -> 0 < k ->
  lapply L (ofV3 (cross (vect beam) (vect X)))
    = ofV3 (V3 (k * vx (cross (vect (lapply L beam)) (vect (lapply L X)))) (k * vy (cross (vect (lapply L beam)) (vect (lapply L X))))
               (k * vz (cross (vect (lapply L beam)) (vect (lapply L X))))) ->
  isGottfriedJackson beam X M G -> isGottfriedJackson (lapply L beam) (lapply L X) M G' ->
  forall p, lapply G' (lapply L p) = lapply G p.
Proof.
  intros beam X M L k G G' HM Hn HL Hk HN HG HG' p.
  set (n' := cross (vect (lapply L beam)) (vect (lapply L X))) in *. set (n := cross (vect beam) (vect X)) in *.
  assert (isGottfriedJackson beam X M (lmul G' L)) as HC.
  { destruct HG' as [h1 h2 (q & Pq & h3) h4]. constructor.
    - now apply isLorentz_mul.
    - now rewrite lapply_mul.
    - exists q. split; [exact Pq|]. rewrite lapply_mul. exact h3.
    - fold n. fold n' in h4. rewrite lapply_mul, HN. pose proof (lapply_scale G' k (ofV3 n')) as S. unfold ofV3 in S at 1 2 3 4. cbn [lx ly lz lt] in S.
      rewrite Rmult_0_r in S. unfold ofV3 at 1. cbn [vx vy vz]. rewrite S, h4. cbn [lx ly lz lt].
      apply lv_eq; try ring.
      (* the length of the normal *)
      pose proof (isl_mink _ HL (ofV3 n) (ofV3 n)) as Q. rewrite HN in Q. unfold mink, ofV3 in Q. cbn [vx vy vz lx ly lz lt] in Q.
      pose proof (norm3_sq n) as N1. pose proof (norm3_sq n') as N2. pose proof (norm3_pos n). pose proof (norm3_pos n').
      assert ((k * norm3 n') * (k * norm3 n') = norm3 n * norm3 n) as E.
      { transitivity (k * k * (norm3 n' * norm3 n')); [ring|]. rewrite N1, N2. lra. }
      assert (0 <= k * norm3 n') by (apply Rmult_le_pos; lra). nra. }
  rewrite (gj_unique _ _ _ _ _ HM Hn HG HC). now rewrite lapply_mul.
Qed.

(* in particular they do not change when all momenta are rotated *)
Theorem C73_rotation_invariant : forall beam X M r G G', 0 < M ->
  norm3 (cross (vect beam) (vect X)) <> 0 -> isLorentz (ofRot r) ->
  isGottfriedJackson beam X M G -> isGottfriedJackson (rotVec r beam) (rotVec r X) M G' ->
  forall p, lapply G' (rotVec r p) = lapply G p.
Proof.
  intros beam X M r G G' HM Hn HR HG HG' p. rewrite <- ofRot_vec.
  apply (C73_gottfried_jackson_momenta_invariant beam X M (ofRot r) 1 G G'); try assumption; try lra.
  - rewrite !ofRot_vec. pose proof (rot_cross r (vect beam) (vect X) HR) as E.
    assert (forall q, vect (rotVec r (ofV3 (vect q))) = vect (rotVec r q)) as V by (intros q; reflexivity). rewrite !V in E.
    set (m := cross (vect beam) (vect X)) in *. replace (rotVec r (ofV3 m)) with (ofV3 (vect (rotVec r (ofV3 m)))) by reflexivity.
    rewrite E. unfold ofV3. cbn [vx vy vz]. apply lv_eq; ring.
  - now rewrite !ofRot_vec.
Qed.

(* gjTransform always leads into a rest frame of X *)
Lemma gj_always beam X M : massive M X -> exists G, gjTransform beam X = Some G /\ good G /\ lapply G X = Lv 0 0 0 M.
Proof.
  intros HX. unfold gjTransform. destruct (lvEqb beam X) eqn:EQ.
  - destruct (toRest _ _ HX) as (b & B & E1 & E2 & GB & EX & _). rewrite E1. cbn [bnd]. eauto.
  - set (r1 := rotToY (cross (vect beam) (vect X))). pose proof (good_toY (cross (vect beam) (vect X))) as G1. fold r1 in G1.
    assert (massive M (rotVec r1 X)) as HX1 by (rewrite <- ofRot_vec; apply massive_map; [apply G1|exact HX]).
    destruct (toRest _ _ HX1) as (b & B & E1 & E2 & GB & EX & _). rewrite E1. cbn [bnd]. rewrite E2. cbn [bnd].
    eexists. split; [reflexivity|]. pose proof (good_toZ (lapply B (rotVec r1 beam))) as G2. split.
    + apply good_mul; [exact G2|]. now apply good_mul.
    + unfold transform. rewrite !lapply_mul, !ofRot_vec, EX. apply rotToZ_rest.
Qed.
Theorem C73_rest_frame : forall beam X M, massive M X ->
  exists G, gjTransform beam X = Some G /\ isLorentz G /\ lapply G X = Lv 0 0 0 M.
Proof. intros beam X M H. destruct (gj_always beam X M H) as (G & E & HG & EX). exists G. split; [exact E|]. split; [apply HG|exact EX]. Qed.

(* space inversion turns the momenta around in the rest frame of X: p becomes 2 (pX)/M^2 X - p,
   independent of the beam *)
Theorem C73_space_inversion : forall ref X M fs, massive M X ->
  spaceInvertDecay ref X fs = Some (map (fun p => lvSub (scale4 (2 * mink p X / (M * M)) X) p) fs).
Proof.
  intros ref X M fs HX. destruct (gj_always ref X M HX) as (G & E & HG & EX). unfold spaceInvertDecay. rewrite E. cbn [bnd]. f_equal.
  rewrite !map_map. apply map_ext. intros p. assert (0 < M) as HM by apply HX.
  assert (spaceInvert (lapply G p) = lapply G (lvSub (scale4 (2 * mink p X / (M * M)) X) p)) as ->; [|apply (gd_l _ HG)].
  pose proof (comp_t G X M p (gd_lor _ HG) ltac:(lra) EX) as ET.
  assert (lapply G (lvSub (scale4 (2 * mink p X / (M * M)) X) p) = lvSub (scale4 (2 * mink p X / (M * M)) (lapply G X)) (lapply G p)) as ->.
  { unfold lvSub, scale4, lapply, rowDot. cbn [lx ly lz lt]. apply lv_eq; ring. }
  rewrite EX. unfold spaceInvert, lvSub, scale4. cbn [lx ly lz lt]. apply lv_eq; try ring. rewrite ET. field. lra.
Qed.

(* the reflection mirrors the momenta in the laboratory at the production plane *)
Theorem C73_reflection : forall beam X M fs, massive M X ->
  norm3 (cross (vect beam) (vect X)) <> 0 ->
  let n := cross (vect beam) (vect X) in
  reflectDecay beam X fs = Some (map (fun p => lvSub p (scale4 (2 * vdot (vect p) n / vdot n n) (ofV3 n))) fs).
Proof.
  intros beam X M fs HX Hn n. destruct (gj_parts beam X M HX Hn) as (b & B & E1 & E2 & GB & EX & EG & EN & _). fold n in EG, EN, EX.
  pose proof (good_toY n) as G1. pose proof (good_toZ (lapply B (rotVec (rotToY n) beam))) as G2.
  set (G := lmul (ofRot (rotToZ (lapply B (rotVec (rotToY n) beam)))) (lmul B (ofRot (rotToY n)))) in *.
  assert (good G) as HG by (apply good_mul; [exact G2|now apply good_mul]).
  assert (lapply G (ofV3 n) = Lv 0 (norm3 n) 0 0) as EY.
  { unfold G. rewrite !lapply_mul, !ofRot_vec. unfold ofV3. rewrite rotToY_self, EN. apply rotToZ_yaxis. }
  unfold reflectDecay. rewrite EG. cbn [bnd]. f_equal. rewrite !map_map. apply map_ext. intros p.
  set (k := 2 * vdot (vect p) n / vdot n n).
  assert (reflectY (lapply G p) = lapply G (lvSub p (scale4 k (ofV3 n)))) as ->; [|apply (gd_l _ HG)].
  pose proof (comp_y G (ofV3 n) (norm3 n) p (gd_lor _ HG) Hn EY) as ET.
  assert (lapply G (lvSub p (scale4 k (ofV3 n))) = lvSub (lapply G p) (scale4 k (lapply G (ofV3 n)))) as ->.
  { unfold lvSub, scale4, lapply, rowDot. cbn [lx ly lz lt]. apply lv_eq; ring. }
  rewrite EY. unfold reflectY, lvSub, scale4. cbn [lx ly lz lt]. apply lv_eq; try ring. rewrite ET.
  assert (vdot n n = norm3 n * norm3 n) as ED by (rewrite norm3_sq; reflexivity). unfold k. rewrite ED.
  assert (mink p (ofV3 n) = - vdot (vect p) n) as -> by (unfold mink, ofV3, vdot, vect; cbn [vx vy vz lx ly lz lt]; ring).
  fold n in Hn. field. exact Hn.
Qed.

(* consequences: both modifications keep the momentum of X and all invariant masses, and done
   twice they restore the event *)
Lemma sum4_map f fs : (forall p q, f (plus4 p q) = plus4 (f p) (f q)) -> f (Lv 0 0 0 0) = Lv 0 0 0 0 -> sum4 (map f fs) = f (sum4 fs).
Proof. intros H1 H2. induction fs as [|p fs IH]; cbn [map sum4 fold_right]; [now rewrite H2|]. fold (sum4 (map f fs)). fold (sum4 fs). now rewrite IH, H1. Qed.
Lemma mink_sub_r p q r : mink (lvSub p q) r = mink p r - mink q r.
Proof. unfold mink, lvSub. cbn [lx ly lz lt]. ring. Qed.
Lemma mink_scale k p q : mink (scale4 k p) q = k * mink p q.
Proof. unfold mink, scale4. cbn [lx ly lz lt]. ring. Qed.
Lemma mink_sym p q : mink p q = mink q p.
Proof. unfold mink. ring. Qed.

Theorem C73_space_inversion_keeps_event : forall ref X M fs, massive M X -> sum4 fs = X ->
  exists fs', spaceInvertDecay ref X fs = Some fs' /\ sameEvent X fs fs' /\ spaceInvertDecay ref X fs' = Some fs.
Proof.
  intros ref X M fs HX HS. rewrite (C73_space_inversion ref X M fs HX). eexists. split; [reflexivity|].
  assert (0 < M) as HM by apply HX. pose proof (massive_mink _ _ HX) as EX. set (f := fun p => lvSub (scale4 (2 * mink p X / (M * M)) X) p).
  assert (f (Lv 0 0 0 0) = Lv 0 0 0 0) as F0.
  { unfold f, lvSub, scale4, mink. cbn [lx ly lz lt]. replace (2 * (0 * lt X - (0 * lx X + 0 * ly X + 0 * lz X)) / (M * M)) with 0 by (field; lra). apply lv_eq; ring. }
  assert (forall p, mink (f p) X = mink p X) as FX.
  { intros p. unfold f. rewrite mink_sub_r, mink_scale, EX. field. lra. }
  split.
  - split; [|split].
    + rewrite sum4_map; [|intros p q; unfold f, lvSub, scale4, plus4, mink; cbn [lx ly lz lt]; apply lv_eq; field; lra|exact F0].
      rewrite HS. unfold f. rewrite EX. unfold lvSub, scale4. destruct X as [x y z t]. cbn [lx ly lz lt]. apply lv_eq; field; lra.
    + apply map_length.
    + intros i j. rewrite <- F0, !map_nth, F0. unfold f at 1. rewrite mink_sub_r, mink_scale, (mink_sym X), FX, (mink_sym (nth i fs _) (f _)).
      unfold f. rewrite mink_sub_r, mink_scale, (mink_sym X (nth i fs _)), (mink_sym (nth j fs _) (nth i fs _)). field. lra.
  - rewrite (C73_space_inversion ref X M _ HX). rewrite map_map. f_equal. transitivity (map (fun p : lv => p) fs); [|apply map_id]. apply map_ext. intros p.
    fold (f p). fold (f (f p)). unfold f at 1. rewrite FX. unfold f. destruct p as [x y z t]. unfold lvSub, scale4. cbn [lx ly lz lt]. apply lv_eq; ring.
Qed.
Theorem C73_reflection_keeps_event : forall beam X M fs, massive M X -> norm3 (cross (vect beam) (vect X)) <> 0 -> sum4 fs = X ->
  exists fs', reflectDecay beam X fs = Some fs' /\ sameEvent X fs fs' /\ reflectDecay beam X fs' = Some fs.
Proof.
  intros beam X M fs HX Hn HS. rewrite (C73_reflection beam X M fs HX Hn). eexists. split; [reflexivity|].
  set (n := cross (vect beam) (vect X)) in *. set (f := fun p => lvSub p (scale4 (2 * vdot (vect p) n / vdot n n) (ofV3 n))).
  assert (vdot n n <> 0) as NN by (replace (vdot n n) with (norm3 n * norm3 n) by (rewrite norm3_sq; reflexivity); apply Rmult_integral_contrapositive_currified; exact Hn).
  assert (f (Lv 0 0 0 0) = Lv 0 0 0 0) as F0.
  { unfold f. replace (2 * vdot (vect (Lv 0 0 0 0)) n / vdot n n) with 0 by (unfold vdot at 1; unfold vect; cbn [vx vy vz lx ly lz]; field; exact NN).
    unfold lvSub, scale4. cbn [lx ly lz lt]. apply lv_eq; ring. }
  assert (forall p, vdot (vect (f p)) n = - vdot (vect p) n) as FX.
  { intros p. transitivity (vdot (vect p) n - 2 * vdot (vect p) n / vdot n n * vdot n n); [|field; exact NN].
    unfold f. set (k := 2 * vdot (vect p) n / vdot n n). unfold vdot, vect, lvSub, scale4, ofV3. cbn [vx vy vz lx ly lz lt]. ring. }
  assert (forall p, mink (ofV3 n) p = - vdot (vect p) n) as MN by (intros p; unfold mink, ofV3, vdot, vect; cbn [vx vy vz lx ly lz lt]; ring).
  split.
  - split; [|split].
    + rewrite sum4_map; [|intros p q; unfold f, lvSub, scale4, plus4, vdot, vect, ofV3; cbn [vx vy vz lx ly lz lt]; apply lv_eq; field; exact NN|exact F0].
      rewrite HS. unfold f. replace (vdot (vect X) n) with 0 by (unfold n, vdot, cross, vect; cbn [vx vy vz]; ring).
      destruct X as [x y z t]. unfold lvSub, scale4, ofV3. cbn [lx ly lz lt]. apply lv_eq; field; exact NN.
    + apply map_length.
    + intros i j. rewrite <- F0, !map_nth, F0. unfold f at 1. rewrite mink_sub_r, mink_scale, MN, FX, (mink_sym (nth i fs _) (f _)).
      unfold f. rewrite mink_sub_r, mink_scale, MN, (mink_sym (nth j fs _) (nth i fs _)). field. exact NN.
  - rewrite (C73_reflection beam X M _ HX Hn). fold n. rewrite map_map. f_equal. transitivity (map (fun p : lv => p) fs); [|apply map_id]. apply map_ext. intros p.
    fold (f p). fold (f (f p)). unfold f at 1. rewrite FX. unfold f. destruct p as [x y z t]. unfold lvSub, scale4, ofV3. cbn [lx ly lz lt]. apply lv_eq; field; exact NN.
Qed.
