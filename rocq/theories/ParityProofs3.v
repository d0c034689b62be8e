(* C75: frames of a mirrored event. *)
From Coq Require Import ZArith Reals List Bool Lia Lra Psatz.
From Verif Require Import SpinSpec CGBoxModel PhysModel PhaseModel PhaseSpec PhaseProofs FrameModel FrameSpec FrameProofs FrameProofs2 FrameProofs3 FrameProofs4 FrameProps FrameProps2 AmpModel AmpSpec AmpProofs AmpProofs2 ParityProofs2.
Import ListNotations.
Open Scope R_scope.

(* the helicity frame is unique *)
Lemma hf_unique d m H H' : 0 < m -> norm3 (cross (V3 0 0 1) (vect d)) <> 0 -> isHelicityFrame d m H -> isHelicityFrame d m H' -> H = H'.
Proof.
  intros Hm Hn [g1 g2 g3 g4] [h1 h2 h3 h4].
  assert (norm3 (vect d) <> 0) as Nd.
  { intros E. apply norm3_zero in E. apply Hn. unfold norm3, cross. cbn [vx vy vz]. destruct E as (-> & -> & ->).
    replace ((0 * 0 - 1 * 0) * (0 * 0 - 1 * 0) + (1 * 0 - 0 * 0) * (1 * 0 - 0 * 0) + (0 * 0 - 0 * 0) * (0 * 0 - 0 * 0)) with 0 by ring. apply sqrt_0. }
  assert (forall v, lt (lapply H v) = lt (lapply H' v)) as HT.
  { intros v. rewrite (comp_t H d m v), (comp_t H' d m v); try assumption; try lra; reflexivity. }
  apply frame_unique; try assumption.
  - intros v. set (n := cross (V3 0 0 1) (vect d)) in *. rewrite (comp_y H (ofV3 n) (norm3 n) v), (comp_y H' (ofV3 n) (norm3 n) v); try assumption; reflexivity.
  - intros v. pose proof (isl_mink _ g1 v (Lv 0 0 0 1)) as Q1. pose proof (isl_mink _ h1 v (Lv 0 0 0 1)) as Q2. rewrite g3 in Q1. rewrite h3 in Q2.
    rewrite <- Q2 in Q1. unfold mink in Q1. cbn [lx ly lz lt] in Q1. rewrite HT in Q1.
    assert (norm3 (vect d) / m <> 0) as Nm by (apply Rmult_integral_contrapositive_currified; [exact Nd|apply Rinv_neq_0_compat; lra]).
    apply (Rmult_eq_reg_r (norm3 (vect d) / m)); [lra|exact Nm].
Qed.

(* sign changes of rows and columns of a matrix *)
Definition mirRow (K : sgn3) (r : lv) (k : R) : lv := Lv (k * (sg (s1 K) * lx r)) (k * (sg (s2 K) * ly r)) (k * (sg (s3 K) * lz r)) (k * lt r).
Definition mirMat (K' K : sgn3) (H : lrot) : lrot :=
  LR (mirRow K (qX H) (sg (s1 K'))) (mirRow K (qY H) (sg (s2 K'))) (mirRow K (qZ H) (sg (s3 K'))) (mirRow K (qT H) 1).
Lemma mirMat_apply K' K H p : lapply (mirMat K' K H) p = mir K' (lapply H (mir K p)).
Proof. unfold lapply, mirMat, mirRow, mir, rowDot. cbn [qX qY qZ qT lx ly lz lt]. apply lv_eq; ring. Qed.
Definition sgdet (K : sgn3) : R := sg (s1 K) * sg (s2 K) * sg (s3 K).
Lemma mirMat_det K' K H : det4 (mirMat K' K H) = sgdet K' * sgdet K * det4 H.
Proof.
  destruct H as [[a1 a2 a3 a4] [b1 b2 b3 b4] [c1 c2 c3 c4] [d1 d2 d3 d4]].
  unfold det4, mirMat, mirRow, det3, sgdet. cbn [qX qY qZ qT lx ly lz lt]. ring.
Qed.
Lemma mirMat_lorentz K' K H : sgdet K' * sgdet K = 1 -> isLorentz H -> isLorentz (mirMat K' K H).
Proof.
  intros E L. constructor.
  - intros p q. rewrite !mirMat_apply, mir_mink, (isl_mink _ L), mir_mink. reflexivity.
  - rewrite mirMat_det, E, (isl_det _ L). ring.
  - intros p P M. rewrite mirMat_apply. change (0 < lt (lapply H (mir K p))). apply (isl_future _ L); [exact P|now rewrite mir_mink].
Qed.
(* the sign changes below a particle whose momentum is changed by K *)
Definition nextHel (K : sgn3) : sgn3 := S3 (s3 K) (xorb (s1 K) (s2 K)) false.
Lemma sg_xor a b : sg (xorb a b) = sg a * sg b.
Proof. destruct a, b; unfold sg; cbn [xorb]; ring. Qed.
Lemma hel_mirror K d m H H' : massive m d -> offAxis d ->
  (forall q, helStep d q = Some (lapply H q)) -> (forall q, helStep (mir K d) q = Some (lapply H' q)) ->
  forall q, lapply H' (mir K q) = mir (nextHel K) (lapply H q).
Proof.
  intros Hd HO E E' q.
  destruct (C73_helicity_frame d m Hd HO) as (H0 & E0 & F0). destruct (C73_helicity_frame (mir K d) m (mir_massive K _ _ Hd) (mir_offAxis K _ HO)) as (H1 & E1 & F1).
  assert (forall q, lapply H q = lapply H0 q) as X0 by (intros x; specialize (E x); unfold helStep in E; rewrite E0 in E; cbn [bnd] in E; congruence).
  assert (forall q, lapply H' q = lapply H1 q) as X1 by (intros x; specialize (E' x); unfold helStep in E'; rewrite E1 in E'; cbn [bnd] in E'; congruence).
  rewrite X0, X1. clear H H' E E' X0 X1. assert (0 < m) as Pm by apply Hd.
  set (n := cross (V3 0 0 1) (vect d)). set (n' := cross (V3 0 0 1) (vect (mir K d))).
  assert (n = V3 (- ly d) (lx d) 0) as En by (unfold n, cross, vect; cbn [vx vy vz]; f_equal; ring).
  assert (n' = V3 (- (sg (s2 K) * ly d)) (sg (s1 K) * lx d) 0) as En' by (unfold n', cross, vect, mir; cbn [vx vy vz lx ly lz]; f_equal; ring).
  assert (norm3 n' = norm3 n) as ENN.
  { unfold norm3. rewrite En, En'. cbn [vx vy vz]. f_equal. pose proof (sg_sq (s1 K)) as A. pose proof (sg_sq (s2 K)) as B.
    transitivity ((sg (s2 K) * sg (s2 K)) * (ly d * ly d) + (sg (s1 K) * sg (s1 K)) * (lx d * lx d) + 0 * 0); [ring|rewrite A, B; ring]. }
  assert (norm3 n' <> 0) as Nn'.
  { rewrite ENN. intros Q. apply norm3_zero in Q. rewrite En in Q. cbn [vx vy vz] in Q. destruct HO; lra. }
  assert (isHelicityFrame (mir K d) m (mirMat (nextHel K) K H0)) as F2.
  { destruct F0 as [g1 g2 g3 g4]. constructor.
    - apply mirMat_lorentz; [|exact g1]. unfold sgdet, nextHel. cbn [s1 s2 s3]. rewrite sg_xor. destruct (s1 K), (s2 K), (s3 K); unfold sg; ring.
    - rewrite mirMat_apply, mir_mir, g2. unfold mir. cbn [lx ly lz lt]. apply lv_eq; ring.
    - rewrite mirMat_apply. replace (mir K (Lv 0 0 0 1)) with (Lv 0 0 0 1) by (unfold mir; cbn [lx ly lz lt]; apply lv_eq; ring).
      rewrite g3, mir_norm. unfold mir, nextHel, sg. cbn [s1 s2 s3 lx ly lz lt]. apply lv_eq; ring.
    - fold n'. fold n in g4. rewrite mirMat_apply, ENN.
      assert (mir K (ofV3 n') = let k := sg (s1 K) * sg (s2 K) in Lv (k * lx (ofV3 n)) (k * ly (ofV3 n)) (k * lz (ofV3 n)) (k * lt (ofV3 n))) as ->.
      { cbv zeta. rewrite En, En'. unfold mir, ofV3. cbn [vx vy vz lx ly lz lt]. apply lv_eq; ring. }
      cbv zeta. rewrite lapply_scale, g4. unfold mir, nextHel. cbn [s1 s2 s3 lx ly lz lt]. rewrite sg_xor. pose proof (sg_sq (s1 K)) as A. pose proof (sg_sq (s2 K)) as B.
      apply lv_eq; try ring. transitivity ((sg (s1 K) * sg (s1 K)) * (sg (s2 K) * sg (s2 K)) * norm3 n); [ring|rewrite A, B; ring]. }
  rewrite (hf_unique (mir K d) m H1 _ Pm Nn' F1 F2), mirMat_apply, mir_mir. reflexivity.
Qed.

(* boosts commute with mirrors *)
Lemma can_mirror K d m H H' : massive m d ->
  (forall q, canStep d q = Some (lapply H q)) -> (forall q, canStep (mir K d) q = Some (lapply H' q)) ->
  forall q, lapply H' (mir K q) = mir K (lapply H q).
Proof.
  intros Hd E E' q.
  assert (forall d0 L, massive m d0 -> (forall q, canStep d0 q = Some (lapply L q)) ->
    forall p, lapply L p = Lv (vx (restMomentum d0 m p)) (vy (restMomentum d0 m p)) (vz (restMomentum d0 m p)) (mink d0 p / m)) as K0.
  { intros d0 L HM EL p. destruct (toRest _ _ HM) as (b & B & E1 & E2 & GB & EX & B2 & FB). rewrite <- FB. specialize (EL p). unfold canStep in EL. rewrite E1 in EL. cbn [bnd] in EL.
    rewrite boost_bst in EL by exact B2. unfold lboost in E2. destruct (boostMat_spec _ B2) as (B' & EB & SB & _). rewrite EB in E2. cbn [bnd] in E2. injection E2 as E2.
    rewrite <- E2. unfold transform. rewrite lapply_mul, lapply_id, SB. congruence. }
  rewrite (K0 _ _ Hd E), (K0 _ _ (mir_massive K _ _ Hd) E'), mir_mink. unfold restMomentum.
  replace (lx (mir K q) * lx (mir K d) + ly (mir K q) * ly (mir K d) + lz (mir K q) * lz (mir K d)) with (lx q * lx d + ly q * ly d + lz q * lz d).
  2:{ unfold mir. cbn [lx ly lz]. pose proof (sg_sq (s1 K)) as A. pose proof (sg_sq (s2 K)) as B. pose proof (sg_sq (s3 K)) as C.
      transitivity ((sg (s1 K) * sg (s1 K)) * (lx q * lx d) + (sg (s2 K) * sg (s2 K)) * (ly q * ly d) + (sg (s3 K) * sg (s3 K)) * (lz q * lz d)); [rewrite A, B, C; ring|ring]. }
  cbv zeta. change (lt (mir K d)) with (lt d). change (lt (mir K q)) with (lt q).
  set (k := (lx q * lx d + ly q * ly d + lz q * lz d) / (m * (lt d + m)) - lt q / m). unfold mir. cbn [lx ly lz lt vx vy vz]. apply lv_eq; ring.
Qed.

(* ---- all momenta ---- *)
Definition nextOf (f : formalism) : sgn3 -> sgn3 := match f with Helicity => nextHel | Canonical => fun K => K end.
Fixpoint mirrorTree (nx : sgn3 -> sgn3) (K : sgn3) (u w : lvs) (t : topo) : Prop :=
  w (root t) = mir K (u (root t))
  /\ match t with Fs _ => True | Iso _ _ a b => mirrorTree nx (nx K) u w a /\ mirrorTree nx (nx K) u w b end.
(* isobars that do not fly along the z axis *)
Definition awayFromAxis (f : formalism) (u : lvs) (t : topo) : Prop :=
  forall v, In v (vertices t) -> match f with Helicity => offAxis (u (root v)) | Canonical => True end.
Lemma placed_mirror f : forall t K F F' s s' u w, isLorentz F -> physical s t ->
  (forall p, In p (fsParts t) -> lapply F' (s' p) = mir K (lapply F (s p))) ->
  placed (stepOf f) F s u t -> placed (stepOf f) F' s' w t -> awayFromAxis f u t -> mirrorTree (nextOf f) K u w t.
Proof.
  induction t as [p|p v a IHa b IHb]; intros K F F' s s' u w LF PH EF [E1 P1] [E2 P2] AX; split; try exact I.
  - cbn [root momentum] in *. rewrite E1, E2. apply EF. now left.
  - cbn [root] in *. rewrite E1, E2, <- (momentum_add _ _ _ (additive_lapply F')), <- (momentum_add _ _ _ (additive_lapply F)), <- (momentum_add _ _ _ (mir_add K)).
    apply momentum_ext. exact EF.
  - assert (w p = mir K (u p)) as Ep.
    { cbn [root] in *. rewrite E1, E2, <- (momentum_add _ _ _ (additive_lapply F')), <- (momentum_add _ _ _ (additive_lapply F)), <- (momentum_add _ _ _ (mir_add K)).
      apply momentum_ext. exact EF. }
    destruct P1 as (H1 & L1 & S1 & Pa1 & Pb1), P2 as (H2 & L2 & S2 & Pa2 & Pb2).
    destruct (PH (Iso p v a b)) as (m & Hm); [now left|]. assert (massive m (u p)) as Hu by (cbn [root] in E1; rewrite E1; now apply massive_map).
    assert (forall q, lapply H2 (mir K q) = mir (nextOf f K) (lapply H1 q)) as EH.
    { specialize (AX (Iso p v a b) ltac:(now left)). rewrite Ep in S2. destruct f; [now apply (hel_mirror K (u p) m)|now apply (can_mirror K (u p) m)]. }
    assert (isLorentz (lmul H1 F)) as LF1 by now apply isLorentz_mul.
    assert (forall x, In x (fsParts (Iso p v a b)) -> lapply (lmul H2 F') (s' x) = mir (nextOf f K) (lapply (lmul H1 F) (s x))) as EF'.
    { intros x Hx. rewrite !lapply_mul, (EF x Hx). apply EH. }
    split; [apply (IHa _ (lmul H1 F) (lmul H2 F') s s')|apply (IHb _ (lmul H1 F) (lmul H2 F') s s')]; try assumption.
    + intros x Hx. apply PH. cbn [vertices]. right. apply in_app_iff. now left.
    + intros x Hx. apply EF'. cbn [fsParts]. apply in_app_iff. now left.
    + intros x Hx. apply AX. cbn [vertices]. right. apply in_app_iff. now left.
    + intros x Hx. apply PH. cbn [vertices]. right. apply in_app_iff. now right.
    + intros x Hx. apply EF'. cbn [fsParts]. apply in_app_iff. now right.
    + intros x Hx. apply AX. cbn [vertices]. right. apply in_app_iff. now right.
Qed.
(* the daughters of X in the Gottfried-Jackson frame: turned around by space inversion, mirrored at
   the xz plane by reflection *)
Lemma framed_mirror f K ref p v a b s u s' w : let t := Iso p v a b in physical s t ->
  framed (stepOf f) ref t s u -> framed (stepOf f) ref t s' w -> momentum s' t = momentum s t ->
  (forall G, gjTransform ref (momentum s t) = Some G -> forall x, In x (fsParts t) -> lapply G (s' x) = mir K (lapply G (s x))) ->
  awayFromAxis f u a -> awayFromAxis f u b -> mirrorTree (nextOf f) K u w a /\ mirrorTree (nextOf f) K u w b /\ w p = u p.
Proof.
  intros t PH (G & EG & LG & EX & Pa & Pb) (G' & EG' & _ & EX' & Pa' & Pb') EM EF Aa Ab. rewrite EM in EG'. assert (G' = G) as -> by congruence.
  split; [apply (placed_mirror f a K G G s s')|split; [apply (placed_mirror f b K G G s s')|]]; try assumption.
  - intros x Hx. apply PH. unfold t. cbn [vertices]. right. apply in_app_iff. now left.
  - intros x Hx. apply (EF G EG). unfold t. cbn [fsParts]. apply in_app_iff. now left.
  - intros x Hx. apply PH. unfold t. cbn [vertices]. right. apply in_app_iff. now right.
  - intros x Hx. apply (EF G EG). unfold t. cbn [fsParts]. apply in_app_iff. now right.
  - change (root t) with p in *. congruence.
Qed.
Lemma mod_inversion ref t s M G : massive M (momentum s t) -> gjTransform ref (momentum s t) = Some G ->
  forall x, lapply G (modified true false ref t s x) = mir KI (lapply G (s x)).
Proof.
  intros HM EG x. unfold modified. rewrite <- (turned_conj ref _ M G _ HM EG). unfold conj4. destruct (gj_always ref _ M HM) as (G' & EG' & GG & _).
  assert (G' = G) as -> by congruence. rewrite (gd_r _ GG), mir_I. reflexivity.
Qed.
Lemma mod_reflection ref t s M G : massive M (momentum s t) -> norm3 (cross (vect ref) (vect (momentum s t))) <> 0 -> gjTransform ref (momentum s t) = Some G ->
  forall x, lapply G (modified false true ref t s x) = mir KY (lapply G (s x)).
Proof.
  intros HM HN EG x. unfold modified. rewrite <- (mirrored_conj ref _ M G _ HM HN EG). unfold conj4. destruct (gj_always ref _ M HM) as (G' & EG' & GG & _).
  assert (G' = G) as -> by congruence. rewrite (gd_r _ GG), mir_Y. reflexivity.
Qed.
