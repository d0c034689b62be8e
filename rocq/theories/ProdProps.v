(* C80: production kinematics and generated events of diffractive production. *)
From Coq Require Import List ZArith Reals Bool Lia Lra Psatz.
From Verif Require Import ArrayModel CGBoxModel PhysModel PhysProps PhaseModel PhaseSpec PhaseProofs PhaseProofs2 PhaseProofs3 PhaseProps FrameModel FrameSpec.
From Verif Require Import ProdModel ProdSpec ProdProofs ProdProofs2 ProdProofs3 ProdProofs4.
Import ListNotations.
Open Scope R_scope.

(* the number calculated by tPrime is t' for any possible outgoing system, in any frame of reference *)
Theorem C80_tprime : forall w mb mx mr beam target X,
  0 < w -> hasMass w (plus4 beam target) -> 0 < lt (plus4 beam target) -> isBeam mb beam -> 0 <= mx -> 0 <= mr -> mx + mr <= w ->
  possible beam target mx mr X ->
  exists t', tPrimeOf beam target X = Some t' /\ 0 <= t' /\ isTPrime beam target mx mr X t'.
Proof.
  intros w mb mx mr beam target X W HW LW HB X0 R0 H HX. apply (tPrime_is w mb); try assumption. split; [exact W|]. split; [exact LW|exact HW].
Qed.

Lemma isBreakup_unique w m1 m2 q q' : 0 < w -> isBreakup w m1 m2 q -> isBreakup w m1 m2 q' -> q = q'.
Proof.
  intros W H H'. destruct (breakup_E w m1 m2 q W H) as (Q & E & E0 & E1 & E2). destruct (breakup_E w m1 m2 q' W H') as (Q' & E' & E0' & E1' & E2').
  assert (E = E') as <- by nra. assert (q * q = q' * q') by lra. nra.
Qed.
(* the system X that is generated has mass mx and the picked t', and the recoil particle has mass mr;
   this works up to the maximal t', 4 p q, and at t' = 0 *)
Theorem C80_outgoing_system : forall mb mt mx mr w p q beam tp r,
  isBeam mb beam -> 0 < mt -> 0 <= mx -> 0 <= mr -> 0 < w -> hasMass w (plus4 beam (atRest mt)) -> mx + mr <= w ->
  isBreakup w mb mt p -> isBreakup w mx mr q -> 0 <= tp -> tp < 4 * p * q \/ tp = 0 ->
  exists X, calculateXSystemLab beam mt mx mr (lvM2 (lvAdd beam (atRest mt))) tp r = Some X
    /\ possible beam (atRest mt) mx mr X
    /\ isTPrime beam (atRest mt) mx mr X tp
    /\ tPrimeOf beam (atRest mt) X = Some tp
    /\ (lx beam = 0 -> ly beam = 0 -> 0 < lz beam ->
        exists pT, 0 <= pT /\ lx X = pT * cos (2 * PI * r) /\ ly X = pT * sin (2 * PI * r)).
Proof.
  intros mb mt mx mr w p q beam tp r B MT X0 R0 W HW H HP HQ T0 T1.
  assert (massive w (plus4 beam (atRest mt))) as MW.
  { split; [exact W|]. split; [|exact HW]. destruct B as (_ & _ & B & _). unfold plus4, atRest. cbn [lt]. lra. }
  assert (cmKin mb mt mx mr w p q beam) as K by (constructor; assumption).
  destruct (calc_total mb mt mx mr w p q beam tp r K H T0 T1) as (X & E). exists X. split; [exact E|].
  destruct (calc_some mb mt mx mr w p q beam tp r X K H E) as (HX & ET). split; [exact HX|].
  destruct (tPrime_is w mb beam (atRest mt) mx mr X MW B X0 R0 H HX) as (t' & ET' & _ & IT). assert (t' = tp) as -> by congruence.
  split; [exact IT|]. split; [exact ET|]. intros Bx By Bz. unfold calculateXSystemLab in E.
  apply bnd_some in E as (e1 & _ & E). apply bnd_some in E as (e2 & _ & E). apply bnd_some in E as (e3 & _ & E).
  apply bnd_some in E as (e4 & _ & E). apply bnd_some in E as (e5 & _ & E). apply bnd_some in E as (e6 & _ & E).
  apply bnd_some in E as (e7 & E7 & E). apply bnd_some in E as (e8 & _ & E). apply bnd_some in E as (e9 & E9 & E).
  destruct (osqrt_some _ _ E7) as (_ & P7 & _). destruct (osqrt_some _ _ E9) as (_ & P9 & _).
  set (V := Lv _ _ _ _) in E. assert (rotateUz (vUnit (vect beam)) V = V) as RU.
  { unfold vUnit, vMag2, vect. cbn [vx vy vz]. rewrite Bx, By. unfold rotateUz. cbn [vx vy vz]. rewrite !Rmult_0_l, Rplus_0_l. rewrite rltb_false by lra.
    rewrite rltb_false; [reflexivity|]. rewrite rltb_true by nra. assert (0 < 1 / sqrt (0 + lz beam * lz beam)); [|nra].
    apply Rdiv_lt_0_compat; [lra|]. apply sqrt_lt_R0. nra. }
  rewrite RU in E. injection E as <-. exists (e7 * e9). split; [nra|]. unfold V, uniformIn. cbn [lx ly].
  replace (0 + (2 * PI - 0) * r) with (2 * PI * r) by ring. split; reflexivity.
Qed.
(* the azimuth of X around the beam is 2 pi times the random number, for any direction of the beam:
   there are axes, the same for all events with this beam, such that ... *)
Theorem C80_azimuth : forall mb beam, isBeam mb beam ->
  exists e1 e2 e3, beamAxes beam e1 e2 e3
    /\ forall mt mx mr s tp r X, calculateXSystemLab beam mt mx mr s tp r = Some X ->
       exists pT pL, 0 <= pT
         /\ lx X = pT * (cos (2 * PI * r) * vx e1 + sin (2 * PI * r) * vx e2) + pL * vx e3
         /\ ly X = pT * (cos (2 * PI * r) * vy e1 + sin (2 * PI * r) * vy e2) + pL * vy e3
         /\ lz X = pT * (cos (2 * PI * r) * vz e1 + sin (2 * PI * r) * vz e2) + pL * vz e3.
Proof.
  intros mb beam B. destruct (beam_P beam mb B) as (V2 & V & _). destruct (vUnit_one _ V2) as (U & U1 & U2 & U3).
  set (u := vUnit (vect beam)) in *.
  assert (forall e1 e2 e3, (forall p, lx (rotateUz u p) = lx p * vx e1 + ly p * vx e2 + lz p * vx e3
     /\ ly (rotateUz u p) = lx p * vy e1 + ly p * vy e2 + lz p * vy e3 /\ lz (rotateUz u p) = lx p * vz e1 + ly p * vz e2 + lz p * vz e3) ->
    forall mt mx mr s tp r X, calculateXSystemLab beam mt mx mr s tp r = Some X ->
       exists pT pL, 0 <= pT
         /\ lx X = pT * (cos (2 * PI * r) * vx e1 + sin (2 * PI * r) * vx e2) + pL * vx e3
         /\ ly X = pT * (cos (2 * PI * r) * vy e1 + sin (2 * PI * r) * vy e2) + pL * vy e3
         /\ lz X = pT * (cos (2 * PI * r) * vz e1 + sin (2 * PI * r) * vz e2) + pL * vz e3) as K.
  { intros e1 e2 e3 HE mt mx mr s tp r X E. unfold calculateXSystemLab in E.
    apply bnd_some in E as (x1 & _ & E). apply bnd_some in E as (x2 & _ & E). apply bnd_some in E as (x3 & _ & E).
    apply bnd_some in E as (x4 & _ & E). apply bnd_some in E as (x5 & _ & E). apply bnd_some in E as (x6 & _ & E).
    apply bnd_some in E as (x7 & E7 & E). apply bnd_some in E as (x8 & _ & E). apply bnd_some in E as (x9 & E9 & E).
    destruct (osqrt_some _ _ E7) as (_ & P7 & _). destruct (osqrt_some _ _ E9) as (_ & P9 & _). fold u in E.
    set (W := Lv _ _ _ _) in E. destruct (HE W) as (H1 & H2 & H3). assert (rotateUz u W = X) as EX by congruence. rewrite EX in H1, H2, H3.
    exists (x7 * x9), (lz W). split; [nra|]. rewrite H1, H2, H3. unfold W, uniformIn. cbn [lx ly lz].
    replace (0 + (2 * PI - 0) * r) with (2 * PI * r) by ring. repeat split; ring. }
  set (m := vMag (vect beam)) in *. unfold vect in U1, U2, U3. cbn [vx vy vz] in U1, U2, U3.
  destruct (Rlt_le_dec 0 (vx u * vx u + vy u * vy u)) as [L|L].
  - assert (0 < sqrt (vx u * vx u + vy u * vy u)) as R0 by (apply sqrt_lt_R0; exact L).
    assert (sqrt (vx u * vx u + vy u * vy u) * sqrt (vx u * vx u + vy u * vy u) = vx u * vx u + vy u * vy u) as RR by (apply sqrt_sqrt; lra).
    set (up := sqrt (vx u * vx u + vy u * vy u)) in *.
    exists (V3 (vx u * vz u / up) (vy u * vz u / up) ((vz u * vz u - 1) / up)), (V3 (- vy u / up) (vx u / up) 0), u. split.
    + assert (vz u * vz u = 1 - up * up) as Z2 by lra.
      unfold beamAxes. cbn [vx vy vz]. split; [|split; [|split; [|split; [|split; [|split]]]]].
      * replace (vx u * vz u / up * (vx u * vz u / up) + vy u * vz u / up * (vy u * vz u / up) + (vz u * vz u - 1) / up * ((vz u * vz u - 1) / up))
          with ((vz u * vz u * (vx u * vx u + vy u * vy u) + (vz u * vz u - 1) * (vz u * vz u - 1)) / (up * up)) by (field; lra).
        rewrite <- RR, Z2. field. lra.
      * replace (- vy u / up * (- vy u / up) + vx u / up * (vx u / up) + 0 * 0) with ((vx u * vx u + vy u * vy u) / (up * up)) by (field; lra). rewrite <- RR. field. lra.
      * field. lra.
      * rewrite Z2. field. lra.
      * rewrite Z2. field. lra.
      * replace (vx u * vz u / up * (vx u / up) - vy u * vz u / up * (- vy u / up)) with (vz u * (vx u * vx u + vy u * vy u) / (up * up)) by (field; lra). rewrite <- RR. field. lra.
      * exists m. split; [exact V|]. repeat split; lra.
    + apply K. intros p. unfold rotateUz. cbv zeta. rewrite (rltb_true 0 (vx u * vx u + vy u * vy u)) by exact L. fold up. cbn [lx ly lz vx vy vz]. repeat split; field; lra.
  - assert (vx u = 0 /\ vy u = 0) as [X0 Y0] by (split; nra). assert (vz u = 1 \/ vz u = -1) as Z1.
    { assert ((vz u - 1) * (vz u + 1) = 0) as M by (rewrite X0, Y0 in U; lra). apply Rmult_integral in M as [M|M]; [left|right]; lra. }
    destruct Z1 as [Z1|Z1].
    + exists (V3 1 0 0), (V3 0 1 0), (V3 0 0 1). split.
      * unfold beamAxes. cbn [vx vy vz]. repeat (split; [lra|]). exists m. split; [exact V|]. rewrite Z1 in U3. rewrite X0 in U1. rewrite Y0 in U2. repeat split; lra.
      * apply K. intros p. unfold rotateUz. cbv zeta. rewrite rltb_false by exact L. rewrite rltb_false by lra. cbn [lx ly lz vx vy vz]. repeat split; ring.
    + exists (V3 (-1) 0 0), (V3 0 1 0), (V3 0 0 (-1)). split.
      * unfold beamAxes. cbn [vx vy vz]. repeat (split; [lra|]). exists m. split; [exact V|]. rewrite Z1 in U3. rewrite X0 in U1. rewrite Y0 in U2. repeat split; lra.
      * apply K. intros p. unfold rotateUz. cbv zeta. rewrite rltb_false by exact L. rewrite rltb_true by lra. cbn [lx ly lz vx vy vz]. repeat split; ring.
Qed.
(* there is no check for the largest possible t': a larger one gives a system that is not a number *)
Theorem C80_tprime_above_maximum_refuted : forall mb mt mx mr w p q beam tp r,
  isBeam mb beam -> 0 < mt -> 0 <= mx -> 0 <= mr -> 0 < w -> hasMass w (plus4 beam (atRest mt)) -> mx + mr <= w ->
  isBreakup w mb mt p -> isBreakup w mx mr q -> 4 * p * q < tp ->
  calculateXSystemLab beam mt mx mr (lvM2 (lvAdd beam (atRest mt))) tp r = None
  /\ (forall tries fuel rnd pos pick xMax d, pick rnd pos = Some (true, mx, tp, S pos) ->
        pickMassAndT (S tries) pick rnd mr w pos = Some (mx, tp, S pos)
        /\ event (S tries) fuel rnd (fun _ p => Some (true, beam, p)) pick xMax mt mr pos d = None).
Proof.
  intros mb mt mx mr w p q beam tp r B MT X0 R0 W HW H HP HQ T1.
  assert (massive w (plus4 beam (atRest mt))) as MW.
  { split; [exact W|]. split; [|exact HW]. destruct B as (_ & _ & B & _). unfold plus4, atRest. cbn [lt]. lra. }
  assert (cmKin mb mt mx mr w p q beam) as K by (constructor; assumption).
  split; [exact (calc_none mb mt mx mr w p q beam tp r K H T1)|].
  intros tries fuel rnd pos pick xMax d HPk. destruct (breakup_E w mx mr q W HQ) as (Q0 & _). destruct (breakup_E w mb mt p W HP) as (P0 & _).
  assert (pickMassAndT (S tries) pick rnd mr w pos = Some (mx, tp, S pos)) as PE.
  { cbn [pickMassAndT]. rewrite HPk. cbn [bnd negb]. rewrite !rltb_false by nra. reflexivity. }
  split; [exact PE|]. unfold event. cbn [bnd negb].
  assert (lvM (lvAdd beam (Lv 0 0 0 mt)) = w) as EW. { apply lvM_ok; [lra|exact HW]. }
  destruct (rltb (lvM (lvAdd beam (Lv 0 0 0 mt))) (xMax + mt)); [reflexivity|]. rewrite EW, PE. cbn [bnd].
  destruct (sliceWeight mx (dSlices d) (dWeights d)); [|reflexivity]. cbn [bnd]. destruct (osqrt _); [|reflexivity]. cbn [bnd].
  rewrite (calc_none mb mt mx mr w p q beam tp _ K H T1). reflexivity.
Qed.

(* every event that is generated, after any history of calls *)
Theorem C80_event : forall mb mt mr d tries fuel rnd beamGen pick xMassMax pos n d' pos',
  reached d -> uniform rnd -> 0 < mt -> 0 <= mr ->
  (forall pos b pos', beamGen rnd pos = Some (true, b, pos') -> isBeam mb b) ->
  event tries fuel rnd beamGen pick xMassMax mt mr pos d = Some (n, d', pos') ->
  (1 <= n)%nat /\ reached d' /\ dMasses d' = dMasses d
  /\ (exists p p', pick rnd p = Some (true, dXMass d', dTPrime d', p')) /\ 0 <= dTPrime d'
  /\ (exists p p', beamGen rnd p = Some (true, dBeam d', p'))
  /\ exists X, possible (dBeam d') (atRest mt) (dXMass d') mr X
    /\ isTPrime (dBeam d') (atRest mt) (dXMass d') mr X (dTPrime d')
    /\ tPrimeOf (dBeam d') (atRest mt) X = Some (dTPrime d')
    /\ sum4 (dMom d') = X
    /\ plus4 (sum4 (dMom d')) (dRecoil d') = plus4 (dBeam d') (atRest mt)
    /\ hasMass mr (dRecoil d') /\ 0 <= lt (dRecoil d')
    /\ onShell (dMasses d') (dMom d')
    /\ 0 < dXMass d' /\ sumR (dMasses d') <= dXMass d' /\ (2 <= length (dMasses d'))%nat.
Proof.
  intros mb mt mr d tries fuel rnd beamGen pick xMax pos n d' pos' HR U MT MR HB E. pose proof (reached_inv d HR) as GI.
  destruct (event_inv0 _ _ _ _ _ _ _ _ _ _ _ _ _ GI E) as (GI' & C & EM & ES & EW & p0 & p1 & p2 & g & w & X & B & PK & XM & SW & Eg & CX & RC & sqrtS & AT & DM).
  pose proof (HB _ _ _ B) as IB. destruct (pickMassAndT_inv _ _ _ _ _ _ _ _ _ PK) as ((p & PP) & MW & T0).
  destruct GI as (T & NN & _). assert (consistent (dMasses d) g) as Cg by (subst g; now apply maxW_consistent).
  assert (gWT g = S_U_CHUNG) as Tg by (subst g; exact T).
  destruct (attempts_inv1 (dMasses d) fuel rnd sqrtS mt xMax (dXMass d') X NN tries g p2 n _ _ Cg Tg AT) as (N & _ & _ & _ & M0 & SM).
  destruct (cmKin_exists mb mt (dXMass d') mr (dBeam d') IB MT ltac:(lra) MR MW) as (pp & q & K).
  destruct (calc_some _ _ _ _ _ _ _ _ _ _ _ K MW CX) as (HX & ET).
  destruct (total_massive mb mt (dBeam d') IB MT) as (WM & _).
  destruct (tPrime_is _ mb (dBeam d') (atRest mt) (dXMass d') mr X WM IB ltac:(lra) MR MW HX) as (t' & ET' & _ & IT). assert (t' = dTPrime d') as -> by congruence.
  destruct (attempts_inv2 (dMasses d) fuel rnd sqrtS mt xMax (dXMass d') X NN U ltac:(apply HX) ltac:(apply HX) tries g p2 n _ _ Cg Tg AT) as (L & SE & OS & _).
  rewrite <- DM in L, SE, OS. assert (dRecoil d' = minus4 (plus4 (dBeam d') (atRest mt)) X) as ER by (rewrite RC; reflexivity).
  split; [lia|]. split; [exact (REvent _ _ _ _ _ _ _ _ _ _ _ _ _ HR E)|]. split; [exact EM|]. split; [eauto|]. split; [exact T0|]. split; [eauto|].
  exists X. split; [exact HX|]. split; [exact IT|]. split; [exact ET|]. split; [exact SE|]. split.
  { rewrite SE, ER. unfold plus4, minus4, atRest. cbn [lx ly lz lt]. f_equal; ring. }
  split; [rewrite ER; apply HX|]. split; [rewrite ER; apply HX|]. rewrite EM. split; [split; [exact L|exact OS]|]. split; [exact M0|]. split; [exact SM|].
  exact (co_n2 _ _ C).
Qed.
(* a picked mass below the sum of the masses of the decay products is not rejected: the event never
   comes out (an abort in the calculation of a break-up momentum) *)
Theorem C80_below_threshold_refuted : forall mr d tries fuel rnd beamGen pick xMassMax mt pos,
  reached d -> (forall rnd pos ok m t pos', pick rnd pos = Some (ok, m, t, pos') -> m < sumR (dMasses d)) ->
  event tries fuel rnd beamGen pick xMassMax mt mr pos d = None.
Proof.
  intros mr d tries fuel rnd beamGen pick xMax mt pos HR HP.
  destruct (event tries fuel rnd beamGen pick xMax mt mr pos d) as [((n & d') & pos')|] eqn:E; [exfalso|reflexivity].
  pose proof (reached_inv d HR) as GI.
  destruct (event_inv0 _ _ _ _ _ _ _ _ _ _ _ _ _ GI E) as (GI' & C & EM & ES & EW & p0 & p1 & p2 & g & w & X & B & PK & XM & SW & Eg & CX & RC & sqrtS & AT & DM).
  destruct (pickMassAndT_inv _ _ _ _ _ _ _ _ _ PK) as ((p & PP) & _ & _). apply HP in PP.
  destruct GI as (T & NN & _). assert (consistent (dMasses d) g) as Cg by (subst g; now apply maxW_consistent).
  assert (gWT g = S_U_CHUNG) as Tg by (subst g; exact T).
  destruct (attempts_inv1 (dMasses d) fuel rnd sqrtS mt xMax (dXMass d') X NN tries g p2 n _ _ Cg Tg AT) as (_ & _ & _ & _ & _ & SM). lra.
Qed.
