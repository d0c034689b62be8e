(* C84: the amplitudes of a stored event, the events in the file, and what fails. *)
From Coq Require Import List ZArith Reals Bool Lia Lra Psatz.
From Verif Require Import ArrayModel CGBoxModel PhysModel PhysProps PhaseModel PhaseSpec PhaseProofs PhaseProofs2 PhaseProofs3 PhaseProofs4 PhaseProps PhaseProps2 FrameModel FrameSpec FrameProofs FrameProofs2 FrameProofs3 FrameProofs4 FrameProps2 ProdModel ProdSpec ProdProofs ProdProps SampleModel SampleSpec SampleProofs SampleProps SampleProofs2 SampleProps2.
From Verif Require Import AmpModel AmpSpec AmpProofs AmpProofs2 AmpProps LikSetProofs.
From Verif Require IntensModel IntensCases.
Import ListNotations.
Open Scope R_scope.

Lemma gj_rest M : 0 < M -> exists B, gjTransform (Lv 0 0 0 M) (Lv 0 0 0 M) = Some B /\ forall p, lapply B p = p.
Proof.
  intros HM. assert (massive M (Lv 0 0 0 M)) as MM by (split; [exact HM|split; [exact HM|unfold hasMass; cbn [lx ly lz lt]; ring]]).
  destruct (toRest _ _ MM) as (b & B & E1 & E2 & _ & _ & _ & EB). exists B. unfold gjTransform. rewrite (proj2 (lvEqb_eq _ _) eq_refl), E1. cbn [bnd]. split; [exact E2|].
  intros [x y z e]. rewrite EB. unfold restMomentum, mink. cbn [lx ly lz lt vx vy vz]. apply lv_eq; field; lra.
Qed.
(* The amplitude of a stored event is the one used in the sampling: with the beam as reference in the
   laboratory frame and with X at rest as its own reference the same number is calculated. *)
Theorem C84_same_amplitude : forall f ps useRefl ref t (s : lvs) h M G, distinct t -> isDecay t -> physical s t -> massive M (momentum s t) ->
  spinsOk ps t -> stateOk ps useRefl (root t) (h (root t)) -> gjTransform ref (momentum s t) = Some G ->
  let rest : lvs := fun p => lapply G (s p) in
  momentum rest t = Lv 0 0 0 M
  /\ termAmp f ps useRefl false false ref t s h = termAmp f ps useRefl false false (momentum rest t) t rest h.
Proof.
  intros f ps useRefl ref t s h M G D HD PH HM SO ST EG rest.
  destruct (gj_always ref (momentum s t) M HM) as (G' & EG' & GG & GX). rewrite EG in EG'. injection EG' as <-.
  assert (forall x, momentum rest x = lapply G (momentum s x)) as MR by (intros x; unfold rest; apply (momentum_add (lapply G) s x (additive_lapply G))).
  assert (momentum rest t = Lv 0 0 0 M) as ER by (now rewrite MR). split; [exact ER|].
  assert (physical rest t) as PHr by (intros x Hx; destruct (PH x Hx) as (m & Hm); exists m; rewrite MR; apply massive_map; [apply GG|exact Hm]).
  assert (0 < M) as M0 by apply HM.
  assert (forall r u, modified false false r t u = u) as MO by (intros r u; reflexivity).
  destruct (td_ok (stepOf f) false false ref t s (iso_step f) D HD PH ltac:(discriminate)) as (s1 & E1 & F1 & _).
  destruct (td_ok (stepOf f) false false (momentum rest t) t rest (iso_step f) D HD PHr ltac:(discriminate)) as (s2 & E2 & F2 & _).
  rewrite MO in F1, F2.
  rewrite (C74_coherent_sum f ps useRefl false false ref t s s1 h), (C74_coherent_sum f ps useRefl false false (momentum rest t) t rest s2 h) by assumption. f_equal.
  apply decayAmp_ext; try assumption.
  - apply (framed_same (stepOf f) ref (momentum rest t) t s rest); try assumption. intros A B EA EB p _. rewrite EG in EA. injection EA as <-.
    destruct (gj_rest M M0) as (B' & EB' & ID). rewrite ER in EB. rewrite EB' in EB. injection EB as <-. now rewrite ID.
  - destruct F1 as (_ & _ & _ & -> & _), F2 as (_ & _ & _ & -> & _). rewrite ER. destruct HM as (_ & _ & HM). rewrite (lvM_ok _ M ltac:(lra) HM).
    symmetry. apply lvM_ok; [lra|]. unfold hasMass. cbn [lx ly lz lt]. ring.
Qed.

(* Events are stored for every lag-th iteration of the main run, and only if the file is open; every event
   is the one of its call. *)
Theorem C84_file : forall rnd lag s calls pos es pos', run rnd lag calls pos s = Some (es, pos') ->
  (iOpen s = false -> es = [])
  /\ (iOpen s = true -> Forall2 (fun e c => exists p p' obs, calculateObservables rnd true (snd (fst c)) lag (snd c) p s = Some (obs, Some e, p')) es (filter (stored lag) calls)).
Proof.
  intros rnd lag s. induction calls as [|[[mr it] pars] calls IH]; intros pos es pos' E; cbn [run] in E.
  - injection E as <- _. split; [reflexivity|constructor].
  - apply bnd_some in E as ([[obs e] p1] & E1 & E). apply bnd_some in E as ([es' p2] & E2 & E). injection E as <- _. destruct (IH _ _ _ E2) as [H1 H2].
    assert (stored lag (mr, it, pars) = mr && (it mod lag =? 0)%nat) as ST by reflexivity. cbn [filter]. rewrite ST.
    pose proof E1 as E1'. unfold calculateObservables in E1. apply bnd_some in E1 as (g & _ & E1). apply bnd_some in E1 as (mX & _ & E1). split.
    + intros O. rewrite O in E1. cbn [andb] in E1. injection E1 as _ <- _. now apply H1.
    + intros O. rewrite O in E1. cbn [andb] in E1. specialize (H2 O). destruct mr; cbn [andb].
      * destruct (lag =? 0)%nat; [discriminate|]. destruct (it mod lag =? 0)%nat; cbn [negb] in E1.
        -- apply bnd_some in E1 as ([[[tp b] X] p3] & _ & E1). apply bnd_some in E1 as (G & _ & E1). injection E1 as _ <- _. constructor; [|exact H2]. cbn [fst snd]. eauto.
        -- injection E1 as _ <- _. exact H2.
      * injection E1 as _ <- _. exact H2.
Qed.

(* At threshold the prior is not a number (0 / 0), instead of zero, for more than two daughters. *)
Theorem C84_threshold_refuted : forall ms range s pars, made ms range s -> isPoint ms pars -> Forall (fun m => 0 <= m) ms -> (2 < length ms)%nat ->
  allowedMasses ms (pointMasses ms pars) -> 0 < nth 1 (pointMasses ms pars) 0 -> massX ms pars = sumR ms ->
  logAPrioriProbability pars s = Some NaN.
Proof.
  intros ms range s pars HM HP Hp N AM M1 EX. destruct (made_ok ms range s HM) as (_ & _ & EM & ES & _). destruct (init_ok ms range s pars false HM HP) as (r & ER & QR).
  unfold logAPrioriProbability. rewrite ER. cbn [bnd]. unfold nPart. rewrite EM, ES. destruct r as [g|]; [|contradiction]. destruct QR as (_ & U & T & _ & GM & _).
  rewrite (massX_rd ms pars ltac:(lia) HP). cbn [bnd]. pose proof (usedFor_consistent ms g (sameType_usedFor ms g U)) as C0. rewrite <- GM in AM, M1.
  destruct (chungWeight ms g C0 T Hp AM M1) as (g' & qs & CW & _ & M0 & W). rewrite CW. cbn [bnd]. rewrite W.
  assert (nth (length ms - 1) (gM g) 0 = sumR ms) as -> by (rewrite GM; exact EX). rewrite EX. replace (sumR ms - sumR ms) with 0 by ring.
  assert (exists k, (length ms - 2)%nat = S k) as (k & ->) by (exists (length ms - 3)%nat; lia). cbn [pow ipow]. rewrite !Rmult_0_l, !Rmult_0_r, Rmult_0_l. replace (0 / sumR ms) with 0 by (unfold Rdiv; ring).
  assert (idiv (Fin 0) (Fin 0) = NaN) as ->; [|destruct (iPrior s); reflexivity].
  cbn [idiv]. unfold reqb. destruct (Req_EM_T 0 0) as [_|Q]; [reflexivity|]. exfalso. now apply Q.
Qed.
(* The mass range is not compared to the energy of the beam: for masses of X that cannot be produced the
   prior is positive, but no event can be calculated. *)
Theorem C84_beam_energy_refuted : forall s pars beam tp w rnd it lag pos pos1 pos2 mX, 0 <= mX -> rd pars (3 * nPart s - 6) = Some mX ->
  iOpen s = true -> (it mod lag = 0)%nat ->
  iBeam s rnd pos = Some (true, beam, pos1) -> iTPrime s mX rnd pos1 = Some (true, tp, pos2) ->
  0 < w -> hasMass w (plus4 beam (atRest (iTarget s))) -> Rabs (mX - iRecoil s) < w -> w < mX + iRecoil s ->
  calculateObservables rnd true it lag pars pos s = None.
Proof.
  intros s pars beam tp w rnd it lag pos pos1 pos2 mX X0 EX HO HI EB ET W HW L1 L2. unfold calculateObservables. destruct (eventInX pars s) as [g|]; [|reflexivity]. cbn [bnd]. rewrite EX. cbn [bnd]. rewrite HO. cbn [andb].
  destruct (lag =? 0)%nat; [reflexivity|]. rewrite HI. cbn [Nat.eqb negb]. unfold getProductionKinematics. rewrite EB. cbn [bnd negb]. rewrite ET. cbn [bnd negb].
  set (sq := lvM2 (lvAdd beam (Lv 0 0 0 (iTarget s)))). assert (sq = w * w) as ES.
  { unfold sq. apply mass_mink in HW. rewrite <- HW. unfold lvM2, mink, lvAdd, plus4, atRest. cbn [lx ly lz lt]. ring. }
  unfold calculateXSystemLab. rewrite ES. unfold osqrt at 1. rewrite rltb_false by nra. cbn [bnd]. rewrite sqrt_square by lra. rewrite (rdiv_ok _ (2 * w)) by (apply Rgt_not_eq; lra). cbn [bnd].
  set (E := (w * w - iRecoil s * iRecoil s + mX * mX) / (2 * w)). assert (E * E - mX * mX < 0) as NEG.
  { unfold E. set (mr := iRecoil s) in *.
    replace ((w * w - mr * mr + mX * mX) / (2 * w) * ((w * w - mr * mr + mX * mX) / (2 * w)) - mX * mX) with ((w * w - (mX + mr) * (mX + mr)) * (w * w - (mX - mr) * (mX - mr)) * / (4 * w * w)) by (field; lra).
    assert (0 < / (4 * w * w)) by (apply Rinv_0_lt_compat; nra). apply Rabs_def2 in L1. assert (w * w - (mX + mr) * (mX + mr) < 0) by nra. assert (0 < w * w - (mX - mr) * (mX - mr)) by nra.
    assert ((w * w - (mX + mr) * (mX + mr)) * (w * w - (mX - mr) * (mX - mr)) < 0) by nra. nra. }
  unfold osqrt at 1. rewrite rltb_true by exact NEG. reflexivity.
Qed.
(* The constructor does not look at the result of the initialization of the amplitudes: if it fails the
   sampler is constructed, and the likelihood cannot be calculated for any point. *)
Theorem C84_failed_initialisation_refuted : forall prod names m m' beam tp target recoil ms mMin mMax,
  IntensModel.initDecayAmplitudes true prod names m = Some (false, m') -> (2 <= length ms)%nat -> mMin <= mMax ->
  exists s, newSampler (IntensModel.getIntensityAllX m') beam tp target recoil ms (mMin, mMax) = Some s /\ forall pars, logLikelihood pars s = None.
Proof.
  intros prod names m m' beam tp target recoil ms mMin mMax E N L.
  destruct (proj2 (proj1 (C84_parameters ms mMin mMax) (IntensModel.getIntensityAllX m') beam tp target recoil) (conj N L)) as (s & ES). exists s. split; [exact ES|]. intros pars.
  assert (iModel s = IntensModel.getIntensityAllX m' /\ iOnlyPS s = false) as [EM EO].
  { unfold newSampler in ES. destruct (length ms <? 2)%nat; [discriminate|]. destruct (rltb mMax mMin); [discriminate|]. apply bnd_some in ES as (m0 & _ & ES). injection ES as <-. auto. }
  unfold logLikelihood. rewrite EO. destruct (eventInX pars s) as [g|]; [|reflexivity]. cbn [bnd]. rewrite EM. unfold IntensModel.getIntensityAllX, IntensModel.getIntensityX, IntensModel.getIntensity, IntensModel.getDecayAmplitudes.
  unfold IntensModel.initDecayAmplitudes in E. destruct (IntensModel.initLoop _ _ _ _ _ _) as [[ok amps]|]; [|discriminate]. cbn in E. injection E as -> <-. reflexivity.
Qed.
