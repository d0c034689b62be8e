(* C72, continued: examples that meet the hypotheses, and limits of the properties. *)
From Coq Require Import List ZArith Reals Bool Lia Lra Psatz.
From Verif Require Import ArrayModel CGBoxModel PhysModel PhysProps PhaseModel PhaseSpec PhaseProofs PhaseProofs2 PhaseProofs3 PhaseProofs4 PhaseProps PhaseProps2 PhaseProps3.
Import ListNotations.
Open Scope R_scope.

Definition dec (ms : list R) (g : gen) : gen := match setDecay ms g with Some (_, g) => g | None => g end.
Lemma dec_used ms g : (2 <= length ms)%nat -> usedForSameType ms (dec ms g).
Proof.
  intros H. destruct (setDecay_ok ms g H) as (g' & E & _). unfold dec. rewrite E. exists g, g', 0%nat, (fun _ => 0), [], 0%nat, 0%nat.
  split; [exact E|]. split; [constructor|]. split; [constructor|reflexivity].
Qed.
Lemma used_call ms c g pos g' pos' fuel rnd : usedForSameType ms g -> respects ms c -> (match c with CWeightType _ => False | _ => True end) ->
  (exists ms0 g0, g = dec ms0 g0 /\ ms0 = ms) -> (2 <= length ms)%nat -> doCall fuel rnd c (g, pos) = Some (g', pos') -> usedForSameType ms g'.
Proof.
  intros _ R W (ms0 & g0 & -> & ->) L E. destruct (setDecay_ok ms g0 L) as (g1 & E1 & _).
  assert (dec ms g0 = g1) as Ed by (unfold dec; now rewrite E1). rewrite Ed in E.
  exists g0, g1, fuel, rnd, [c], pos, pos'. split; [exact E1|]. split; [constructor; [exact R|constructor]|]. split; [constructor; [exact W|constructor]|].
  cbn [foldO]. rewrite E. reflexivity.
Qed.
Definition half : nat -> R := fun _ => 1 / 2.
Definition atRest (M : R) : lv := Lv 0 0 0 M.

Example C72_hyp_generate : let ms := [1; 1; 1] in
  usedFor ms (dec ms newGen) /\ usedFor ms (dec ms (setWeightType NUPHAZ newGen)) /\ canDecay ms (atRest 4) 4 /\ canDecay ms (atRest 3) 3
  /\ canDecay [0; 0; 1] (Lv 1 0 0 2) (sqrt 3) /\ uniform half /\ someDistinct 1 half 0 (3 - 2).
Proof.
  cbv zeta. split; [apply sameType_usedFor, dec_used; cbn; lia|]. split; [apply sameType_usedFor, dec_used; cbn; lia|].
  assert (Forall (fun m => 0 <= m) [1; 1; 1]) by (repeat constructor; lra).
  split; [|split; [|split]].
  - split; [cbn; lia|]. split; [assumption|]. unfold hasMass, atRest; cbn. repeat split; try lra.
  - split; [cbn; lia|]. split; [assumption|]. unfold hasMass, atRest; cbn. repeat split; try lra.
  - assert (1 < sqrt 3) by (rewrite <- sqrt_1 at 1; apply sqrt_lt_1_alt; lra). pose proof (sqrt_sqrt 3 ltac:(lra)).
    split; [cbn; lia|]. split; [repeat constructor; lra|]. unfold hasMass; cbn. repeat split; try lra.
  - split; [intros i; unfold half; lra|]. exists 0%nat. split; [lia|]. cbn. constructor; [intros []|constructor].
Qed.
Example C72_hyp_below : usedFor [1; 1] (dec [1; 1] newGen) /\ hasMass 1 (atRest 1) /\ 1 < sumR [1; 1].
Proof. split; [apply sameType_usedFor, dec_used; cbn; lia|]. unfold hasMass, atRest; cbn. split; lra. Qed.
Example C72_hyp_low_level : let ms := [1; 1; 1] in let Ms := [1; 2; 4] in
  usedFor ms (dec ms newGen) /\ hasMass (nth 2 Ms 0) (atRest 4) /\ allowedMasses ms Ms /\ 0 < nth 1 Ms 0.
Proof.
  cbv zeta. split; [apply sameType_usedFor, dec_used; cbn; lia|]. unfold hasMass, atRest; cbn. split; [lra|]. split; [|lra].
  split; [reflexivity|]. split; [reflexivity|]. intros i Hi. cbn in Hi. destruct i as [|[|[|i]]]; try lia; cbn; lra.
Qed.
Example C72_hyp_weight : let ms := [1; 1; 1] in exists g, usedForSameType ms g /\ gWT g = NUPHAZ /\ gM g = [1; 5 / 2; 4]
  /\ (forall i, (1 <= i < length ms)%nat -> nth (i - 1) (gM g) 0 + nth i ms 0 < nth i (gM g) 0)
  /\ sumR (firstn 2 ms) + nth 2 ms 0 < nth 2 (gM g) 0 /\ (exists g', calcWeight g = Some g').
Proof.
  cbv zeta. set (g0 := dec [1; 1; 1] (setWeightType NUPHAZ newGen)). exists (withM [1; 5 / 2; 4] g0).
  assert (usedForSameType [1; 1; 1] (withM [1; 5 / 2; 4] g0)) as HU.
  { apply (used_call _ (CMasses [1; 5 / 2; 4]) g0 0 _ 0 0 half); [apply dec_used; cbn; lia|reflexivity|exact I|eexists _, _; split; reflexivity|cbn; lia|].
    reflexivity. }
  assert (forall i, (1 <= i < 3)%nat -> nth (i - 1) [1; 5 / 2; 4] 0 + nth i [1; 1; 1] 0 < nth i [1; 5 / 2; 4] 0) as H.
  { intros i Hi. destruct i as [|[|[|i]]]; try lia; cbn; lra. }
  split; [exact HU|]. split; [reflexivity|]. split; [reflexivity|]. split; [exact H|]. split; [cbn; lra|].
  destruct (C72_weight_is_phase_space [1; 1; 1] (withM [1; 5 / 2; 4] g0) HU) as (g' & w & E & _); [repeat constructor; lra|reflexivity|exact H|].
  exists g'. exact E.
Qed.

(* A weight type chosen after setDecay keeps the normalisation of the earlier one: the weights are
   not normalised as documented (nBodyPhaseSpaceKinematics.h 124, .cc 131-151) *)
Theorem C72_weight_type_after_setDecay_refuted :
  exists ms g, usedFor ms g /\ Forall (fun m => 0 <= m) ms /\ gWT g = S_U_CHUNG
    /\ (forall i, (1 <= i < length ms)%nat -> nth (i - 1) (gM g) 0 + nth i ms 0 < nth i (gM g) 0)
    /\ exists g' w, calcWeight g = Some g' /\ gW g' = Fin w
    /\ w * orderedDensity ms (nth (length ms - 1) (gM g) 0) <> (2 * PI) ^ 4 * phaseSpace (length ms) (gM g) (gQ g').
Proof.
  set (g0 := setWeightType GENBOD newGen). destruct (setDecay_ok [1; 1] g0 ltac:(cbn; lia)) as (g1 & E1 & C1 & _).
  assert (gNorm g1 = 1) as N1. { unfold setDecay in E1. cbn in E1. injection E1 as <-. reflexivity. }
  set (g := withM [1; 4] (setWeightType S_U_CHUNG g1)). exists [1; 1], g.
  assert (usedFor [1; 1] g) as HU.
  { exists g0, g1, 0%nat, half, [CWeightType S_U_CHUNG; CMasses [1; 4]], 0%nat, 0%nat. split; [exact E1|].
    split; [repeat constructor|]. cbn [foldO doCall bnd]. unfold setMasses. cbn [setWeightType gN length]. rewrite (co_n _ _ C1). reflexivity. }
  split; [exact HU|]. assert (Forall (fun m => 0 <= m) [1; 1]) as Hp by (repeat constructor; lra). split; [exact Hp|]. split; [reflexivity|].
  assert (forall i, (1 <= i < length [1; 1])%nat -> nth (i - 1) (gM g) 0 + nth i [1; 1] 0 < nth i (gM g) 0) as A.
  { intros i Hi. cbn in Hi. destruct i as [|[|i]]; try lia. cbn. lra. }
  split; [exact A|]. pose proof (usedFor_consistent _ _ HU) as C.
  assert (breakupMomentum 4 1 1 = Some (sqrt 3)) as EB.
  { unfold breakupMomentum, breakupMomentumSquared. rewrite (rltb_false 4 (1 + 1)) by lra. cbn [negb andb]. rewrite rdiv_ok by lra.
    rewrite rltb_false by lra. f_equal. f_equal. lra. }
  unfold calcWeight. rewrite (co_n _ _ C). change (length [1; 1] <? 2)%nat with false. cbv iota.
  assert (exists q0, calcBreakupMomenta g = Some (withQ [q0; sqrt 3] g)) as (q0 & EQ).
  { unfold calcBreakupMomenta. rewrite (co_n _ _ C), (co_m _ _ C). pose proof (co_q _ _ C) as LQ.
    destruct (gQ g) as [|a [|b [|c l]]]; cbn in LQ; try lia. cbn [length Nat.sub seq foldO bnd rd nth_error gM g withM]. cbn. rewrite EB. cbn. now exists a. }
  rewrite EQ. cbn [bnd]. set (gq := withQ [q0; sqrt 3] g).
  assert (rawWeight gq = Some (Fin (gNorm g * (4 - sumR [1; 1]) ^ 0 * (1 * sqrt 3) / 4))) as ER.
  { unfold rawWeight. change (gWT gq) with S_U_CHUNG. cbv iota. unfold momProd. change (gN gq) with (gN g). rewrite (co_n _ _ C).
    cbn [length Nat.sub seq foldO]. change (rd (gQ gq) 1) with (Some (sqrt 3)). cbn [bnd]. change (rd (gM gq) 1) with (Some 4). cbn [bnd].
    change (rd (gmSum gq) 1) with (rd (gmSum g) (length [1; 1] - 1)). rewrite (sum_rd [1; 1] g C). cbn [bnd idiv]. rewrite reqb_false by lra. reflexivity. }
  rewrite ER. cbn [bnd]. eexists _, _. split; [reflexivity|]. split; [reflexivity|]. cbn [gQ withWeight gq withQ gM g withM].
  change (gNorm (setWeightType S_U_CHUNG g1)) with (gNorm g1).
  cbv delta [gq]. cbn. rewrite N1. unfold orderedDensity, phaseSpace. cbn [length Nat.sub seq map]. rewrite !prodR_cons, !prodR_nil.
  cbn [nth sumR fold_right pow]. change (INR (fact 0)) with 1. pose proof PI_RGT_0 as HPI. pose proof PI2_1 as HP1. unfold PI2 in HP1. assert (0 < sqrt 3) as S3 by (apply sqrt_lt_R0; lra).
  set (q := sqrt 3) in *. intros K.
  assert (q * PI * 4 = q) as K2. { apply (Rmult_eq_reg_r (/ (16 * PI))); [|apply Rinv_neq_0_compat; lra]. 
    transitivity (1 * 1 * (1 * q) / 4 * (1 / 1)); [field; lra|]. rewrite K. field. lra. }
  assert (PI * 4 = 1) as K3 by (apply (Rmult_eq_reg_l q); lra). lra.
Qed.

(* with two massless first daughters exactly at threshold the break-up momentum is 0 / 0 *)
Theorem C72_massless_pair_at_threshold_refuted :
  exists ms g P, usedFor ms g /\ Forall (fun m => 0 <= m) ms /\ 0 < lt P /\ hasMass (sumR ms) P
    /\ forall fuel rnd pos, generateDecay fuel rnd P pos g = None.
Proof.
  exists [0; 0; 1], (dec [0; 0; 1] newGen), (atRest 1). assert (usedFor [0; 0; 1] (dec [0; 0; 1] newGen)) as HU by (apply sameType_usedFor, dec_used; cbn; lia).
  split; [exact HU|]. split; [repeat constructor; lra|]. split; [cbn; lra|]. split; [unfold hasMass; cbn; lra|].
  intros fuel rnd pos. pose proof (usedFor_consistent _ _ HU) as C. set (g := dec [0; 0; 1] newGen) in *.
  unfold generateDecay. rewrite (lvM_ok (atRest 1) 1) by (unfold hasMass; cbn; lra). cbv zeta. rewrite (co_n _ _ C). change (length [0; 0; 1] <? 2)%nat with false. cbv iota.
  rewrite (sum_rd _ _ C). cbn [bnd]. rewrite rltb_false by (cbn; lra).
  destruct (pickMasses fuel rnd 1 pos g) as [[g1 p1]|] eqn:E1; [|reflexivity]. cbn [bnd].
  pose proof (pickMasses_consistent _ _ _ _ _ _ _ _ C E1) as C1.
  assert (nth 1 (gM g1) 0 = 0 /\ nth 0 (gM g1) 0 = 0) as [M1 M0].
  { split; [|rewrite (co_M0 _ _ C1); reflexivity]. unfold pickMasses in E1. rewrite (co_n _ _ C) in E1. change (length [0; 0; 1] <? 2)%nat with false in E1. cbv iota in E1.
    cbn [length Nat.sub] in E1. change (gWT g) with S_U_CHUNG in E1. cbv iota in E1.
    apply bnd_some in E1 as (Ma & Ea & E1). apply bnd_some in E1 as (rp & Er & E1). apply bnd_some in E1 as (ss & Es & E1). apply bnd_some in E1 as (Mb & Eb & E1). injection E1 as <- _.
    rewrite (sum_rd [0; 0; 1] g C : rd (gmSum g) 2 = _) in Es. injection Es as <-. cbn [seq foldO] in Eb.
    apply bnd_some in Eb as (Mc & Ec & Eb). injection Eb as <-.
    apply bnd_some in Ec as (si & Esi & Ec). apply bnd_some in Ec as (r & Err & Ec).
    assert (si = 0) as ->. { rewrite (rd_nth (gmSum g) 1 0) in Esi by (rewrite (co_sl _ _ C); cbn; lia). rewrite (co_s _ _ C) in Esi by (cbn; lia). injection Esi as <-. unfold pre; cbn; lra. }
    pose proof (wr_len _ _ _ _ Ea) as La. rewrite (co_M _ _ C) in La. cbn in La.
    destruct (wr_nth Ma 1 (0 + r * (1 - sumR [0; 0; 1])) 0 ltac:(lia)) as (Md & Ed & Ld & Nd). pose proof (eq_trans (eq_sym Ed) Ec) as X. injection X as <-. cbn [withM gM].
    rewrite Nd. cbn. ring. }
  unfold calcWeight. rewrite (co_n _ _ C1). change (length [0; 0; 1] <? 2)%nat with false. cbv iota.
  unfold calcBreakupMomenta. rewrite (co_n _ _ C1), (co_m _ _ C1). cbn [length Nat.sub seq foldO].
  rewrite (rd_nth (gM g1) 1 0), (rd_nth (gM g1) 0 0) by (rewrite (co_M _ _ C1); cbn; lia). cbn [bnd]. rewrite M1, M0. cbn [rd nth_error bnd].
  assert (breakupMomentum 0 0 0 = None) as EN.
  { unfold breakupMomentum, breakupMomentumSquared. rewrite rltb_false by lra. cbn [negb andb]. unfold rdiv. destruct (Req_EM_T (4 * 0 * 0) 0) as [_|N]; [reflexivity|]. exfalso. apply N. ring. }
  rewrite EN. reflexivity.
Qed.

Print Assumptions C72_generate_decay.
Print Assumptions C72_below_threshold.
Print Assumptions C72_generate_accepted.
Print Assumptions C72_low_level.
Print Assumptions C72_max_weight_observed.
Print Assumptions C72_weight_is_phase_space.
Print Assumptions C72_nuphaz_mass_distribution.
Print Assumptions C72_weight_type_after_setDecay_refuted.
Print Assumptions C72_massless_pair_at_threshold_refuted.
