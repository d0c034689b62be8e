(* C79: unitarity of the amplitudes of the mass dependences. *)
From Coq Require Import Reals ZArith Bool List Lra Lia Psatz.
From Coquelicot Require Import Complex.
From Verif Require Import WaveDescModel ExpandSpec SpinModel PhysModel PhysSpec PhysProps MassDepModel MassDepSpec MassDepProofs.
Import ListNotations.
Open Scope R_scope.

(* A / (B - i C): elastic *)
Theorem C79_constant_width : forall M M0 G0, M0 * G0 <> 0 ->
  exists f, constWidthAmp M M0 G0 = Some f /\ resonance f (M0 * G0) M M0 G0 /\ elastic 1 f /\ (M * M = M0 * M0 -> f = Ci).
Proof.
  intros M M0 G0 H. destruct (lorentz_some (M0 * G0) (M0 * M0 - M * M) (M0 * G0)) as (f & E & F); [auto|].
  exists f. split; [exact E|]. split; [exact F|]. split; [apply (lorentz_elastic _ _ _ f 1 (or_intror H) F); ring|].
  intros EM. rewrite EM in F. destruct f as [a b]. pose proof (f_equal fst F) as F1. pose proof (f_equal snd F) as F2.
  revert F1 F2. creal. intros F1 F2. apply c_eq; cbn [fst snd]; apply (Rmult_eq_reg_r (M0 * G0)); try exact H; lra.
Qed.

Theorem C79_relativistic_breit_wigner : forall M m1 m2 M0 G0 L, 0 <= m1 -> 0 <= m2 -> m1 + m2 < M -> m1 + m2 < M0 -> 0 < G0 -> supportedL L ->
  let G := massDepWidth M M0 G0 L (mom M m1 m2) (mom M0 m1 m2) in
  0 < G /\ exists f, relBWAmp M m1 m2 M0 G0 L = Some f /\ resonance f (M0 * G0) M M0 G /\ elastic (G / G0) f.
Proof.
  intros M m1 m2 M0 G0 L H1 H2 HM HM0 HG HL G.
  pose proof (mom_pos M m1 m2 H1 H2 HM) as Q. pose proof (mom_pos M0 m1 m2 H1 H2 HM0) as Q0.
  pose proof (barrier_pos L (mom M m1 m2) HL ltac:(lra)) as B1. pose proof (barrier_pos L (mom M0 m1 m2) HL ltac:(lra)) as B2.
  assert (0 < G) as PG.
  { unfold G, massDepWidth. apply Rmult_lt_0_compat; [apply Rmult_lt_0_compat; [apply Rmult_lt_0_compat; [lra|]|]|]; apply Rdiv_lt_0_compat; lra. }
  split; [exact PG|]. unfold relBWAmp. rewrite bm_eq by lra. cbn [bindM]. rewrite bms_eq by (auto; lra). cbn [bindM].
  rewrite Rabs_right by (apply Rle_ge, Rmult_le_pos; [apply kallen_nn; lra|apply Rlt_le, Rinv_0_lt_compat; nra]).
  rewrite sqrt_div4 by lra. fold (mom M0 m1 m2). rewrite breitWigner_eq by (auto; lra). fold G. cbv zeta.
  assert (M0 * G <> 0) as N by (apply Rgt_not_eq, Rmult_lt_0_compat; lra).
  destruct (lorentz_some (M0 * G0) (M0 * M0 - M * M) (M0 * G)) as (f & E & F); [auto|]. unfold lorentz in E. unfold bindM in E.
  exists f. split; [exact E|]. split; [exact F|]. apply (lorentz_elastic _ _ _ f (G / G0) (or_intror N) F). field. lra.
Qed.
(* below threshold the calculation aborts *)
Theorem C79_no_amplitude_below_threshold : forall M m1 m2 M0 G0 L, M < m1 + m2 ->
  relBWAmp M m1 m2 M0 G0 L = None /\ rhoAmp M m1 m2 M0 G0 = None /\ f0980Amp M m1 m2 M0 G0 = None.
Proof.
  intros M m1 m2 M0 G0 L H. pose proof (C57_below_threshold_aborts M m1 m2 H) as E.
  unfold relBWAmp, rhoAmp, f0980Amp. rewrite E. unfold breakupMomentum in E. destruct (breakupMomentumSquared M m1 m2 false); [discriminate|]. auto.
Qed.

Theorem C79_rho : forall M m1 m2 M0 G0, 0 <= m1 -> 0 <= m2 -> m1 + m2 < M -> m1 + m2 < M0 -> 0 < G0 ->
  let q := mom M m1 m2 in let q0 := mom M0 m1 m2 in let F := 2 * (q * q) / (q0 * q0 + q * q) in let G := G0 * (M0 / M) * (q / q0) * F in
  exists f, rhoAmp M m1 m2 M0 G0 = Some f /\ resonance f (M0 * G0 * sqrt F) M M0 G /\ elastic (M0 / M * (q / q0) * sqrt F) f.
Proof.
  intros M m1 m2 M0 G0 H1 H2 HM HM0 HG q q0 F G.
  pose proof (mom_pos M m1 m2 H1 H2 HM) as Q. pose proof (mom_pos M0 m1 m2 H1 H2 HM0) as Q0. fold q in Q. fold q0 in Q0.
  assert (0 < F) as PF by (apply Rdiv_lt_0_compat; [apply Rmult_lt_0_compat; [lra|]; apply Rmult_lt_0_compat; lra|nra]).
  unfold rhoAmp. rewrite !bms_eq by (auto; lra). cbn [bindM].
  rewrite <- (mom_sq M m1 m2), <- (mom_sq M0 m1 m2) by lra. fold q q0. rewrite !sqrt_square by lra.
  rewrite !rdiv_some by nra. cbn [bindM]. fold F.
  assert (M0 * (G0 * (M0 / M) * (q / q0) * F) <> 0) as N.
  { apply Rgt_not_eq. apply Rmult_lt_0_compat; [lra|]. apply Rmult_lt_0_compat; [apply Rmult_lt_0_compat; [apply Rmult_lt_0_compat; [lra|]|]|exact PF]; apply Rdiv_lt_0_compat; lra. }
  destruct (lorentz_some (M0 * G0 * sqrt F) (M0 * M0 - M * M) (M0 * (G0 * (M0 / M) * (q / q0) * F))) as (f & E & R); [auto|].
  exists f. split; [exact E|]. split; [exact R|]. apply (lorentz_elastic _ _ _ f (M0 / M * (q / q0) * sqrt F) (or_intror N) R).
  replace (M0 / M * (q / q0) * sqrt F * (M0 * G0 * sqrt F)) with (M0 * (G0 * (M0 / M) * (q / q0) * (sqrt F * sqrt F))) by ring.
  rewrite sqrt_sqrt by lra. reflexivity.
Qed.

Theorem C79_f0980 : forall M m1 m2 M0 G0, 0 <= m1 -> 0 <= m2 -> m1 + m2 < M -> m1 + m2 < M0 -> 0 < G0 ->
  let q := mom M m1 m2 in let G := G0 * (q / mom M0 m1 m2) in
  exists f, f0980Amp M m1 m2 M0 G0 = Some f /\ resonance f (M0 * G * (M / q)) M M0 G /\ elastic (q / M) f.
Proof.
  intros M m1 m2 M0 G0 H1 H2 HM HM0 HG q G.
  pose proof (mom_pos M m1 m2 H1 H2 HM) as Q. pose proof (mom_pos M0 m1 m2 H1 H2 HM0) as Q0. fold q in Q.
  unfold f0980Amp. rewrite !bm_eq by lra. cbn [bindM]. fold q. rewrite rdiv_some by lra. cbn [bindM]. fold G.
  assert (0 < G) as PG by (unfold G; apply Rmult_lt_0_compat; [lra|]; apply Rdiv_lt_0_compat; lra).
  rewrite rdiv_some by lra. cbn [bindM]. assert (M0 * G <> 0) as N by (apply Rgt_not_eq, Rmult_lt_0_compat; lra).
  destruct (lorentz_some (M0 * G * M / q) (M0 * M0 - M * M) (M0 * G)) as (f & E & R); [auto|].
  exists f. split; [exact E|]. split; [unfold resonance; rewrite R; f_equal; field; lra|].
  apply (lorentz_elastic _ _ _ f (q / M) (or_intror N) R). field. lra.
Qed.
(* exactly at threshold: 0 / 0 *)
Theorem C79_f0980_undefined_at_threshold : forall m1 m2 M0 G0, 0 <= m1 -> 0 <= m2 -> 0 < m1 + m2 -> f0980Amp (m1 + m2) m1 m2 M0 G0 = None.
Proof.
  intros m1 m2 M0 G0 H1 H2 H. unfold f0980Amp. rewrite bm_eq by lra. cbn [bindM].
  assert (mom (m1 + m2) m1 m2 = 0) as -> by (unfold mom; rewrite Rminus_eq_0, Rmult_0_l, sqrt_0; unfold Rdiv; ring).
  destruct (breakupMomentum M0 m1 m2); [|reflexivity]. cbn [bindM]. destruct (rdiv 0 _); [|reflexivity]. cbn [bindM].
  rewrite rdiv_zero. reflexivity.
Qed.

(* 4.21 = ratio of the couplings to KK and pipi *)
Theorem C79_flatte_below_KK : forall t M, 0 <= mPi t -> 2 * mPi t < M -> M < 2 * mK t ->
  exists f, flatteAmp t M = Some f /\ elastic (165 / 1000 * psf M (mPi t) (mPi t)) f /\
    (f * ((RtoC (0.965 * 0.965 - M * M) + RtoC (0.165 * 4.21 * psfBelow M (mK t) (mK t))) - Ci * RtoC (0.165 * psf M (mPi t) (mPi t))))%C = RtoC 1.
Proof.
  intros t M H1 HM HK. unfold flatteAmp. rewrite bmc_above by lra. destruct (bmc_below M (mK t) (mK t)) as [E P]; try lra.
  { rewrite Rminus_eq_0, Rabs_R0. lra. }
  rewrite E. cbn [bindM]. rewrite psf_above', psf_below' by lra. cbn [bindM].
  pose proof (psf_pos M (mPi t) (mPi t) H1 H1 ltac:(lra)) as Q. set (r := psf M (mPi t) (mPi t)) in *. set (k := psfBelow M (mK t) (mK t)).
  destruct (cdivM_some (RtoC 1) (RtoC (965 / 1000 * (965 / 1000) - M * M) - Ci * RtoC (165 / 1000) * (RtoC r + RtoC (421 / 100) * (0, k)))%C) as (f & E2 & F).
  { apply cnz. right. creal. lra. }
  exists f. split; [exact E2|]. split.
  - eapply elastic_inv; [|exact F|creal; ring]. apply cnz. right. creal. lra.
  - rewrite <- F. f_equal. apply c_eq; creal; lra.
Qed.
Theorem C79_flatte_above_KK : forall t M, 0 <= mPi t -> 0 <= mK t -> 2 * mPi t < M -> 2 * mK t <= M ->
  let a := 165 / 1000 * psf M (mPi t) (mPi t) in let b := 165 / 1000 * (421 / 100) * psf M (mK t) (mK t) in
  exists f, flatteAmp t M = Some f /\ 0 < a /\ 0 <= b /\
    Cmod (Smat a f) * Cmod (Smat a f) + 4 * a * b * (Cmod f * Cmod f) = 1 /\ snd f = (a + b) * (Cmod f * Cmod f) /\
    (f * (RtoC (0.965 * 0.965 - M * M) - Ci * RtoC (a + b)))%C = RtoC 1.
Proof.
  intros t M H1 H2 HM HK a b. unfold flatteAmp. rewrite !bmc_above by lra. cbn [bindM]. rewrite !psf_above' by lra. cbn [bindM].
  pose proof (psf_pos M (mPi t) (mPi t) H1 H1 ltac:(lra)) as Q.
  assert (0 <= psf M (mK t) (mK t)) as Q2.
  { unfold psf, mom. apply Rmult_le_pos; [apply Rmult_le_pos; [lra|]|apply Rlt_le, Rinv_0_lt_compat; lra].
    apply Rmult_le_pos; [apply sqrt_pos|apply Rlt_le, Rinv_0_lt_compat; lra]. }
  assert (0 < a) as PA by (unfold a; lra). assert (0 <= b) as PB by (unfold b; lra).
  destruct (cdivM_some (RtoC 1) (RtoC (965 / 1000 * (965 / 1000) - M * M) - Ci * RtoC (165 / 1000) * (RtoC (psf M (mPi t) (mPi t)) + RtoC (421 / 100) * RtoC (psf M (mK t) (mK t))))%C) as (f & E2 & F).
  { apply cnz. right. creal. unfold a, b in *. lra. }
  assert ((f * (RtoC (0.965 * 0.965 - M * M) - Ci * RtoC (a + b)))%C = RtoC 1) as X by (rewrite <- F; f_equal; apply c_eq; creal; unfold a, b; lra).
  exists f. split; [exact E2|]. split; [exact PA|]. split; [exact PB|]. destruct (two_channel f (0.965 * 0.965 - M * M) a b ltac:(lra) X) as [Y1 Y2].
  split; [exact Y1|]. split; [exact Y2|exact X].
Qed.

(* pi pi S wave.  m: the mass, moved by 10^-6 within 10^-6 of the pole of the M matrix.  Below the KK thresholds the matrix
   may be singular; then the T matrix of the previous event is returned *)
Theorem C79_pipi_S_wave : forall p t T M, p = ampM \/ p = ampVesPars \/ p = ampKachaev ->
  0 <= mPi t -> 0 <= mPi0 t -> 0 < mK t -> 0 < mK0 t -> 2 * mPi t < M -> 2 * mPi0 t < M ->
  exists m T', piPiSWave p t T M = Some (T', fst T') /\ (m = M \/ m = M + 1 / 1000000) /\ (1 / 1000000 <= Rabs (M * M - 9828 / 10000) -> m = M) /\
    let rho := if apVes p then psf m (mPi t) (mPi t) else (psf m (mPi t) (mPi t) + psf m (mPi0 t) (mPi0 t)) / 2 in
    (elastic rho (fst T') \/ T' = T) /\ (2 * mK t < M -> 2 * mK0 t < M -> elastic rho (fst T')).
Proof.
  intros p t T M HP A B K K0 HA HB.
  assert (ampSP p) as SP by (destruct HP as [-> | [-> | ->]]; split; reflexivity).
  destruct (piPiSWave_some p t T M SP A B K K0 HA HB) as (T' & E & X & Y & _). destruct (shifted_cases p M SP ltac:(lra)) as (C1 & C2 & _).
  exists (shiftedMass p M), T'. split; [exact E|]. split; [exact C1|]. split; [exact C2|]. split; [exact X|exact Y].
Qed.

(* the amplitude is 1 / (M_11 - i rho) with M_11 = poles in s at -0.0074 and 0.9828 + polynomial in s / 4 mK^2 - 1 *)
Theorem C79_pipi_S_wave_formula : forall p t T M, p = ampM \/ p = ampVesPars \/ p = ampKachaev ->
  0 <= mPi t -> 0 <= mPi0 t -> 0 < mK t -> 0 < mK0 t -> 2 * mPi t < M -> 2 * mPi0 t < M -> 1 / 1000000 <= Rabs (M * M - 9828 / 10000) ->
  exists T', piPiSWave p t T M = Some (T', fst T') /\
    (T' <> T \/ 2 * mK t < M /\ 2 * mK0 t < M ->
     let rho := if apVes p then psf M (mPi t) (mPi t) else (psf M (mPi t) (mPi t) + psf M (mPi0 t) (mPi0 t)) / 2 in
     let x := M * M / ((mK t + mK0 t) * (mK t + mK0 t)) - 1 in
     (p <> ampKachaev -> (fst T' * (RtoC (0.1131 / (M * M + 0.0074) + 0.1968 * 0.1968 / (M * M - 0.9828)
                               + 0.0337 - 0.3185 * x - 0.0942 * x ^ 2 - 0.5927 * x ^ 3 + 0.1957 * x ^ 4) - Ci * RtoC rho))%C = RtoC 1) /\
     (p = ampKachaev -> (fst T' * (RtoC (0.1131 / (M * M + 0.0074) + 0.0337 - 0.3185 * x - 0.0942 * x ^ 2 - 0.5927 * x ^ 3) - Ci * RtoC rho))%C = RtoC 1)).
Proof.
  intros p t T M HP A B K K0 HA HB HS.
  assert (ampSP p) as SP by (destruct HP as [-> | [-> | ->]]; split; reflexivity).
  destruct (piPiSWave_some p t T M SP A B K K0 HA HB) as (T' & E & _ & _ & k & EK & Y & Z).
  destruct (shifted_cases p M SP ltac:(lra)) as (_ & C2 & C3). rewrite (C2 HS) in *.
  exists T'. split; [exact E|]. intros H. assert ((fst T' * (RtoC k - Ci * RtoC (ampRho p t M)))%C = RtoC 1) as F by (destruct H as [H|[H1 H2]]; auto).
  clear Y Z E H. unfold ampRho in F. cbv zeta.
  unfold Mdiag in EK. destruct SP as [S0 S1]. rewrite S0, S1 in EK.
  rewrite rdiv_some in EK by (apply Rgt_not_eq; apply Rmult_lt_0_compat; lra). cbn [bindM] in EK.
  rewrite (rdiv_some 1 (M * M - - 74 / 10000)) in EK by (apply Rgt_not_eq; nra). cbn [bindM] in EK.
  rewrite rdiv_some in EK by exact C3. cbn [bindM] in EK.
  assert (M * M / (4 * ((mK t + mK0 t) / 2) * ((mK t + mK0 t) / 2)) = M * M / ((mK t + mK0 t) * (mK t + mK0 t))) as EX by (f_equal; field).
  rewrite EX in EK. set (x := M * M / ((mK t + mK0 t) * (mK t + mK0 t)) - 1) in *.
  assert (0 < M * M + 0.0074) as PM by nra. assert (M * M - 0.9828 <> 0) as PN by lra.
  assert (M * M - - 74 / 10000 = M * M + 0.0074) as EA by lra. assert (M * M - 9828 / 10000 = M * M - 0.9828) as EB by lra. rewrite EA, EB in EK.
  apply (f_equal (fun o => match o with Some r => r | None => 0 end)) in EK. cbv beta iota in EK. rewrite <- F.
  assert (ampM <> ampKachaev) as N1 by (intros Q; apply (f_equal (fun p => apA p 1%nat 0%nat)) in Q; unfold ampM, ampKachaev, apA in Q; lra).
  assert (ampVesPars <> ampKachaev) as N2 by (intros Q; apply (f_equal apVes) in Q; discriminate Q).
  split; intros HK; (destruct HP as [EP|[EP|EP]]; subst p; try congruence); rewrite <- EK;
    change (apA ampVesPars) with (apA ampM); change (apC ampVesPars) with (apC ampM); unfold ampM, ampKachaev, apA, apC; cbn [nth];
    do 2 f_equal; f_equal; unfold Rdiv; set (u := / (M * M + 0.0074)); set (v := / (M * M - 0.9828)); cbv beta iota delta [ampM nth]; clear - N1; clearbody u v x; lra.
Qed.

(* the amplitude depends on the previous event: there are masses for which the result is the previous T matrix, whatever it was *)
Theorem C79_function_of_the_event_refuted : exists t M, 0 < mPi t /\ 0 < mPi0 t /\ 0 < mK t /\ 0 < mK0 t /\ 2 * mPi t < M /\ 2 * mPi0 t < M /\
  forall T, piPiSWave ampKachaev t T M = Some (T, fst T).
Proof.
  set (s := 3216 / 10000 / (152235 / 100000) - 74 / 10000).
  assert (20 / 100 < s < 21 / 100) as HS by (unfold s; split; lra).
  assert (0 < s) as PS by lra. pose proof (sqrt_lt_R0 s PS) as PM. pose proof (sqrt_sqrt s (Rlt_le _ _ PS)) as QM.
  assert (0 < 2 * s) as PS2 by lra. pose proof (sqrt_lt_R0 (2 * s) PS2) as PK. pose proof (sqrt_sqrt (2 * s) (Rlt_le _ _ PS2)) as QK.
  set (M := sqrt s) in *. set (k := sqrt (2 * s) / 2) in *.
  assert (4 * (k * k) = 2 * s) as KK by (unfold k; lra).
  assert (0 < k) as Pk by (unfold k; lra).
  assert (2 / 5 < M) as LM. { apply Rnot_le_lt. intros Q. assert (M * M <= 2 / 5 * (2 / 5)) by (apply Rmult_le_compat; lra). lra. }
  exists (TM (1 / 10) (1 / 10) k k 1), M. cbn [mPi mPi0 mK mK0]. split; [lra|]. split; [lra|]. split; [exact Pk|]. split; [exact Pk|]. split; [lra|]. split; [lra|].
  intros T. unfold piPiSWave.
  assert (shiftedMass ampKachaev M = M) as ->.
  { unfold shiftedMass, rltb. change (apSP ampKachaev 1) with (9828 / 10000). rewrite QM. rewrite Rabs_left by lra. destruct (Rlt_dec _ _); [lra|reflexivity]. }
  assert (M < 2 * k) as LK. { apply Rnot_le_lt. intros Q. assert (2 * k * (2 * k) <= M * M) by (apply Rmult_le_compat; lra). lra. }
  unfold rhoDiag. cbn [mPi mPi0 mK mK0].
  rewrite (bmc_above M (1 / 10) (1 / 10)) by lra. cbn [bindM].
  destruct (bmc_below M k k) as [EB PB]; try lra. { rewrite Rminus_eq_0, Rabs_R0; lra. }
  assert (momBelow M k k = M / 2) as EMB.
  { unfold momBelow. replace (- ((M * M - (k + k) * (k + k)) * (M * M - (k - k) * (k - k)))) with (s * s).
    - rewrite sqrt_square by lra. rewrite <- QM. field. lra.
    - replace ((k + k) * (k + k)) with (4 * (k * k)) by ring. rewrite KK, QM. ring. }
  replace ((k + k) / 2) with k by field. rewrite EB. cbn [bindM]. change (apVes ampKachaev) with false. cbv iota.
  rewrite !psf_above', !psf_below' by lra. cbn [bindM]. replace (psfBelow M k k) with 1 by (unfold psfBelow; rewrite EMB; field; lra).
  unfold Mdiag. cbn [mK mK0]. replace ((k + k) / 2) with k by field. rewrite QM.
  change (apSP ampKachaev 0) with (- 74 / 10000). change (apSP ampKachaev 1) with (9828 / 10000).
  rewrite (rdiv_some s (4 * k * k)) by nra. cbn [bindM].
  replace (s / (4 * k * k) - 1) with (- (1 / 2)) by (replace (4 * k * k) with (2 * s) by lra; field; lra).
  rewrite (rdiv_some 1 (s - - 74 / 10000)) by lra. rewrite (rdiv_some 1 (s - 9828 / 10000)) by lra. cbn [bindM fst snd].
  match goal with |- context [invertDiag ?a ?b T] => set (d0 := a); set (d1 := b) end.
  assert (d1 = RtoC 0) as Z.
  { unfold d1. unfold ampKachaev, ampM, apA, apC. cbn [nth]. replace (s - - 74 / 10000) with (3216 / 10000 / (152235 / 100000)) by (unfold s; lra).
    apply c_eq; unfold Cdiv, Cinv; creal; field. lra. }
  pose proof (psf_pos M (1 / 10) (1 / 10) ltac:(lra) ltac:(lra) ltac:(lra)) as PP.
  assert (d0 <> RtoC 0) as N0.
  { apply cnz. right. unfold d0, Cdiv, Cinv. creal. match goal with |- ?x <> 0 => replace x with (- psf M (1 / 10) (1 / 10)) by field end. lra. }
  rewrite (proj2 (invertDiag_cases d0 d1 T N0) Z). reflexivity.
Qed.

(* AMP-VES: the amplitude above minus a fixed fraction of an elastic f0(980) *)
Theorem C79_ves_removes_f0 : forall t T M, 0 <= mPi t -> 0 <= mPi0 t -> 0 < mK t -> 0 < mK0 t -> 2 * mPi t < M -> 2 * mPi0 t < M -> 2 * mPi t < 9837 / 10000 ->
  exists T' bw f, piPiSWave ampVesPars t T M = Some (T', fst T') /\ vesAmp t T M = Some (T', f) /\
    f = (fst T' - ((- 3743 / 10000)%R, (3197 / 10000)%R) * bw)%C /\
    f0980Amp M (mPi t) (mPi t) (9837 / 10000) (376 / 10000) = Some bw /\ elastic (mom M (mPi t) (mPi t) / M) bw.
Proof.
  intros t T M A B K K0 HA HB HF.
  destruct (C79_pipi_S_wave ampVesPars t T M ltac:(auto) A B K K0 HA HB) as (m & T' & E & _).
  destruct (C79_f0980 M (mPi t) (mPi t) (9837 / 10000) (376 / 10000) A A ltac:(lra) ltac:(lra) ltac:(lra)) as (bw & E2 & _ & F).
  exists T', bw. eexists. split; [exact E|]. split; [|split; [reflexivity|split; [exact E2|exact F]]].
  unfold vesAmp. rewrite E. cbn [bindM]. unfold rltb. destruct (Rlt_dec (2 * mPi t) M); [|lra].
  unfold f0980Amp in E2. pose proof (mom_pos M (mPi t) (mPi t) A A ltac:(lra)) as Q. pose proof (mom_pos (9837 / 10000) (mPi t) (mPi t) A A ltac:(lra)) as Q0.
  rewrite !bm_eq in * by lra. cbn [bindM] in *. rewrite rdiv_some in * by lra. cbn [bindM] in *. rewrite rdiv_some in * by lra. cbn [bindM] in *.
  match type of E2 with lorentz ?a ?b ?c = _ => match goal with |- context [lorentz ?a' b c] => replace a' with a by (field; lra) end end.
  rewrite E2. reflexivity.
Qed.

(* K pi S wave, generalised LASS *)
Theorem C79_GLASS : forall g t M, 0 <= mK t -> 0 <= mPi t -> mK t + mPi t < M -> M < gMMax g -> mK t + mPi t < gM0 g -> 0 < gG0 g ->
  exists f, glassAmp g t M = Some f /\
    (gF g = 1 -> gR g = 1 -> gPhiRsin g = gPhiR g -> elastic (psf M (mK t) (mPi t)) f) /\
    psf M (mK t) (mPi t) * Cmod f <= Rabs (gF g) + Rabs (gR g) /\
    exists dF dR, let q := mom M (mK t) (mPi t) in
      sin dF * (2 + ga g * gr g * (q * q)) = cos dF * (2 * ga g * q) /\
      sin dR * (gM0 g * gM0 g - M * M) = cos dR * (gM0 g * (gG0 g * (gM0 g / M) * (q / mom (gM0 g) (mK t) (mPi t)))) /\
      (RtoC (psf M (mK t) (mPi t)) * f)%C = (RtoC (gF g * sin (dF + gPhiF g)) * expI (dF + gPhiF g) +
        RtoC (gR g * sin (dR + gPhiRsin g)) * expI (dR + gPhiR g + 2 * (dF + gPhiF g)))%C.
Proof.
  intros g t M HK HP HM HX HM0 HG. unfold glassAmp, rltb. destruct (Rlt_dec _ _); [|lra]. destruct (Rlt_dec _ _); [|lra]. cbn [andb].
  pose proof (mom_pos M _ _ HK HP HM) as Q. pose proof (mom_pos (gM0 g) _ _ HK HP HM0) as Q0. rewrite !bm_eq by lra. cbn [bindM].
  unfold psf. set (q := mom M (mK t) (mPi t)) in *. set (q0 := mom (gM0 g) (mK t) (mPi t)) in *.
  rewrite (rdiv_some _ M) by lra. cbn [bindM]. rewrite (rdiv_some _ q0) by lra. cbn [bindM].
  assert (0 < gM0 g * (gG0 g * gM0 g / M * q / q0)) as PG.
  { apply Rmult_lt_0_compat; [lra|]. apply Rdiv_lt_0_compat; [|lra]. apply Rmult_lt_0_compat; [|lra]. apply Rdiv_lt_0_compat; [|lra]. apply Rmult_lt_0_compat; lra. }
  assert (exists x, atanDiv (gM0 g * (gG0 g * gM0 g / M * q / q0)) (gM0 g * gM0 g - M * M) = Some x) as (x & EX).
  { unfold atanDiv. destruct (Req_EM_T _ 0); [|eexists; reflexivity]. destruct (Rlt_dec 0 _); [eexists; reflexivity|contradiction]. }
  assert (exists y, atanDiv (2 * ga g * q) (2 + ga g * gr g * q * q) = Some y) as (y & EY).
  { unfold atanDiv. destruct (Req_EM_T _ 0) as [Z|]; [|eexists; reflexivity]. destruct (Rlt_dec 0 _); [eexists; reflexivity|].
    destruct (Rlt_dec _ 0); [eexists; reflexivity|]. exfalso. assert (ga g * q = 0) as Y by lra.
    replace (ga g * gr g * q * q) with (ga g * q * gr g * q) in Z by ring. rewrite Y in Z. lra. }
  rewrite EX, EY. cbn [bindM]. rewrite rdiv_some by lra. cbn [bindM]. eexists. split; [reflexivity|].
  set (u := y + gPhiF g). split; [|split].
  - intros -> -> ->. set (w := x + gPhiR g). unfold elastic, Smat.
    match goal with |- Cmod (_ + _ * (?A * RtoC ?f))%C = _ =>
      replace (RtoC 1 + RtoC 2 * Ci * RtoC (2 * q / M) * (A * RtoC f))%C with (expI (2 * u) * expI (2 * w))%C end.
    + rewrite Cmod_mult, !Cmod_expI. ring.
    + rewrite <- (phase_shift u), <- (phase_shift w).
      replace (RtoC 2 * Ci * RtoC (2 * q / M) * ((RtoC (1 * sin u) * expI u + RtoC (1 * sin w) * expI w * (RtoC 1 + RtoC 2 * Ci * (RtoC (sin u) * expI u))) * RtoC (1 / 2 * M / q)))%C
        with (RtoC 2 * Ci * (RtoC (2 * q / M) * RtoC (1 / 2 * M / q)) * (RtoC (1 * sin u) * expI u + RtoC (1 * sin w) * expI w * (RtoC 1 + RtoC 2 * Ci * (RtoC (sin u) * expI u))))%C by ring.
      rewrite <- RtoC_mult. replace (2 * q / M * (1 / 2 * M / q)) with 1 by (field; lra). rewrite !Rmult_1_l. ring.
  - rewrite Cmod_mult, Cmod_R. rewrite (Rabs_right (1 / 2 * M / q)) by (apply Rle_ge, Rlt_le, Rdiv_lt_0_compat; lra).
    replace (2 * q / M * (Cmod _ * (1 / 2 * M / q))) with (Cmod (RtoC (gF g * sin u) * expI u + RtoC (gR g * sin (x + gPhiRsin g)) * expI (x + gPhiR g) * expI (2 * u))%C) by (field; lra).
    eapply Rle_trans; [apply Cmod_triangle|]. rewrite !Cmod_mult, !Cmod_expI, !Cmod_R, !Rmult_1_r, !Rabs_mult.
    pose proof (Rabs_sin_le u). pose proof (Rabs_sin_le (x + gPhiRsin g)). pose proof (Rabs_pos (gF g)). pose proof (Rabs_pos (gR g)). nra.
  - exists y, x. apply atanDiv_spec in EX, EY. cbv zeta. fold u. split; [|split].
    + rewrite <- EY. ring.
    + rewrite EX. field. lra.
    + rewrite (expI_add (x + gPhiR g) (2 * u)). match goal with |- (RtoC ?a * (?A * RtoC ?b))%C = _ => replace (RtoC a * (A * RtoC b))%C with (RtoC a * RtoC b * A)%C by ring end.
      rewrite <- RtoC_mult. replace (2 * q / M * (1 / 2 * M / q)) with 1 by (field; lra). ring.
Qed.
Theorem C79_GLASS_outside : forall g t M, M <= mK t + mPi t \/ gMMax g <= M -> glassAmp g t M = Some (RtoC 0).
Proof.
  intros g t M H. unfold glassAmp, rltb. destruct (Rlt_dec _ _), (Rlt_dec _ _); try reflexivity. destruct H; lra.
Qed.

(* rho' : bounded by 1 *)
Theorem C79_rho_prime : forall M, exists f, rhoPrimeAmp M = Some f /\ Cmod f <= 1.
Proof.
  intros M. unfold rhoPrimeAmp.
  assert (forall c B, 0 < c -> exists f, lorentz c B c = Some f /\ Cmod f <= 1) as X.
  { intros c B Hc. destruct (lorentz_some c B c) as (f & E & F); [right; lra|]. exists f. split; [exact E|].
    apply (f_equal Cmod) in F. rewrite Cmod_mult, Cmod_R, Rabs_right in F by lra.
    assert (c <= Cmod (RtoC B - Ci * RtoC c)%C) as L.
    { unfold Cmod. rewrite <- (sqrt_square c) at 1 by lra. apply sqrt_le_1_alt. creal. nra. }
    pose proof (Cmod_ge_0 f). destruct (Rle_dec (Cmod f) 1); [assumption|]. exfalso. nra. }
  destruct (X (1465 / 1000 * (235 / 1000)) (1465 / 1000 * (1465 / 1000) - M * M)) as (f & E & F); [lra|].
  destruct (X (1700 / 1000 * (220 / 1000)) (1700 / 1000 * (1700 / 1000) - M * M)) as (h & E2 & F2); [lra|].
  rewrite E, E2. cbn [bindM]. eexists; split; [reflexivity|]. unfold Cdiv. rewrite Cmod_mult.
  rewrite Cmod_inv by (apply cnz; left; cbn [RtoC fst]; lra). rewrite Cmod_R, Rabs_right by lra.
  assert (Cmod (RtoC 4 * f - RtoC 3 * h)%C <= 7).
  { unfold Cminus. eapply Rle_trans; [apply Cmod_triangle|]. rewrite Cmod_opp, !Cmod_mult, !Cmod_R, !Rabs_right by lra. lra. }
  lra.
Qed.

(* K pi S wave, Palano and Pennington; poles of the K matrix at M^2 = 1.7991 and 8.3627.
   Above the K eta threshold: |S_11|^2 + |S_12|^2 = 1, S_12 = 2 i sqrt(rho1 rho2) K_12 / Delta *)
Theorem C79_palano_above_Keta : forall mMax t M, 0 < mK t -> 0 <= mPi t -> 0 <= mEta t -> mK t + mPi t < M -> mK t + mEta t <= M -> M < mMax ->
  M * M <> 17991 / 10000 -> M * M <> 83627 / 10000 ->
  exists f x, palanoAmp mMax t M = Some f /\
    Cmod (Smat (psf M (mK t) (mPi t)) f) * Cmod (Smat (psf M (mK t) (mPi t)) f) + 4 * psf M (mK t) (mPi t) * psf M (mK t) (mEta t) * (Cmod x * Cmod x) = 1 /\
    let s := M * M in let s0 := mK t * mK t + mPi t * mPi t in let u := (2 * s - 6.192) / 5.472 in
    let K ga gb ha hb c0 c1 c2 c3 := RtoC ((s - 0.87753 * s0) / s0 * (ga * gb / (1.7991 - s) + ha * hb / (8.3627 - s) + c0 + c1 * u + c2 * u ^ 2 + c3 * u ^ 3)) in
    let K11 := K 0.3139 0.3139 1.1804 1.1804 (- 0.1553) 0.0909 0.8618 0.0629 in
    let K12 := K 0.3139 (- 0.00775) 1.1804 (- 0.22335) 0.0738 0.3866 1.2195 0.8390 in
    let K22 := K (- 0.00775) (- 0.00775) (- 0.22335) (- 0.22335) (- 0.0036) 0.2590 1.6950 2.2300 in
    let r1 := RtoC (psf M (mK t) (mPi t)) in let r2 := RtoC (psf M (mK t) (mEta t)) in
    f = (K11 + Ci * (K11 * r1 * f + K12 * r2 * x))%C /\ x = (K12 + Ci * (K12 * r1 * f + K22 * r2 * x))%C.
Proof.
  intros mMax t M HK HP HE HM HT HX P1 P2. unfold palanoAmp, rltb. destruct (Rlt_dec _ _); [|lra]. destruct (Rlt_dec _ _); [|lra]. cbn [andb].
  rewrite !bmc_above by lra. cbn [bindM]. rewrite !psf_above' by lra. cbn [bindM]. rewrite (rdiv_some _ (mK t * mK t + mPi t * mPi t)) by nra. cbn [bindM].
  unfold kmat. rewrite !rdiv_some by lra. cbn [bindM].
  pose proof (psf_pos M (mK t) (mPi t) ltac:(lra) HP HM) as Q1.
  assert (0 <= psf M (mK t) (mEta t)) as Q2.
  { unfold psf, mom. apply Rmult_le_pos; [apply Rmult_le_pos; [lra|]|apply Rlt_le, Rinv_0_lt_compat; lra].
    apply Rmult_le_pos; [apply sqrt_pos|apply Rlt_le, Rinv_0_lt_compat; lra]. }
  cbv zeta.
  match goal with |- context [cdivM (RtoC ?a - Ci * _ * (RtoC ?a * RtoC ?c - RtoC ?b * RtoC ?b))%C _] => set (K11 := a); set (K12 := b); set (K22 := c) end.
  destruct (two_channel_K (psf M (mK t) (mPi t)) (psf M (mK t) (mEta t)) K11 K12 K22 Q1 Q2) as (f & x & E & F1 & F2 & F3). exists f, x. split; [exact E|]. split; [exact F3|].
  assert (0 < mK t * mK t + mPi t * mPi t) as PS by nra.
  assert ((2 * (M * M) - (5832 / 1000 + 36 / 100)) / (5832 / 1000 - 36 / 100) = (2 * (M * M) - 6.192) / 5.472) as EU by lra.
  set (w := (2 * (M * M) - 6.192) / 5.472) in *. set (v := / (mK t * mK t + mPi t * mPi t)).
  match goal with |- f = (RtoC ?a + Ci * (_ + RtoC ?b * _ * _))%C /\ x = (_ + Ci * (_ + RtoC ?c * _ * _))%C => assert (a = K11) as ->; [|assert (b = K12) as ->; [|assert (c = K22) as ->; [|split; [exact F1|exact F2]]]] end.
  all: unfold K11, K12, K22; rewrite EU; clearbody w; replace (1.7991 - M * M) with (17991 / 10000 - M * M) by lra; replace (8.3627 - M * M) with (83627 / 10000 - M * M) by lra.
  all: f_equal. all: unfold Rdiv; try generalize (/ (17991 * / 10000 - M * M)) (/ (83627 * / 10000 - M * M)); intros; clear; lra.
Qed.
(* between the thresholds elastic, whenever there is a result *)
Theorem C79_palano_below_Keta : forall mMax t M f, 0 < mK t -> 0 <= mPi t -> mK t + mPi t < M -> Rabs (mK t - mEta t) < M -> M < mK t + mEta t -> M < mMax ->
  palanoAmp mMax t M = Some f -> elastic (psf M (mK t) (mPi t)) f.
Proof.
  intros mMax t M f HK HP HM HA HT HX. unfold palanoAmp, rltb. destruct (Rlt_dec _ _); [|lra]. destruct (Rlt_dec _ _); [|lra]. cbn [andb].
  rewrite bmc_above by lra. destruct (bmc_below M (mK t) (mEta t)) as [E PB]; try lra. rewrite E.
  cbn [bindM]. rewrite psf_above', psf_below' by lra. cbn [bindM]. rewrite (rdiv_some _ (mK t * mK t + mPi t * mPi t)) by nra. cbn [bindM].
  destruct (kmat (3139 / 10000) (3139 / 10000) _ _ _ _ _ _ _ _) as [k11|]; cbn [bindM]; [|discriminate].
  destruct (kmat (3139 / 10000) _ _ _ _ _ _ _ _ _) as [k12|]; cbn [bindM]; [|discriminate].
  destruct (kmat _ _ _ _ _ _ _ _ _ _) as [k22|]; cbn [bindM]; [|discriminate].
  set (ad := (M * M - _) / _). generalize (ad * k11) (ad * k12) (ad * k22) (psfBelow M (mK t) (mEta t)) (psf M (mK t) (mPi t)).
  intros K11 K12 K22 rb rc H. apply cdivM_inv in H. destruct H as [N F].
  match type of F with (_ * ?D)%C = ?A => apply (elastic_inv rc f D (fst A)); [exact N| |] end.
  - rewrite F. apply c_eq; creal; ring.
  - creal. ring.
Qed.
Theorem C79_palano_undefined_at_pole : forall mMax t M, mK t + mPi t < M -> M < mMax -> M * M = 17991 / 10000 -> palanoAmp mMax t M = None.
Proof.
  intros mMax t M HM HX HP. unfold palanoAmp, rltb. destruct (Rlt_dec _ _); [|lra]. destruct (Rlt_dec _ _); [|lra]. cbn [andb].
  destruct (breakupMomentumComplex _ _ _); [|reflexivity]. cbn [bindM]. destruct (breakupMomentumComplex _ _ _); [|reflexivity]. cbn [bindM].
  destruct (cdivM _ _); [|reflexivity]. cbn [bindM]. destruct (cdivM _ _); [|reflexivity]. cbn [bindM]. destruct (rdiv _ _); [|reflexivity]. cbn [bindM].
  unfold kmat. rewrite HP, Rminus_eq_0, rdiv_zero. reflexivity.
Qed.
Theorem C79_palano_outside : forall mMax t M, M <= mK t + mPi t \/ mMax <= M -> palanoAmp mMax t M = Some (RtoC 0).
Proof.
  intros mMax t M H. unfold palanoAmp, rltb. destruct (Rlt_dec _ _), (Rlt_dec _ _); try reflexivity. destruct H; lra.
Qed.

(* the binned waves of an expanded binning are a partition of unity *)
Theorem C79_bins_partition_unity : forall edges M a, increasing (a :: edges) -> edges <> [] ->
  exists values, map (fun b => binnedAmp (fst b) (snd b) M) (neighbours (a :: edges)) = map Some values /\
    fold_right Cplus (RtoC 0) values = if Rle_dec a M then (if Rlt_dec M (last edges a) then RtoC 1 else RtoC 0) else RtoC 0.
Proof.
  intros edges M. induction edges as [|b edges IH]; [congruence|]. intros a H _. inversion H as [| |? ? ? L I]; subst.
  set (v := RtoC (if negb (rltb M a) && rltb M b then 1 else 0)).
  destruct edges as [|c edges].
  - exists [v]. split; [reflexivity|]. cbn [fold_right last]. unfold v, rltb. destruct (Rlt_dec M a), (Rlt_dec M b), (Rle_dec a M); try lra; cbn [negb andb]; apply c_eq; creal; ring.
  - destruct (IH b I ltac:(congruence)) as (vs & E & F). exists (v :: vs). split; [cbn [map neighbours]; cbn [map neighbours] in E; rewrite E; reflexivity|].
    cbn [fold_right]. rewrite F. change (last (b :: c :: edges) a) with (last (c :: edges) a). rewrite (last_default (c :: edges) a b) by congruence.
    pose proof (increasing_last b (c :: edges) I ltac:(congruence)) as LL.
    unfold v, rltb. destruct (Rlt_dec M a), (Rlt_dec M b), (Rle_dec a M), (Rle_dec b M); try lra; destruct (Rlt_dec M (last (c :: edges) b)); try lra; cbn [negb andb]; apply c_eq; creal; ring.
Qed.

(* operator == does not look at the bounds: equal mass dependences have different amplitudes *)
Theorem C79_equal_mass_dependences_same_amplitude_refuted : exists a b c d M,
  mdEqual (MBinned a b) (MBinned c d) = true /\ binnedAmp a b M = Some (RtoC 1) /\ binnedAmp c d M = Some (RtoC 0).
Proof.
  exists 0, 1, 1, 2, (1 / 2). split; [reflexivity|]. unfold binnedAmp, rltb. repeat destruct (Rlt_dec _ _); try lra. split; reflexivity.
Qed.

(* concrete cases *)
Definition exMasses : tableMasses := TM (13957 / 100000) (13498 / 100000) (49368 / 100000) (49761 / 100000) (54786 / 100000).
Example C79_ex1 : mPi exMasses + mPi exMasses < 77 / 100 /\ supportedL 2 /\ 13957 / 100000 + 13957 / 100000 < 1 /\ 0 < 15 / 100.
Proof. cbn [mPi exMasses]. repeat split; try lra. exists 1%nat. split; [lia|reflexivity]. Qed.
Example C79_ex2 : exists f, f0980Amp 1 (mPi exMasses) (mPi exMasses) (98 / 100) (7 / 100) = Some f /\ elastic (mom 1 (mPi exMasses) (mPi exMasses) / 1) f.
Proof. destruct (C79_f0980 1 (mPi exMasses) (mPi exMasses) (98 / 100) (7 / 100)) as (f & E & _ & F); cbn [mPi exMasses]; try lra. exists f. auto. Qed.
Example C79_ex3 : exists f, flatteAmp exMasses (9 / 10) = Some f /\ elastic (165 / 1000 * psf (9 / 10) (mPi exMasses) (mPi exMasses)) f.
Proof. destruct (C79_flatte_below_KK exMasses (9 / 10)) as (f & E & F & _); cbn [mPi mK exMasses]; try lra. exists f. auto. Qed.
Example C79_ex4 : 2 * mK exMasses < 12 / 10 /\ 2 * mK0 exMasses < 12 / 10 /\ 1 / 1000000 <= Rabs (12 / 10 * (12 / 10) - 9828 / 10000).
Proof. cbn [mK mK0 exMasses]. rewrite Rabs_right; lra. Qed.
Example C79_ex5 : mK exMasses + mEta exMasses <= 12 / 10 /\ 12 / 10 < 25 / 10 /\ 12 / 10 * (12 / 10) <> 17991 / 10000 /\ 12 / 10 * (12 / 10) <> 83627 / 10000.
Proof. cbn [mK mEta exMasses]. repeat split; lra. Qed.
Example C79_ex6 : increasing [1 / 2; 1; 2] /\ fold_right Cplus (RtoC 0) [RtoC 0; RtoC 1] = RtoC 1.
Proof. split; [repeat constructor; lra|]. cbn [fold_right]. apply c_eq; creal; ring. Qed.
