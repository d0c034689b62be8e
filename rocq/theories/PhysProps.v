(* Properties C10, C11, C12, C57: reflectivity factor, barrier factors, Breit-Wigner
   amplitude, two-body kinematics. *)
From Coq Require Import ZArith Reals Bool Lia Lra.
From Verif Require Import SpinModel SpinSpec SpinProofs PhysModel PhysSpec DFuncProofs.
Open Scope R_scope.

(* ------------------------------------------------------------------ C10 *)
Theorem C10_reflectivity_factor_value :
  forall J P k refl, (isSign P -> isSign refl -> 0 <= J - 2 * k ->
    reflectivityFactor J P (J - 2 * k) refl = refl * P * minusOnePow k)%Z.
Proof.
  intros J P k refl HP Hr HM. unfold reflectivityFactor.
  assert ((Z.abs P =? 1)%Z = true) as -> by (destruct HP; subst; reflexivity).
  assert ((Z.abs refl =? 1)%Z = true) as -> by (destruct Hr; subst; reflexivity).
  cbn [negb]. destruct (Z.ltb_spec (J - 2 * k) 0); [lia|].
  replace (J - (J - 2 * k))%Z with (k * 2)%Z by lia. rewrite Z.quot_mul by lia. now rewrite pm1_mop.
Qed.

Theorem C10_is_a_sign_and_flips :
  forall J P M refl, (isSign P -> isSign refl -> 0 <= M ->
    isSign (reflectivityFactor J P M refl)
    /\ reflectivityFactor J P M (- refl) = - reflectivityFactor J P M refl
    /\ reflectivityFactor J (- P) M refl = - reflectivityFactor J P M refl
    /\ (M <= J -> reflectivityFactor (J + 2) P M refl = - reflectivityFactor J P M refl))%Z.
Proof.
  intros J P M refl HP Hr HM.
  assert (forall J P r, isSign P -> isSign r -> reflectivityFactor J P M r = (r * P * powMinusOne (Z.quot (J - M) 2))%Z) as E.
  { clear - HM. intros J P r HP Hr. unfold reflectivityFactor.
    assert ((Z.abs P =? 1)%Z = true) as -> by (destruct HP; subst; reflexivity).
    assert ((Z.abs r =? 1)%Z = true) as -> by (destruct Hr; subst; reflexivity).
    cbn [negb]. destruct (Z.ltb_spec M 0); [lia|]. reflexivity. }
  assert (isSign (- P)) by (destruct HP; subst; [right|left]; reflexivity).
  assert (isSign (- refl)) by (destruct Hr; subst; [right|left]; reflexivity).
  rewrite !E by assumption.
  assert (isSign (powMinusOne ((J - M) ÷ 2))) as Hs by (unfold powMinusOne; destruct (Z.odd _); [right|left]; reflexivity).
  split; [|split; [|split]].
  - destruct HP as [->| ->], Hr as [->| ->], Hs as [->| ->]; (left; reflexivity) || (right; reflexivity).
  - lia.
  - lia.
  - intros Hge. assert ((J + 2 - M) ÷ 2 = (J - M) ÷ 2 + 1)%Z as ->.
    { replace (J + 2 - M)%Z with ((J - M) + 1 * 2)%Z by lia. rewrite !Z.quot_div_nonneg by lia. now rewrite Z.div_add by lia. }
    rewrite !pm1_mop, mop_add. change (minusOnePow 1) with (-1)%Z. lia.
Qed.

Theorem C10_inadmissible_arguments_give_zero :
  forall J P M refl, (~ isSign P \/ M < 0 \/ ~ isSign refl)%Z <-> reflectivityFactor J P M refl = 0%Z.
Proof.
  intros J P M refl. unfold reflectivityFactor, isSign. split.
  - intros H. destruct (Z.eqb_spec (Z.abs P) 1); cbn [negb]; [|reflexivity].
    destruct (Z.ltb_spec M 0); [reflexivity|]. destruct (Z.eqb_spec (Z.abs refl) 1); cbn [negb]; [|reflexivity].
    exfalso. lia.
  - destruct (Z.eqb_spec (Z.abs P) 1); cbn [negb]; [|intros _; left; lia].
    destruct (Z.ltb_spec M 0); [intros _; right; left; lia|]. destruct (Z.eqb_spec (Z.abs refl) 1); cbn [negb].
    + intros Hz. exfalso. unfold powMinusOne in Hz. destruct (Z.odd _); lia.
    + intros _; right; right; lia.
Qed.

Example C10_ex : reflectivityFactor 4 (-1) 2 1 = 1%Z /\ reflectivityFactor 4 (-1) 0 1 = (-1)%Z.
Proof. split; reflexivity. Qed.

(* ------------------------------------------------------------------ C11 *)
Lemma hankel_coeffs L k : 0 < hankelCoeff L k.
Proof.
  unfold hankelCoeff.
  assert (forall n, (0 < zfact n)%Z) as Hf by (induction n; cbn [zfact]; [lia|nia]).
  apply Rdiv_lt_0_compat; apply IZR_lt.
  - apply Z.mul_pos_pos; apply Hf.
  - apply Z.mul_pos_pos; [apply Z.mul_pos_pos; [apply Hf|apply Z.mul_pos_pos; apply Hf]|apply Z.pow_pos_nonneg; lia].
Qed.

Ltac coeff L k v := let H := fresh in assert (hankelCoeff L k = v) as H by
  (unfold hankelCoeff;
   match goal with |- IZR ?a / IZR ?b = _ =>
     let a' := eval vm_compute in a in let b' := eval vm_compute in b in change a with a'; change b with b' end; lra);
  rewrite !H; clear H.

(* the code's expression is the Blatt-Weisskopf factor of angular momentum L = 0..7 *)
Theorem C11_is_blatt_weisskopf :
  forall L q Pr, (L <= 7)%nat -> Pr <> 0 ->
  barrierFactorSquared (2 * Z.of_nat L) q Pr = blattWeisskopfSquared L ((q / Pr) ^ 2).
Proof.
  intros L q Pr HL HPr. unfold barrierFactorSquared, blattWeisskopfSquared.
  replace ((q / Pr) ^ 2) with (q * q / (Pr * Pr)) by (field; assumption).
  assert (0 <= q * q / (Pr * Pr)) as Hz.
  { replace (q * q / (Pr * Pr)) with ((q / Pr) * (q / Pr)) by (field; assumption). nra. }
  generalize dependent (q * q / (Pr * Pr)). intros z Hz.
  assert (forall e c, 0 <= e -> 0 < c -> z * e + c <> 0) as Hne by (intros; nra).
  assert (forall e c, 0 <= e -> 0 < c -> 0 <= z * e + c) as Hnn by (intros; nra).
  unfold hankelPoly.
  destruct L as [|[|[|[|[|[|[|[|L]]]]]]]]; [..|lia]; cbn [sum_f_R0]; 
    match goal with |- context [(2 * Z.of_nat ?n)%Z] =>
      let v := eval vm_compute in (2 * Z.of_nat n)%Z in change (2 * Z.of_nat n)%Z with v end; cbv iota zeta.
  - coeff 0%nat 0%nat 1. cbn [pow]. field.
  - coeff 1%nat 0%nat 1. coeff 1%nat 1%nat 1. cbn [pow]. field; nra.
  - coeff 2%nat 0%nat 9. coeff 2%nat 1%nat 3. coeff 2%nat 2%nat 1. cbn [pow]. field; nra.
  - coeff 3%nat 0%nat 225. coeff 3%nat 1%nat 45. coeff 3%nat 2%nat 6. coeff 3%nat 3%nat 1. cbn [pow].
    assert (0 < z * (z * (z + 6) + 45) + 225) by (assert (0 <= z * (z * (z + 6) + 45)) by (apply Rmult_le_pos; nra); lra).
    field; repeat split; lra.
  - coeff 4%nat 0%nat 11025. coeff 4%nat 1%nat 1575. coeff 4%nat 2%nat 135. coeff 4%nat 3%nat 10. coeff 4%nat 4%nat 1. cbn [pow].
    assert (0 < z * (z * (z * (z + 10) + 135) + 1575) + 11025).
    { apply Rplus_le_lt_0_compat; [apply Rmult_le_pos; [lra|apply Hnn; [apply Hnn; nra|lra]]|lra]. }
    field; repeat split; lra.
  - coeff 5%nat 0%nat 893025. coeff 5%nat 1%nat 99225. coeff 5%nat 2%nat 6300. coeff 5%nat 3%nat 315. coeff 5%nat 4%nat 15. coeff 5%nat 5%nat 1. cbn [pow].
    assert (0 < z * (z * (z * (z * (z + 15) + 315) + 6300) + 99225) + 893025).
    { apply Rplus_le_lt_0_compat; [apply Rmult_le_pos; [lra|apply Hnn; [apply Hnn; [apply Hnn; nra|lra]|lra]]|lra]. }
    field; repeat split; lra.
  - coeff 6%nat 0%nat 108056025. coeff 6%nat 1%nat 9823275. coeff 6%nat 2%nat 496125. coeff 6%nat 3%nat 18900. coeff 6%nat 4%nat 630. coeff 6%nat 5%nat 21. coeff 6%nat 6%nat 1. cbn [pow].
    assert (0 < z * (z * (z * (z * (z * (z + 21) + 630) + 18900) + 496125) + 9823275) + 108056025).
    { apply Rplus_le_lt_0_compat; [apply Rmult_le_pos; [lra|apply Hnn; [apply Hnn; [apply Hnn; [apply Hnn; nra|lra]|lra]|lra]]|lra]. }
    field; repeat split; lra.
  - coeff 7%nat 0%nat 18261468225. coeff 7%nat 1%nat 1404728325. coeff 7%nat 2%nat 58939650. coeff 7%nat 3%nat 1819125. coeff 7%nat 4%nat 47250. coeff 7%nat 5%nat 1134. coeff 7%nat 6%nat 28. coeff 7%nat 7%nat 1. cbn [pow].
    assert (0 < z * (z * (z * (z * (z * (z * (z + 28) + 1134) + 47250) + 1819125) + 58939650) + 1404728325) + 18261468225).
    { apply Rplus_le_lt_0_compat; [apply Rmult_le_pos; [lra|apply Hnn; [apply Hnn; [apply Hnn; [apply Hnn; [apply Hnn; nra|lra]|lra]|lra]|lra]]|lra]. }
    field; repeat split; lra.
Qed.

Lemma hankel_pos L z : 0 <= z -> 0 < hankelPoly L z.
Proof.
  intros Hz. unfold hankelPoly. 
  assert (forall N, 0 < sum_f_R0 (fun k => hankelCoeff L k * z ^ k) N) as H; [|apply H].
  induction N as [|N IH]; cbn [sum_f_R0].
  - cbn [pow]. pose proof (hankel_coeffs L 0). lra.
  - assert (0 <= hankelCoeff L (S N) * z ^ S N); [|lra].
    apply Rmult_le_pos; [apply Rlt_le, hankel_coeffs|now apply pow_le].
Qed.

Lemma hankel_lead L : hankelCoeff L L = 1.
Proof.
  unfold hankelCoeff. replace (2 * L - L)%nat with L by lia.
  replace (2 * L - 2 * L)%nat with 0%nat by lia. replace (L - L)%nat with 0%nat by lia. cbn [zfact]. change (4 ^ Z.of_nat 0)%Z with 1%Z.
  rewrite !Z.mul_1_r. apply Rinv_r. apply IZR_neq.
  assert (forall n, (0 < zfact n)%Z) as Hf by (induction n; cbn [zfact]; [lia|nia]). specialize (Hf L). lia.
Qed.

Lemma pow_strict x y n : 0 <= x -> x < y -> (0 < n)%nat -> x ^ n < y ^ n.
Proof.
  intros Hx Hxy Hn. destruct n as [|n]; [lia|]. clear Hn.
  induction n as [|n IH]; cbn [pow] in *; [lra|].
  assert (0 <= x ^ n) by now apply pow_le.
  apply Rmult_le_0_lt_compat; auto. apply Rmult_le_pos; auto.
Qed.

Lemma bw_mono L z1 z2 : (1 <= L)%nat -> 0 <= z1 -> z1 < z2 -> blattWeisskopfSquared L z1 < blattWeisskopfSquared L z2.
Proof.
  intros HL H1 H2. unfold blattWeisskopfSquared.
  pose proof (hankel_pos L z1 H1) as P1. pose proof (hankel_pos L z2 ltac:(lra)) as P2.
  pose proof (hankel_pos L 1 ltac:(lra)) as PN.
  assert (z1 ^ L * hankelPoly L z2 < z2 ^ L * hankelPoly L z1) as K.
  { unfold hankelPoly. rewrite !scal_sum. rewrite !(decomp_sum _ L) by lia. cbn [pow].
    apply Rplus_lt_le_compat.
    - pose proof (hankel_coeffs L 0). pose proof (pow_strict z1 z2 L H1 H2 ltac:(lia)). nra.
    - apply sum_Rle. intros k Hk. pose proof (hankel_coeffs L (S k)) as Hc.
      assert (0 <= z1 ^ S k) by (now apply pow_le). assert (0 <= z2 ^ S k) by (apply pow_le; lra).
      assert (forall z, z ^ L = z ^ S k * z ^ (L - S k)) as HPW
        by (intros z; rewrite <- pow_add; f_equal; lia).
      rewrite !HPW.
      assert (z1 ^ (L - S k) <= z2 ^ (L - S k)) by (apply pow_incr; lra).
      assert (0 <= z1 ^ (L - S k)) by (now apply pow_le).
      change (z2 * z2 ^ k) with (z2 ^ S k). change (z1 * z1 ^ k) with (z1 ^ S k).
      replace (hankelCoeff L (S k) * z2 ^ S k * (z1 ^ S k * z1 ^ (L - S k)))
        with ((hankelCoeff L (S k) * (z1 ^ S k * z2 ^ S k)) * z1 ^ (L - S k)) by ring.
      replace (hankelCoeff L (S k) * z1 ^ S k * (z2 ^ S k * z2 ^ (L - S k)))
        with ((hankelCoeff L (S k) * (z1 ^ S k * z2 ^ S k)) * z2 ^ (L - S k)) by ring.
      apply Rmult_le_compat_l; [|assumption].
      apply Rmult_le_pos; [lra|]. now apply Rmult_le_pos. }
  apply (Rmult_lt_reg_r (hankelPoly L z1 * hankelPoly L z2)); [nra|].
  replace (hankelPoly L 1 * z1 ^ L / hankelPoly L z1 * (hankelPoly L z1 * hankelPoly L z2))
    with (hankelPoly L 1 * (z1 ^ L * hankelPoly L z2)) by (field; lra).
  replace (hankelPoly L 1 * z2 ^ L / hankelPoly L z2 * (hankelPoly L z1 * hankelPoly L z2))
    with (hankelPoly L 1 * (z2 ^ L * hankelPoly L z1)) by (field; lra).
  now apply Rmult_lt_compat_l.
Qed.

Lemma bw_bound L z : (1 <= L)%nat -> 0 <= z -> 0 <= blattWeisskopfSquared L z < hankelPoly L 1.
Proof.
  intros HL Hz. unfold blattWeisskopfSquared.
  pose proof (hankel_pos L z Hz) as P1. pose proof (hankel_pos L 1 ltac:(lra)) as PN.
  assert (0 <= z ^ L) by now apply pow_le.
  split.
  - unfold Rdiv. apply Rmult_le_pos; [nra|]. now apply Rlt_le, Rinv_0_lt_compat.
  - assert (z ^ L < hankelPoly L z) as K.
    { unfold hankelPoly. destruct L as [|L']; [lia|]. cbn [sum_f_R0]. rewrite hankel_lead.
      assert (0 < sum_f_R0 (fun k => hankelCoeff (S L') k * z ^ k) L'); [|lra].
      clear - Hz. generalize (S L'). intros L. induction L' as [|N IH]; cbn [sum_f_R0].
      - cbn [pow]. pose proof (hankel_coeffs L 0). lra.
      - assert (0 <= hankelCoeff L (S N) * z ^ S N); [|lra].
        apply Rmult_le_pos; [apply Rlt_le, hankel_coeffs|now apply pow_le]. }
    apply (Rmult_lt_reg_r (hankelPoly L z)); [assumption|].
    unfold Rdiv. rewrite Rmult_assoc, Rinv_l, Rmult_1_r by lra. now apply Rmult_lt_compat_l.
Qed.

(* what a user relies on: normalisation, threshold behaviour, monotony, boundedness *)
Theorem C11_normalised_monotone_bounded :
  forall L Pr, (1 <= L <= 7)%nat -> 0 < Pr ->
  barrierFactorSquared (2 * Z.of_nat L) Pr Pr = 1
  /\ barrierFactorSquared (2 * Z.of_nat L) 0 Pr = 0
  /\ (forall q1 q2, 0 <= q1 -> q1 < q2 ->
        barrierFactorSquared (2 * Z.of_nat L) q1 Pr < barrierFactorSquared (2 * Z.of_nat L) q2 Pr)
  /\ (forall q, 0 <= barrierFactorSquared (2 * Z.of_nat L) q Pr < hankelPoly L 1).
Proof.
  intros L Pr HL HPr.
  assert (forall q, barrierFactorSquared (2 * Z.of_nat L) q Pr = blattWeisskopfSquared L ((q / Pr) ^ 2)) as E
    by (intros; apply C11_is_blatt_weisskopf; [lia|lra]).
  split; [|split; [|split]].
  - rewrite E. replace ((Pr / Pr) ^ 2) with 1 by (field; lra). unfold blattWeisskopfSquared.
    rewrite pow1. pose proof (hankel_pos L 1 ltac:(lra)). field. lra.
  - rewrite E. replace ((0 / Pr) ^ 2) with 0 by (field; lra). unfold blattWeisskopfSquared.
    rewrite pow_i by lia. unfold Rdiv. rewrite Rmult_0_r, Rmult_0_l. reflexivity.
  - intros q1 q2 H1 H2. rewrite !E.
    assert (0 < / Pr) by now apply Rinv_0_lt_compat. unfold Rdiv.
    apply bw_mono; [lia|apply pow2_ge_0|]. 
    apply pow_strict; [apply Rmult_le_pos; lra|now apply Rmult_lt_compat_r|lia].
  - intros q. rewrite E. apply bw_bound; [lia|apply pow2_ge_0].
Qed.

Theorem C11_s_wave_and_unsupported :
  (forall q Pr, barrierFactorSquared 0 q Pr = 1)
  /\ (forall L q Pr, (L < 0 \/ 14 < L \/ exists k, L = 2 * k + 1)%Z -> barrierFactorSquared L q Pr = 0).
Proof.
  split; [reflexivity|]. intros L q Pr H. unfold barrierFactorSquared.
  destruct H as [H|[H|[k H]]].
  - destruct L; try lia. reflexivity.
  - destruct L as [|p|p]; try lia. 
    do 4 (destruct p as [p|p|]; try lia; try reflexivity).
  - destruct L as [|p|p]; try lia; try reflexivity. destruct p as [p|p|]; try lia; reflexivity.
Qed.

Example C11_ex : (1 <= 2 <= 7)%nat /\ 0 < defaultPr /\ barrierFactorSquared 4 2 1 = 13 * 16 / 37.
Proof. split; [lia|]. split; [unfold defaultPr; lra|]. unfold barrierFactorSquared. field. Qed.

(* ------------------------------------------------------------------ C12 *)
Definition supportedL (L : Z) : Prop := exists n, (n <= 7)%nat /\ L = (2 * Z.of_nat n)%Z.

Lemma barrier_pos L q : supportedL L -> q <> 0 -> 0 < barrierFactorSquared L q defaultPr.
Proof.
  intros (n & Hn & ->) Hq. rewrite C11_is_blatt_weisskopf by (unfold defaultPr; (lia || lra)).
  unfold blattWeisskopfSquared.
  assert (0 < (q / defaultPr) ^ 2) as Hz.
  { rewrite <- Rsqr_pow2. apply Rsqr_pos_lt. unfold Rdiv. apply Rmult_integral_contrapositive_currified; [assumption|].
    apply Rinv_neq_0_compat. unfold defaultPr. lra. }
  pose proof (hankel_pos n _ (Rlt_le _ _ Hz)). pose proof (hankel_pos n 1 ltac:(lra)).
  apply Rdiv_lt_0_compat; [|assumption]. apply Rmult_lt_0_compat; [assumption|now apply pow_lt].
Qed.

(* mass-dependent width *)
Definition massDepWidth (M M0 Gamma0 : R) (L : Z) (q q0 : R) : R :=
  Gamma0 * (M0 / M) * (q / q0) * (barrierFactorSquared L q defaultPr / barrierFactorSquared L q0 defaultPr).

Lemma breitWigner_eq M M0 G0 L q q0 : supportedL L -> M <> 0 -> q0 <> 0 ->
  breitWigner M M0 G0 L q q0 =
  let B := M0 * M0 - M * M in let C := M0 * massDepWidth M M0 G0 L q q0 in
  match rdiv (M0 * G0) (B * B + C * C) with Some f => Some (f * B, f * C) | None => None end.
Proof.
  intros HL HM Hq. unfold breitWigner, reqb, rdiv.
  destruct (Req_EM_T q0 0); [contradiction|]. destruct (Req_EM_T M 0); [contradiction|].
  destruct (Req_EM_T (barrierFactorSquared L q0 defaultPr) 0) as [E|_]; [pose proof (barrier_pos L q0 HL Hq); lra|].
  reflexivity.
Qed.

(* T (M0^2 - M^2 - i M0 Gamma(M)) = M0 Gamma0, Im T >= 0 for Gamma >= 0, and the
   unitarity relation Gamma0 * Im T = Gamma(M) |T|^2 *)
Theorem C12_breit_wigner_equation_and_unitarity :
  forall M M0 G0 L q q0, supportedL L -> M <> 0 -> q0 <> 0 ->
  let G := massDepWidth M M0 G0 L q q0 in
  M0 * M0 - M * M <> 0 \/ M0 * G <> 0 ->
  exists re im, breitWigner M M0 G0 L q q0 = Some (re, im)
    /\ re * (M0 * M0 - M * M) + im * (M0 * G) = M0 * G0
    /\ im * (M0 * M0 - M * M) - re * (M0 * G) = 0
    /\ M0 * G0 * im = M0 * G * (re * re + im * im).
Proof.
  intros M M0 G0 L q q0 HL HM Hq G Hne. rewrite breitWigner_eq by assumption.
  cbv zeta. fold G. set (B := M0 * M0 - M * M) in *. set (C := M0 * G) in *.
  assert (0 < B * B + C * C) as HD by (destruct Hne; nra).
  unfold rdiv. destruct (Req_EM_T (B * B + C * C) 0); [lra|].
  exists (M0 * G0 / (B * B + C * C) * B), (M0 * G0 / (B * B + C * C) * C).
  split; [reflexivity|]. split; [field; lra|]. split; [field; lra|]. field. lra.
Qed.

(* rescaled by Gamma(M)/Gamma0 the amplitude never exceeds the unitarity limit *)
Theorem C12_rescaled_modulus_at_most_one :
  forall M M0 G0 L q q0 re im, supportedL L -> M <> 0 -> q0 <> 0 -> 0 < M0 -> 0 < G0 ->
  breitWigner M M0 G0 L q q0 = Some (re, im) ->
  let r := massDepWidth M M0 G0 L q q0 / G0 in
  (r * re) * (r * re) + (r * im) * (r * im) <= 1.
Proof.
  intros M M0 G0 L q q0 re im HL HM Hq HM0 HG0 E r. rewrite breitWigner_eq in E by assumption. cbv zeta in E.
  set (G := massDepWidth M M0 G0 L q q0) in *. set (B := M0 * M0 - M * M) in *. set (C := M0 * G) in *.
  unfold rdiv in E. destruct (Req_EM_T (B * B + C * C) 0) as [|Hd]; [discriminate|]. injection E as <- <-.
  assert (0 < B * B + C * C) as HD by (assert (0 <= B * B + C * C) by nra; lra).
  assert (r * (M0 * G0 / (B * B + C * C) * B) = C * B / (B * B + C * C)) as ->
    by (unfold r, C; field; split; [unfold C in *; lra|lra]).
  assert (r * (M0 * G0 / (B * B + C * C) * C) = C * C / (B * B + C * C)) as ->
    by (unfold r, C; field; split; [unfold C in *; lra|lra]).
  replace (C * B / (B * B + C * C) * (C * B / (B * B + C * C)) + C * C / (B * B + C * C) * (C * C / (B * B + C * C)))
    with (C * C / (B * B + C * C)) by (field; lra).
  apply (Rmult_le_reg_r (B * B + C * C)); [assumption|]. unfold Rdiv.
  rewrite Rmult_assoc, Rinv_l, Rmult_1_r by lra. nra.
Qed.

(* at the nominal mass the amplitude is exactly i *)
Theorem C12_value_at_resonance :
  forall M0 G0 L q0, supportedL L -> 0 < M0 -> 0 < G0 -> q0 <> 0 ->
  breitWigner M0 M0 G0 L q0 q0 = Some (0, 1).
Proof.
  intros M0 G0 L q0 HL HM HG Hq. rewrite breitWigner_eq by (auto; lra). cbv zeta.
  pose proof (barrier_pos L q0 HL Hq) as Hb.
  assert (massDepWidth M0 M0 G0 L q0 q0 = G0) as -> by (unfold massDepWidth; field; repeat split; lra).
  unfold rdiv. destruct (Req_EM_T _ 0) as [E|_].
  - exfalso. assert (0 < (M0 * G0) * (M0 * G0)) by (assert (0 < M0 * G0) by nra; nra). nra.
  - assert (0 < M0 * G0) by nra. do 2 f_equal; field; nra.
Qed.

(* |T| <= 1 itself is NOT guaranteed: broad resonance evaluated at threshold *)
Theorem C12_modulus_at_most_one_refuted :
  exists M M0 G0 L q q0 re im, supportedL L /\ 0 < M /\ 0 < M0 /\ 0 < G0 /\ 0 <= q /\ 0 < q0
  /\ breitWigner M M0 G0 L q q0 = Some (re, im) /\ 1 < re * re + im * im.
Proof.
  exists 1, 2, 2, 0%Z, 0, 1, (4/3), 0.
  assert (supportedL 0) as HL by (exists 0%nat; split; [lia|reflexivity]).
  repeat (split; [assumption || lra|]). split; [|lra].
  rewrite breitWigner_eq by (auto; lra). cbv zeta.
  assert (massDepWidth 1 2 2 0 0 1 = 0) as -> by (unfold massDepWidth, barrierFactorSquared; field).
  unfold rdiv. destruct (Req_EM_T _ 0) as [E|_]; [lra|]. do 2 f_equal; field.
Qed.

Theorem C12_degenerate_cases :
  (forall M M0 G0 L q, breitWigner M M0 G0 L q 0 = Some (0, 0))
  /\ (forall M M0 G0 L q q0, q0 <> 0 -> (M = 0 \/ (L < 0 \/ 14 < L \/ exists k, L = 2 * k + 1)%Z) ->
      breitWigner M M0 G0 L q q0 = None).
Proof.
  split.
  - intros. unfold breitWigner, reqb. destruct (Req_EM_T 0 0); [reflexivity|lra].
  - intros M M0 G0 L q q0 Hq H. unfold breitWigner, reqb. destruct (Req_EM_T q0 0); [contradiction|].
    destruct H as [->|H].
    + unfold rdiv at 1. destruct (Req_EM_T 0 0); [reflexivity|lra].
    + assert (rdiv (barrierFactorSquared L q defaultPr) (barrierFactorSquared L q0 defaultPr) = None) as ->.
      { rewrite !(proj2 C11_s_wave_and_unsupported) by assumption. unfold rdiv. destruct (Req_EM_T 0 0); [reflexivity|lra]. }
      destruct (rdiv M0 M); [|reflexivity]. destruct (rdiv q q0); reflexivity.
Qed.

Example C12_ex : supportedL 4 /\ breitWigner (77/100) (77/100) (15/100) 2 (1/3) (1/3) = Some (0, 1).
Proof.
  split; [exists 2%nat; split; [lia|reflexivity]|].
  apply C12_value_at_resonance; try lra. exists 1%nat. split; [lia|reflexivity].
Qed.

(* ------------------------------------------------------------------ C57 *)
(* two-body decay: energy and momentum conservation in the rest frame of the mother *)
Theorem C57_breakup_momentum_conserves_energy :
  forall M m1 m2, 0 <= m1 -> 0 <= m2 -> 0 < M -> m1 + m2 <= M ->
  exists q, breakupMomentum M m1 m2 = Some q /\ 0 <= q
    /\ sqrt (m1 * m1 + q * q) + sqrt (m2 * m2 + q * q) = M
    /\ (M = m1 + m2 -> q = 0)
    /\ breakupMomentum M m2 m1 = Some q.
Proof.
  intros M m1 m2 H1 H2 HM Hthr.
  assert (forall a b, 0 <= a -> 0 <= b -> a + b <= M ->
    breakupMomentumSquared M a b false = Some ((M - (a + b)) * (M + (a + b)) * (M - (a - b)) * (M + (a - b)) / (4 * M * M))
    /\ 0 <= (M - (a + b)) * (M + (a + b)) * (M - (a - b)) * (M + (a - b)) / (4 * M * M)) as HQ.
  { intros a b Ha Hb Hab.
    assert (0 <= (M - (a + b)) * (M + (a + b)) * (M - (a - b)) * (M + (a - b)) / (4 * M * M)) as Hnn.
    { unfold Rdiv. apply Rmult_le_pos.
      - repeat apply Rmult_le_pos; lra.
      - apply Rlt_le, Rinv_0_lt_compat. nra. }
    split; [|exact Hnn]. unfold breakupMomentumSquared, rltb, rdiv. cbn [negb andb].
    destruct (Rlt_dec M (a + b)); [lra|]. destruct (Req_EM_T (4 * M * M) 0) as [E|_]; [nra|].
    destruct (Rlt_dec _ 0) as [E|_]; [lra|]. reflexivity. }
  destruct (HQ m1 m2 H1 H2 Hthr) as [E12 Hnn]. destruct (HQ m2 m1 H2 H1 ltac:(lra)) as [E21 _].
  set (q2 := (M - (m1 + m2)) * (M + (m1 + m2)) * (M - (m1 - m2)) * (M + (m1 - m2)) / (4 * M * M)) in *.
  exists (sqrt q2). unfold breakupMomentum. rewrite E12, E21.
  split; [reflexivity|]. split; [apply sqrt_pos|]. rewrite !sqrt_sqrt by assumption.
  assert (m1 * m1 + q2 = (M * M + m1 * m1 - m2 * m2) / (2 * M) * ((M * M + m1 * m1 - m2 * m2) / (2 * M))) as ->
    by (unfold q2; field; lra).
  assert (m2 * m2 + q2 = (M * M + m2 * m2 - m1 * m1) / (2 * M) * ((M * M + m2 * m2 - m1 * m1) / (2 * M))) as ->
    by (unfold q2; field; lra).
  assert (forall a b, 0 <= a -> 0 <= b -> a + b <= M -> 0 <= (M * M + a * a - b * b) / (2 * M)) as Hp.
  { intros a b Ha Hb Hab. unfold Rdiv. apply Rmult_le_pos; [nra|]. apply Rlt_le, Rinv_0_lt_compat. lra. }
  rewrite !sqrt_square by (apply Hp; lra).
  split; [field; lra|]. split.
  - intros E. replace q2 with 0; [apply sqrt_0|]. unfold q2. replace (M - (m1 + m2)) with 0 by lra. unfold Rdiv. ring.
  - f_equal. f_equal. unfold q2. field. lra.
Qed.

Theorem C57_below_threshold_aborts :
  forall M m1 m2, M < m1 + m2 -> breakupMomentum M m1 m2 = None.
Proof.
  intros. unfold breakupMomentum, breakupMomentumSquared, rltb. cbn [negb andb].
  destruct (Rlt_dec M (m1 + m2)); [reflexivity|lra].
Qed.

(* the complex version is purely real above and purely imaginary below threshold (for
   |m1-m2| < M < m1+m2), and its square is the analytic continuation of q^2 *)
Theorem C57_complex_breakup_momentum :
  forall M m1 m2, 0 < M ->
  exists re im q2, breakupMomentumComplex M m1 m2 = Some (re, im)
    /\ q2 * (4 * M * M) = (M * M - (m1 + m2) * (m1 + m2)) * (M * M - (m1 - m2) * (m1 - m2))
    /\ re * re - im * im = q2 /\ 2 * re * im = 0 /\ 0 <= re /\ 0 <= im
    /\ (Rabs (m1 - m2) < M -> M < m1 + m2 -> re = 0 /\ 0 < im)
    /\ (0 <= m1 -> 0 <= m2 -> m1 + m2 < M -> 0 < re /\ im = 0).
Proof.
  intros M m1 m2 HM. unfold breakupMomentumComplex, breakupMomentumSquared, rdiv. cbn [negb andb].
  assert (0 < 4 * M * M) as H4 by nra.
  destruct (Req_EM_T (4 * M * M) 0) as [E|_]; [lra|].
  set (q2 := (M - (m1 + m2)) * (M + (m1 + m2)) * (M - (m1 - m2)) * (M + (m1 - m2)) / (4 * M * M)).
  assert (q2 * (4 * M * M) = (M * M - (m1 + m2) * (m1 + m2)) * (M * M - (m1 - m2) * (m1 - m2))) as HE
    by (unfold q2; field; lra).
  unfold rltb. destruct (Rlt_dec q2 0) as [Hn|Hn].
  - exists 0, (sqrt (Rabs q2)), q2. split; [reflexivity|]. split; [exact HE|].
    rewrite sqrt_sqrt by apply Rabs_pos. rewrite (Rabs_left q2) by assumption.
    split; [ring|]. split; [ring|]. split; [lra|]. split; [apply sqrt_pos|]. split.
    + intros _ _. split; [reflexivity|]. apply sqrt_lt_R0. lra.
    + intros A B C. exfalso.
      assert (0 < M * M - (m1 + m2) * (m1 + m2)) by nra. assert (0 < M * M - (m1 - m2) * (m1 - m2)) by nra. nra.
  - exists (sqrt (Rabs q2)), 0, q2. split; [reflexivity|]. split; [exact HE|].
    rewrite sqrt_sqrt by apply Rabs_pos. rewrite (Rabs_right q2) by lra.
    split; [ring|]. split; [ring|]. split; [apply sqrt_pos|]. split; [lra|]. split.
    + intros A B. exfalso. apply Rabs_def2 in A.
      assert (M * M - (m1 + m2) * (m1 + m2) < 0) by nra. assert (0 < M * M - (m1 - m2) * (m1 - m2)) by nra. nra.
    + intros A B C. split; [|reflexivity]. apply sqrt_lt_R0.
      assert (0 < M * M - (m1 + m2) * (m1 + m2)) by nra. assert (0 < M * M - (m1 - m2) * (m1 - m2)) by nra.
      assert (0 < q2 * (4 * M * M)) by (rewrite HE; nra). nra.
Qed.

Example C57_ex : exists q, breakupMomentum 5 1 2 = Some q /\ q * q = 192 / 50 * 1.
Proof.
  exists (sqrt (192/50)). split; [|rewrite sqrt_sqrt by lra; lra].
  unfold breakupMomentum, breakupMomentumSquared, rltb, rdiv. cbn [negb andb].
  destruct (Rlt_dec 5 (1 + 2)); [lra|]. destruct (Req_EM_T (4 * 5 * 5) 0); [lra|].
  destruct (Rlt_dec _ 0); [lra|]. do 2 f_equal. lra.
Qed.

Print Assumptions C10_reflectivity_factor_value.
Print Assumptions C11_is_blatt_weisskopf.
Print Assumptions C11_normalised_monotone_bounded.
Print Assumptions C12_breit_wigner_equation_and_unitarity.
Print Assumptions C12_rescaled_modulus_at_most_one.
Print Assumptions C57_breakup_momentum_conserves_energy.
Print Assumptions C57_complex_breakup_momentum.
