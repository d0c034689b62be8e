From Coq Require Import Reals ZArith Bool List Lra Lia Psatz.
From Coquelicot Require Import Complex.
From Verif Require Import ExpandSpec SpinModel PhysModel PhysSpec PhysProps MassDepModel MassDepSpec.
Open Scope R_scope.

Lemma c_eq (x y : C) : fst x = fst y -> snd x = snd y -> x = y.
Proof. destruct x, y; cbn; intros -> ->; reflexivity. Qed.
Ltac creal := unfold Smat, Cminus, Cmult, Cplus, Copp, RtoC, Ci; cbn [fst snd].
Lemma Cmod_sq (x : C) : Cmod x * Cmod x = fst x * fst x + snd x * snd x.
Proof. unfold Cmod. rewrite sqrt_sqrt; [ring|nra]. Qed.
Lemma Cmod_one (x : C) : fst x * fst x + snd x * snd x = 1 -> Cmod x = 1.
Proof. intros H. unfold Cmod. replace (fst x ^ 2 + snd x ^ 2) with 1 by (rewrite <- H; ring). apply sqrt_1. Qed.
Lemma Cmod_conj (x : C) : Cmod (Cconj x) = Cmod x.
Proof. unfold Cmod, Cconj. cbn [fst snd]. f_equal. ring. Qed.
Lemma cnz (x : C) : x <> RtoC 0 <-> fst x <> 0 \/ snd x <> 0.
Proof.
  split.
  - intros H. destruct (Req_dec (fst x) 0) as [E|E]; [right; intros E2; apply H; apply c_eq; [exact E|exact E2]|auto].
  - intros [H|H] E; subst x; apply H; reflexivity.
Qed.
Lemma cdivM_some x y : y <> RtoC 0 -> exists f, cdivM x y = Some f /\ (f * y)%C = x.
Proof.
  intros H. unfold cdivM. assert ((x / y * y)%C = x) as E by (unfold Cdiv; rewrite <- Cmult_assoc, Cinv_l by exact H; apply Cmult_1_r).
  apply cnz in H. destruct (Req_EM_T (fst y) 0); [destruct (Req_EM_T (snd y) 0); [exfalso; tauto|]|]; eexists; split; try reflexivity; exact E.
Qed.
Lemma cdivM_inv x y f : cdivM x y = Some f -> y <> RtoC 0 /\ (f * y)%C = x.
Proof.
  intros H. assert (y <> RtoC 0) as N.
  { apply cnz. unfold cdivM in H. destruct (Req_EM_T (fst y) 0); [destruct (Req_EM_T (snd y) 0); [discriminate|auto]|auto]. }
  split; [exact N|]. destruct (cdivM_some x y N) as (g & E & F). rewrite H in E. injection E as <-. exact F.
Qed.
Lemma cdivM_none x : cdivM x (RtoC 0) = None.
Proof. unfold cdivM. cbn [RtoC fst snd]. destruct (Req_EM_T 0 0); [reflexivity|lra]. Qed.
Lemma cdivM_real (x : C) r : r <> 0 -> cdivM x (RtoC r) = Some (fst x / r, snd x / r).
Proof.
  intros H. destruct (cdivM_some x (RtoC r)) as (f & E & F); [apply cnz; left; exact H|]. rewrite E. f_equal.
  subst x. apply c_eq; creal; field; exact H.
Qed.
Lemma elastic_inv rho f D a : D <> RtoC 0 -> (f * D)%C = RtoC a -> snd D = - (rho * a) -> elastic rho f.
Proof.
  intros HD HF HI. unfold elastic.
  assert ((Smat rho f * D)%C = Cconj D) as E.
  { replace (Smat rho f * D)%C with (D + RtoC 2 * Ci * RtoC rho * (f * D))%C by (unfold Smat; ring). rewrite HF.
    apply c_eq; unfold Cconj; creal; rewrite ?HI; ring. }
  apply (f_equal Cmod) in E. rewrite Cmod_mult, Cmod_conj in E. apply Cmod_gt_0 in HD.
  apply (Rmult_eq_reg_r (Cmod D)); [rewrite E; ring|lra].
Qed.
Lemma rdiv_some x y : y <> 0 -> rdiv x y = Some (x / y).
Proof. intros H. unfold rdiv. destruct (Req_EM_T y 0); [contradiction|reflexivity]. Qed.
Lemma rdiv_zero x : rdiv x 0 = None.
Proof. unfold rdiv. destruct (Req_EM_T 0 0); [reflexivity|lra]. Qed.
Lemma lorentz_some A B Cc : B <> 0 \/ Cc <> 0 -> exists f, lorentz A B Cc = Some f /\ (f * (RtoC B - Ci * RtoC Cc))%C = RtoC A.
Proof.
  intros H. assert (0 < B * B + Cc * Cc) as HD.
  { destruct H as [H|H]; pose proof (Rsqr_pos_lt _ H) as P; unfold Rsqr in P; nra. }
  unfold lorentz. rewrite rdiv_some by lra. cbn [bindM]. eexists; split; [reflexivity|]. apply c_eq; creal; field; lra.
Qed.
Lemma lorentz_elastic A B Cc f rho : B <> 0 \/ Cc <> 0 -> (f * (RtoC B - Ci * RtoC Cc))%C = RtoC A -> rho * A = Cc -> elastic rho f.
Proof.
  intros H E ER. apply (elastic_inv rho f (RtoC B - Ci * RtoC Cc)%C A); [|exact E|creal; rewrite ER; ring].
  apply cnz. creal. destruct H as [H|H]; [left|right]; intros Q; apply H; lra.
Qed.

(* momenta *)
Lemma bms_eq M m1 m2 a : 0 < M -> a = true \/ m1 + m2 <= M -> 0 <= m1 -> 0 <= m2 ->
  breakupMomentumSquared M m1 m2 a = Some ((M * M - (m1 + m2) * (m1 + m2)) * (M * M - (m1 - m2) * (m1 - m2)) / (4 * M * M)).
Proof.
  intros HM HA H1 H2. unfold breakupMomentumSquared.
  assert (negb a && rltb M (m1 + m2) = false) as ->.
  { destruct HA as [-> | HA]; [reflexivity|]. unfold rltb. destruct (Rlt_dec M (m1 + m2)); [lra|apply andb_false_r]. }
  rewrite rdiv_some by nra.
  assert ((M - (m1 + m2)) * (M + (m1 + m2)) * (M - (m1 - m2)) * (M + (m1 - m2)) / (4 * M * M) = (M * M - (m1 + m2) * (m1 + m2)) * (M * M - (m1 - m2) * (m1 - m2)) / (4 * M * M)) as -> by (field; lra).
  destruct HA as [-> | HA]; [reflexivity|].
  assert (0 <= (M * M - (m1 + m2) * (m1 + m2)) * (M * M - (m1 - m2) * (m1 - m2)) / (4 * M * M)) as P.
  { apply Rmult_le_pos; [apply Rmult_le_pos; nra|]. apply Rlt_le, Rinv_0_lt_compat. nra. }
  unfold rltb. destruct (Rlt_dec _ 0); [lra|]. rewrite andb_false_r. reflexivity.
Qed.
Lemma sqrt_div4 x M : 0 < M -> sqrt (x / (4 * M * M)) = sqrt x / (2 * M).
Proof. intros H. replace (4 * M * M) with ((2 * M) * (2 * M)) by ring. rewrite sqrt_div_alt by nra. rewrite sqrt_square by lra. reflexivity. Qed.
Lemma bm_eq M m1 m2 : 0 < M -> m1 + m2 <= M -> 0 <= m1 -> 0 <= m2 -> breakupMomentum M m1 m2 = Some (mom M m1 m2).
Proof. intros HM H H1 H2. unfold breakupMomentum. rewrite bms_eq by auto. f_equal. apply sqrt_div4, HM. Qed.
Lemma kallen_nn M m1 m2 : 0 <= m1 -> 0 <= m2 -> m1 + m2 <= M -> 0 <= (M * M - (m1 + m2) * (m1 + m2)) * (M * M - (m1 - m2) * (m1 - m2)).
Proof.
  intros H1 H2 H. replace ((M * M - (m1 + m2) * (m1 + m2)) * (M * M - (m1 - m2) * (m1 - m2))) with (((M - (m1 + m2)) * (M + (m1 + m2))) * ((M - (m1 - m2)) * (M + (m1 - m2)))) by ring.
  repeat apply Rmult_le_pos; lra.
Qed.
Lemma mom_sq M m1 m2 : 0 < M -> m1 + m2 <= M -> 0 <= m1 -> 0 <= m2 ->
  mom M m1 m2 * mom M m1 m2 = (M * M - (m1 + m2) * (m1 + m2)) * (M * M - (m1 - m2) * (m1 - m2)) / (4 * M * M).
Proof.
  intros HM H H1 H2. unfold mom. set (x := ((M * M - (m1 + m2) * (m1 + m2)) * (M * M - (m1 - m2) * (m1 - m2)))). assert (0 <= x) by (apply kallen_nn; assumption).
  replace (sqrt x / (2 * M) * (sqrt x / (2 * M))) with ((sqrt x * sqrt x) / (4 * M * M)) by (field; lra). rewrite sqrt_sqrt by assumption. reflexivity.
Qed.
Lemma kallen_pos M m1 m2 : 0 <= m1 -> 0 <= m2 -> m1 + m2 < M -> 0 < (M * M - (m1 + m2) * (m1 + m2)) * (M * M - (m1 - m2) * (m1 - m2)).
Proof.
  intros H1 H2 H. replace ((M * M - (m1 + m2) * (m1 + m2)) * (M * M - (m1 - m2) * (m1 - m2))) with (((M - (m1 + m2)) * (M + (m1 + m2))) * ((M - (m1 - m2)) * (M + (m1 - m2)))) by ring.
  repeat apply Rmult_lt_0_compat; lra.
Qed.
Lemma mom_pos M m1 m2 : 0 <= m1 -> 0 <= m2 -> m1 + m2 < M -> 0 < mom M m1 m2.
Proof. intros H1 H2 H. unfold mom. apply Rdiv_lt_0_compat; [apply sqrt_lt_R0, kallen_pos; assumption|lra]. Qed.
Lemma psf_pos M m1 m2 : 0 <= m1 -> 0 <= m2 -> m1 + m2 < M -> 0 < psf M m1 m2.
Proof. intros H1 H2 H. pose proof (mom_pos M m1 m2 H1 H2 H). unfold psf. apply Rdiv_lt_0_compat; lra. Qed.
Lemma bmc_above M m1 m2 : 0 < M -> 0 <= m1 -> 0 <= m2 -> m1 + m2 <= M -> breakupMomentumComplex M m1 m2 = Some (mom M m1 m2, 0).
Proof.
  intros HM H1 H2 H. unfold breakupMomentumComplex. rewrite bms_eq by auto.
  set (x := ((M * M - (m1 + m2) * (m1 + m2)) * (M * M - (m1 - m2) * (m1 - m2)))). assert (0 <= x) as P by (apply kallen_nn; assumption).
  assert (0 <= x / (4 * M * M)) as P2 by (apply Rmult_le_pos; [exact P|apply Rlt_le, Rinv_0_lt_compat; nra]).
  unfold rltb. destruct (Rlt_dec (x / (4 * M * M)) 0); [lra|]. rewrite Rabs_right by lra. rewrite sqrt_div4 by exact HM. reflexivity.
Qed.
Lemma bmc_below M m1 m2 : 0 < M -> 0 <= m1 -> 0 <= m2 -> Rabs (m1 - m2) < M -> M < m1 + m2 -> breakupMomentumComplex M m1 m2 = Some (0, momBelow M m1 m2) /\ 0 < momBelow M m1 m2.
Proof.
  intros HM H1 H2 HD H. unfold breakupMomentumComplex. rewrite bms_eq by auto.
  apply Rabs_def2 in HD. set (x := ((M * M - (m1 + m2) * (m1 + m2)) * (M * M - (m1 - m2) * (m1 - m2)))). assert (0 < - x) as P.
  { unfold x. assert (M * M - (m1 + m2) * (m1 + m2) < 0) by nra. assert (0 < M * M - (m1 - m2) * (m1 - m2)) by nra. nra. }
  assert (0 < - x / (4 * M * M)) as P2 by (apply Rdiv_lt_0_compat; [exact P|nra]).
  unfold rltb. destruct (Rlt_dec (x / (4 * M * M)) 0) as [Q|Q]; [|exfalso; apply Q; unfold Rdiv in *; lra].
  rewrite Rabs_left by exact Q. replace (- (x / (4 * M * M))) with (- x / (4 * M * M)) by (field; lra). rewrite sqrt_div4 by exact HM.
  split; [reflexivity|]. unfold momBelow. fold x. apply Rdiv_lt_0_compat; [apply sqrt_lt_R0, P|lra].
Qed.

(* phase space as complex number *)
Lemma psf_above M m1 m2 : 0 <= m1 -> 0 <= m2 -> m1 + m2 <= M -> 0 < M ->
  bindM (breakupMomentumComplex M m1 m2) (fun q => cdivM (RtoC 2 * q)%C (RtoC M)) = Some (RtoC (psf M m1 m2)).
Proof.
  intros H1 H2 H HM. rewrite bmc_above by lra. cbn [bindM]. rewrite cdivM_real by lra. f_equal. apply c_eq; creal; unfold psf; field; lra.
Qed.
Lemma psf_above' M m1 m2 : 0 < M -> cdivM (RtoC 2 * (mom M m1 m2, 0))%C (RtoC M) = Some (RtoC (psf M m1 m2)).
Proof. intros HM. rewrite cdivM_real by lra. f_equal. apply c_eq; creal; unfold psf; field; lra. Qed.
Lemma psf_below' M m1 m2 : 0 < M -> cdivM (RtoC 2 * (0, momBelow M m1 m2))%C (RtoC M) = Some (0, psfBelow M m1 m2).
Proof. intros HM. rewrite cdivM_real by lra. f_equal. apply c_eq; creal; unfold psfBelow; field; lra. Qed.
Lemma psf_neg' M m1 m2 : 0 < M -> cdivM (RtoC 2 * (- (0, momBelow M m1 m2)))%C (RtoC M) = Some (0, - psfBelow M m1 m2).
Proof. intros HM. rewrite cdivM_real by lra. f_equal. apply c_eq; creal; unfold psfBelow; field; lra. Qed.
Lemma Cmod_le1 (x : C) : fst x * fst x + snd x * snd x <= 1 -> Cmod x <= 1.
Proof. intros H. unfold Cmod. rewrite <- sqrt_1. apply sqrt_le_1_alt. replace (fst x ^ 2 + snd x ^ 2) with (fst x * fst x + snd x * snd x) by ring. exact H. Qed.
Lemma nz_sq x : x <> 0 -> 0 < x * x.
Proof. intros H. pose proof (Rsqr_pos_lt _ H) as P. exact P. Qed.
Lemma Cmod_sq_pos (x : C) : x <> RtoC 0 -> 0 < Cmod x * Cmod x.
Proof. intros H. apply Cmod_gt_0 in H. apply Rmult_lt_0_compat; exact H. Qed.
(* two-channel: f = 1 / (B - i (a + b)) *)
Lemma two_channel f B a b : 0 < a + b -> (f * (RtoC B - Ci * RtoC (a + b)))%C = RtoC 1 ->
  Cmod (Smat a f) * Cmod (Smat a f) + 4 * a * b * (Cmod f * Cmod f) = 1 /\ snd f = (a + b) * (Cmod f * Cmod f).
Proof.
  intros H E. destruct f as [x y]. pose proof (f_equal fst E) as E1. pose proof (f_equal snd E) as E2. revert E1 E2. rewrite !Cmod_sq. creal. intros E1 E2.
  assert (x * B + y * (a + b) = 1) as F1 by lra. assert (y * B - x * (a + b) = 0) as F2 by lra. clear E E1 E2.
  assert ((x * x + y * y) * (a + b) = y) as K.
  { replace y with (y * (x * B + y * (a + b)) - x * (y * B - x * (a + b))) at 3 by (rewrite F1, F2; ring). ring. }
  split; [|lra]. ring_simplify. 
  replace (4 * a ^ 2 * x ^ 2 + 4 * a ^ 2 * y ^ 2 + 4 * a * x ^ 2 * b + 4 * a * y ^ 2 * b - 4 * a * y + 1) with (1 + 4 * a * ((x * x + y * y) * (a + b) - y)) by ring.
  rewrite K. ring.
Qed.

(* the AMP parametrisations *)
Lemma bmc_some M m : 0 < M -> 0 <= m -> exists q : C, breakupMomentumComplex M m m = Some q /\ (2 * m < M -> q = (mom M m m, 0)).
Proof.
  intros HM H. destruct (Rle_dec (2 * m) M) as [L|L].
  - exists (mom M m m, 0). split; [apply bmc_above; lra|reflexivity].
  - exists (0, momBelow M m m). split; [apply bmc_below; try lra; rewrite Rminus_eq_0, Rabs_R0; lra|lra].
Qed.
Lemma cdivM_real_some (x : C) M : 0 < M -> exists r, cdivM x (RtoC M) = Some r.
Proof. intros H. rewrite cdivM_real by lra. eexists; reflexivity. Qed.
Definition ampSP (p : ampPars) : Prop := apSP p 0 = - 74 / 10000 /\ apSP p 1 = 9828 / 10000.
Lemma shifted_cases p M : ampSP p -> 0 < M ->
  let m := shiftedMass p M in (m = M \/ m = M + 1 / 1000000) /\ (1 / 1000000 <= Rabs (M * M - 9828 / 10000) -> m = M) /\ m * m - 9828 / 10000 <> 0.
Proof.
  intros [_ HS] HM m. unfold m, shiftedMass, rltb. rewrite HS. destruct (Rlt_dec (Rabs (M * M - 9828 / 10000)) (1 / 1000000)) as [L|L].
  - split; [auto|]. split; [lra|]. apply Rabs_def2 in L. assert (9 / 10 < M) by nra. apply Rgt_not_eq. 
    replace ((M + 1 / 1000000) * (M + 1 / 1000000) - 9828 / 10000) with (M * M - 9828 / 10000 + 2 / 1000000 * M + 1 / 1000000000000) by field. lra.
  - split; [auto|]. split; [reflexivity|]. intros E. apply L. rewrite E, Rabs_R0. lra.
Qed.
Lemma Mdiag_some p t d m : ampSP p -> 0 < m -> 0 < mK t + mK0 t -> m * m - 9828 / 10000 <> 0 -> exists r, Mdiag p t d m = Some r.
Proof.
  intros [S0 S1] Hm HK HP. unfold Mdiag. rewrite S0, S1.
  rewrite rdiv_some by (apply Rgt_not_eq; apply Rmult_lt_0_compat; lra). cbn [bindM].
  rewrite (rdiv_some 1 (m * m - - 74 / 10000)) by (apply Rgt_not_eq; nra). cbn [bindM].
  rewrite rdiv_some by exact HP. cbn [bindM]. eexists; reflexivity.
Qed.
Definition ampRho (p : ampPars) (t : tableMasses) (m : R) : R :=
  if apVes p then psf m (mPi t) (mPi t) else (psf m (mPi t) (mPi t) + psf m (mPi0 t) (mPi0 t)) / 2.
Lemma rhoDiag_some p t m : 0 <= mPi t -> 0 <= mPi0 t -> 0 <= mK t -> 0 <= mK0 t -> 2 * mPi t < m -> 2 * mPi0 t < m ->
  exists r1, rhoDiag p t m = Some (RtoC (ampRho p t m), r1) /\ 0 < ampRho p t m /\ (2 * mK t < m -> 2 * mK0 t < m -> 0 < fst r1).
Proof.
  intros A B K K0 HA HB. assert (0 < m) as Hm by lra.
  pose proof (psf_pos m (mPi t) (mPi t) A A ltac:(lra)) as PA. pose proof (psf_pos m (mPi0 t) (mPi0 t) B B ltac:(lra)) as PB.
  unfold rhoDiag. rewrite (bmc_above m (mPi t)), (bmc_above m (mPi0 t)) by lra. cbn [bindM].
  destruct (bmc_some m (mK t) Hm K) as (qK & EK & FK). destruct (bmc_some m (mK0 t) Hm K0) as (qK0 & EK0 & FK0).
  assert (0 <= (mK t + mK0 t) / 2) as KM by lra. destruct (bmc_some m _ Hm KM) as (qM & EM & FM).
  rewrite EK, EK0, EM. cbn [bindM]. unfold ampRho. destruct (apVes p).
  - rewrite psf_above' by lra. cbn [bindM]. destruct (cdivM_real_some (RtoC 2 * (if rltb 0 (snd qM) then (- qM)%C else qM))%C m Hm) as (r1 & E1).
    rewrite E1. cbn [bindM]. exists r1. split; [reflexivity|]. split; [exact PA|]. intros L1 L2. rewrite FM in E1 by lra. cbn [snd] in E1.
    unfold rltb in E1. destruct (Rlt_dec 0 0); [lra|]. rewrite psf_above' in E1 by lra. injection E1 as <-. cbn [fst RtoC]. apply psf_pos; lra.
  - rewrite !psf_above' by lra. cbn [bindM]. destruct (cdivM_real_some (RtoC 2 * qK)%C m Hm) as (rK & E1). destruct (cdivM_real_some (RtoC 2 * qK0)%C m Hm) as (rK0 & E2).
    rewrite E1, E2. cbn [bindM]. eexists. split; [f_equal; f_equal; apply c_eq; unfold Cdiv, Cinv; creal; field|]. split; [lra|].
    intros L1 L2. rewrite FK in E1 by lra. rewrite FK0 in E2 by lra. rewrite psf_above' in E1, E2 by lra. injection E1 as <-. injection E2 as <-.
    pose proof (psf_pos m (mK t) (mK t) K K ltac:(lra)) as PK. pose proof (psf_pos m (mK0 t) (mK0 t) K0 K0 ltac:(lra)) as PK0.
    unfold Cdiv, Cinv. creal. match goal with |- 0 < ?x => replace x with ((psf m (mK t) (mK t) + psf m (mK0 t) (mK0 t)) / 2) by field end. lra.
Qed.
Lemma invertDiag_cases d0 d1 T : d0 <> RtoC 0 ->
  (d1 <> RtoC 0 -> (fst (invertDiag d0 d1 T) * d0)%C = RtoC 1) /\ (d1 = RtoC 0 -> invertDiag d0 d1 T = T).
Proof.
  intros H. destruct (cdivM_some (RtoC 1) d0 H) as (a & E & F). unfold invertDiag. rewrite E. split.
  - intros H1. destruct (cdivM_some (RtoC 1) d1 H1) as (b & E1 & F1). rewrite E1. exact F.
  - intros ->. rewrite cdivM_none. reflexivity.
Qed.
Lemma ceq_dec (x : C) : x = RtoC 0 \/ x <> RtoC 0.
Proof. destruct (Ceq_dec x (RtoC 0)); auto. Qed.
Lemma piPiSWave_some p t T M : ampSP p -> 0 <= mPi t -> 0 <= mPi0 t -> 0 < mK t -> 0 < mK0 t -> 2 * mPi t < M -> 2 * mPi0 t < M ->
  let m := shiftedMass p M in
  exists T', piPiSWave p t T M = Some (T', fst T') /\ (elastic (ampRho p t m) (fst T') \/ T' = T) /\ (2 * mK t < M -> 2 * mK0 t < M -> elastic (ampRho p t m) (fst T')) /\
    exists k, Mdiag p t 0 m = Some k /\ (2 * mK t < M -> 2 * mK0 t < M -> (fst T' * (RtoC k - Ci * RtoC (ampRho p t m)))%C = RtoC 1) /\
      (T' <> T -> (fst T' * (RtoC k - Ci * RtoC (ampRho p t m)))%C = RtoC 1).
Proof.
  intros SP A B K K0 HA HB m. assert (0 < M) as HM by lra. destruct (shifted_cases p M SP HM) as (C1 & _ & C3). fold m in C1, C3.
  assert (M <= m) as LM by (destruct C1; lra). unfold piPiSWave. fold m.
  destruct (rhoDiag_some p t m A B (Rlt_le _ _ K) (Rlt_le _ _ K0)) as (r1 & ER & PR & PK); try lra. rewrite ER. cbn [bindM].
  destruct (Mdiag_some p t 0 m SP) as (M0 & E0); try lra. destruct (Mdiag_some p t 1 m SP) as (M1 & E1); try lra. rewrite E0, E1. cbn [bindM fst snd].
  set (d0 := (RtoC M0 - Ci * RtoC (ampRho p t m))%C). set (d1 := (RtoC M1 - Ci * r1)%C).
  assert (d0 <> RtoC 0) as N0 by (apply cnz; right; unfold d0; creal; lra).
  destruct (invertDiag_cases d0 d1 T N0) as [I1 I2]. eexists. split; [reflexivity|].
  assert (d1 <> RtoC 0 -> elastic (ampRho p t m) (fst (invertDiag d0 d1 T))) as X.
  { intros N1. apply (elastic_inv _ _ d0 1); [exact N0|exact (I1 N1)|]. unfold d0. creal. ring. }
  assert (2 * mK t < M -> 2 * mK0 t < M -> d1 <> RtoC 0) as Y.
  { intros L1 L2. apply cnz. right. unfold d1. creal. pose proof (PK ltac:(lra) ltac:(lra)). lra. }
  split; [|split; [|exists M0; split; [reflexivity|split]]].
  - destruct (ceq_dec d1) as [Z|Z]; [right; exact (I2 Z)|left; exact (X Z)].
  - intros L1 L2. exact (X (Y L1 L2)).
  - intros L1 L2. exact (I1 (Y L1 L2)).
  - intros NT. destruct (ceq_dec d1) as [Z|Z]; [exfalso; exact (NT (I2 Z))|exact (I1 Z)].
Qed.
Lemma Cmod_expI x : Cmod (expI x) = 1.
Proof. apply Cmod_one. cbn [expI fst snd]. pose proof (sin2_cos2 x) as H. unfold Rsqr in H. lra. Qed.
Lemma phase_shift x : (RtoC 1 + RtoC 2 * Ci * (RtoC (sin x) * expI x))%C = expI (2 * x).
Proof.
  pose proof (sin2_cos2 x) as H. unfold Rsqr in H. apply c_eq; unfold expI; creal; rewrite ?cos_2a, ?sin_2a; [|ring].
  replace 1 with (sin x * sin x + cos x * cos x) at 1 by lra. ring.
Qed.
Lemma Rabs_sin_le x : Rabs (sin x) <= 1.
Proof. apply Rabs_le. pose proof (SIN_bound x). lra. Qed.
Lemma Cmult_reg_r (z x y : C) : z <> RtoC 0 -> (x * z)%C = (y * z)%C -> x = y.
Proof. intros H E. rewrite <- (Cmult_1_r x), <- (Cmult_1_r y), <- (Cinv_r z H), !Cmult_assoc, E. reflexivity. Qed.
Lemma atanDiv_spec x y d : atanDiv x y = Some d -> sin d * y = cos d * x.
Proof.
  unfold atanDiv. destruct (Req_EM_T y 0) as [-> |H].
  - destruct (Rlt_dec 0 x); [|destruct (Rlt_dec x 0); [|discriminate]]; intros E; injection E as <-; rewrite ?cos_neg, cos_PI2; ring.
  - intros E. injection E as <-. pose proof (atan_bound (x / y)) as B. pose proof (cos_gt_0 (atan (x / y)) ltac:(lra) ltac:(lra)) as P.
    pose proof (tan_atan (x / y)) as T. unfold tan in T. set (c := cos (atan (x / y))) in *. set (z := sin (atan (x / y))) in *.
    assert (z = x / y * c) as -> by (rewrite <- T; field; lra). field. exact H.
Qed.
Lemma two_channel_K r1 r2 K11 K12 K22 : 0 < r1 -> 0 <= r2 ->
  exists f x, cdivM (RtoC K11 - Ci * RtoC r2 * (RtoC K11 * RtoC K22 - RtoC K12 * RtoC K12))%C
      (RtoC 1 - Ci * RtoC r1 * RtoC K11 - Ci * RtoC r2 * RtoC K22 - RtoC r1 * RtoC r2 * (RtoC K11 * RtoC K22 - RtoC K12 * RtoC K12))%C = Some f /\
    f = (RtoC K11 + Ci * (RtoC K11 * RtoC r1 * f + RtoC K12 * RtoC r2 * x))%C /\ x = (RtoC K12 + Ci * (RtoC K12 * RtoC r1 * f + RtoC K22 * RtoC r2 * x))%C /\
    Cmod (Smat r1 f) * Cmod (Smat r1 f) + 4 * r1 * r2 * (Cmod x * Cmod x) = 1.
Proof.
  intros R1 R2. set (N := (RtoC K11 - _)%C). set (D := (RtoC 1 - _ - _ - _)%C). set (det := K11 * K22 - K12 * K12).
  assert (fst D = 1 - r1 * r2 * det) as D1 by (unfold D, det; creal; ring).
  assert (snd D = - (r1 * K11 + r2 * K22)) as D2 by (unfold D; creal; ring).
  assert (D <> RtoC 0) as ND.
  { apply cnz. rewrite D1, D2. destruct (Req_dec (r1 * K11 + r2 * K22) 0) as [Z|Z]; [left|right; lra].
    unfold det. assert (r2 * K22 = - (r1 * K11)) as Y by lra.
    replace (r1 * r2 * (K11 * K22 - K12 * K12)) with (r1 * K11 * (r2 * K22) - r1 * r2 * (K12 * K12)) by ring. rewrite Y.
    assert (0 <= r1 * r2 * (K12 * K12)) by (apply Rmult_le_pos; nra). nra. }
  destruct (cdivM_some N D ND) as (f & E & F). destruct (cdivM_some (RtoC K12) D ND) as (x & _ & G). exists f, x. split; [exact E|].
  split; [|split].
  { apply (Cmult_reg_r D _ _ ND). replace ((RtoC K11 + Ci * (RtoC K11 * RtoC r1 * f + RtoC K12 * RtoC r2 * x)) * D)%C with (RtoC K11 * D + Ci * (RtoC K11 * RtoC r1 * (f * D) + RtoC K12 * RtoC r2 * (x * D)))%C by ring.
    rewrite F, G. unfold N, D. apply c_eq; creal; ring. }
  { apply (Cmult_reg_r D _ _ ND). replace ((RtoC K12 + Ci * (RtoC K12 * RtoC r1 * f + RtoC K22 * RtoC r2 * x)) * D)%C with (RtoC K12 * D + Ci * (RtoC K12 * RtoC r1 * (f * D) + RtoC K22 * RtoC r2 * (x * D)))%C by ring.
    rewrite F, G. unfold N, D. apply c_eq; creal; ring. }
  pose proof (Cmod_sq_pos D ND) as PD. apply (Rmult_eq_reg_r (Cmod D * Cmod D)); [|lra].
  replace ((Cmod (Smat r1 f) * Cmod (Smat r1 f) + 4 * r1 * r2 * (Cmod x * Cmod x)) * (Cmod D * Cmod D))
    with ((Cmod (Smat r1 f) * Cmod D) * (Cmod (Smat r1 f) * Cmod D) + 4 * r1 * r2 * ((Cmod x * Cmod D) * (Cmod x * Cmod D))) by ring.
  rewrite <- (Cmod_mult (Smat r1 f) D), <- (Cmod_mult x D), G. replace (Smat r1 f * D)%C with (D + RtoC 2 * Ci * RtoC r1 * (f * D))%C by (unfold Smat; ring). rewrite F.
  rewrite !Cmod_sq. unfold N, D. creal. ring.
Qed.
Lemma last_default {A} (l : list A) a b : l <> nil -> last l a = last l b.
Proof. induction l as [|x l IH]; [congruence|]. intros _. destruct l; [reflexivity|]. cbn [last]. apply IH. congruence. Qed.
Lemma increasing_last a l : increasing (a :: l) -> l <> nil -> a < last l a.
Proof.
  revert a. induction l as [|b l IH]; [congruence|]. intros a H _. inversion H as [| |? ? ? L I]; subst. destruct l as [|c l]; [exact L|].
  change (last (b :: c :: l) a) with (last (c :: l) a). rewrite (last_default (c :: l) a b) by congruence. pose proof (IH b I ltac:(congruence)). lra.
Qed.
Lemma expI_add x y : expI (x + y) = (expI x * expI y)%C.
Proof. apply c_eq; unfold expI; creal; [rewrite cos_plus|rewrite sin_plus]; ring. Qed.
