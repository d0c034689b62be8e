(* C75: mirrored momenta, their angles, and the frames of a mirrored event. *)
From Coq Require Import ZArith Reals List Bool Lia Lra Psatz.
From Coquelicot Require Import Complex.
From Verif Require Import SpinSpec CGBoxModel CGProofs DFuncSpec DFuncProofs PhysModel PhaseModel PhaseSpec PhaseProofs FrameModel FrameSpec FrameProofs FrameProofs2 FrameProofs3 FrameProofs4 FrameProps FrameProps2 AmpModel AmpSpec AmpProofs AmpProofs2 AmpProofs3 AmpProofs4 ParityProofs.
Import ListNotations.
Open Scope R_scope.

(* mirror: the signs of the three components *)
Record sgn3 := S3 { s1 : bool; s2 : bool; s3 : bool }.   (* true: the component changes its sign *)
Definition sg (b : bool) : R := if b then -1 else 1.
Definition mir (K : sgn3) (p : lv) : lv := Lv (sg (s1 K) * lx p) (sg (s2 K) * ly p) (sg (s3 K) * lz p) (lt p).
Definition KI := S3 true true true.
Definition KX := S3 true false false.
Definition KY := S3 false true false.
Lemma sg_sq b : sg b * sg b = 1. Proof. destruct b; unfold sg; ring. Qed.
Lemma mir_I p : mir KI p = spaceInvert p.
Proof. unfold mir, spaceInvert, KI, sg. cbn. apply lv_eq; ring. Qed.
Lemma mir_Y p : mir KY p = reflectY p.
Proof. unfold mir, reflectY, KY, sg. cbn. apply lv_eq; ring. Qed.
Lemma mir_mir K p : mir K (mir K p) = p.
Proof. destruct p as [x y z t], K as [[] [] []]; unfold mir, sg; cbn [lx ly lz lt s1 s2 s3]; apply lv_eq; ring. Qed.
Lemma mir_mink K p q : mink (mir K p) (mir K q) = mink p q.
Proof. destruct K as [[] [] []]; unfold mink, mir, sg; cbn [lx ly lz lt s1 s2 s3]; ring. Qed.
Lemma mir_add K : additive (mir K).
Proof. intros p q. unfold mir, lvAdd. cbn [lx ly lz lt]. apply lv_eq; ring. Qed.
Lemma mir_lvM K p : lvM (mir K p) = lvM p.
Proof. unfold lvM. replace (lvM2 (mir K p)) with (lvM2 p); [reflexivity|]. exact (eq_sym (mir_mink K p p)). Qed.
Lemma mir_norm K p : norm3 (vect (mir K p)) = norm3 (vect p).
Proof. unfold norm3. f_equal. destruct K as [[] [] []]; unfold mir, vect, sg; cbn [lx ly lz lt s1 s2 s3 vx vy vz]; ring. Qed.
Lemma mir_massive K M p : massive M p -> massive M (mir K p).
Proof. intros H. apply massive_iff in H. destruct H as (A & B & E). apply massive_iff. rewrite mir_mink. auto. Qed.

(* ---- angles ---- *)
Lemma reqb_opp x : reqb (- x) 0 = reqb x 0.
Proof. unfold reqb. destruct (Req_EM_T (- x) 0), (Req_EM_T x 0); try reflexivity; lra. Qed.
Lemma reqb_sg b x : reqb (sg b * x) 0 = reqb x 0.
Proof. destruct b; unfold sg; [replace (-1 * x) with (- x) by ring; apply reqb_opp|now rewrite Rmult_1_l]. Qed.
Lemma mir_perp K p : vPerp (vect (mir K p)) = vPerp (vect p).
Proof. unfold vPerp. f_equal. destruct K as [[] [] []]; unfold mir, vect, sg; cbn [lx ly lz lt s1 s2 s3 vx vy vz]; ring. Qed.
Lemma theta_same K p : s3 K = false -> thetaOf (mir K p) = thetaOf p.
Proof.
  intros E. unfold thetaOf, vTheta. rewrite mir_perp. unfold mir, vect. cbn [lx ly lz vx vy vz]. rewrite !reqb_sg, E. unfold sg. now rewrite Rmult_1_l.
Qed.
Lemma theta_turned K p : s3 K = true -> norm3 (vect p) <> 0 -> thetaOf (mir K p) = PI - thetaOf p.
Proof.
  intros E N. unfold thetaOf, vTheta. rewrite mir_perp.
  assert (reqb (vx (vect p)) 0 && reqb (vy (vect p)) 0 && reqb (vz (vect p)) 0 = false) as NZ.
  { unfold reqb. destruct (Req_EM_T (vx (vect p)) 0) as [E1|]; [|reflexivity]. destruct (Req_EM_T (vy (vect p)) 0) as [E2|]; [|reflexivity].
    destruct (Req_EM_T (vz (vect p)) 0) as [E3|]; [|reflexivity]. exfalso. apply N. unfold norm3. rewrite E1, E2, E3.
    replace (0 * 0 + 0 * 0 + 0 * 0) with 0 by ring. apply sqrt_0. }
  assert (reqb (vx (vect (mir K p))) 0 && reqb (vy (vect (mir K p))) 0 && reqb (vz (vect (mir K p))) 0 = false) as NZ'.
  { rewrite <- NZ. unfold mir, vect. cbn [lx ly lz vx vy vz]. now rewrite !reqb_sg. }
  rewrite NZ, NZ'. clear NZ'. assert (vz (vect (mir K p)) = - vz (vect p)) as -> by (unfold mir, vect; cbn [lz vz]; rewrite E; unfold sg; ring).
  pose proof (perp_pos (vect p)) as PP. set (r := vPerp (vect p)) in *. set (z := vz (vect p)) in *.
  unfold atan2, rltb. destruct (Rlt_dec r 0) as [?|_]; [lra|].
  destruct (Rlt_dec 0 z) as [A|A].
  { destruct (Rlt_dec 0 (- z)); [lra|]. destruct (Rlt_dec (- z) 0); [|lra]. replace (r / - z) with (- (r / z)) by (field; lra). rewrite atan_opp. ring. }
  destruct (Rlt_dec z 0) as [B|B].
  { destruct (Rlt_dec 0 (- z)); [|lra]. replace (r / - z) with (- (r / z)) by (field; lra). rewrite atan_opp. ring. }
  destruct (Rlt_dec 0 (- z)); [lra|]. destruct (Rlt_dec (- z) 0); [lra|]. destruct (Rlt_dec 0 r) as [?|Nr]; [lra|].
  exfalso. apply N. pose proof (perp_sq (vect p)) as Q. fold r in Q. assert (r = 0) as R0 by lra. assert (z = 0) as Z0 by lra.
  unfold norm3. fold z. rewrite Z0. replace (vx (vect p) * vx (vect p) + vy (vect p) * vy (vect p) + 0 * 0) with (r * r) by lra. rewrite R0, Rmult_0_l. apply sqrt_0.
Qed.
Lemma expI_add x y : expI (x + y) = (expI x * expI y)%C.
Proof. unfold expI. rewrite cos_plus, sin_plus. apply c_eq; unfold Cmult; cbn [fst snd]; ring. Qed.
Lemma expI_0 : expI 0 = RtoC 1.
Proof. unfold expI. now rewrite cos_0, sin_0. Qed.
Lemma expI_opp x : expI (- x) = Cconj (expI x).
Proof. unfold expI, Cconj. cbn [fst snd]. now rewrite cos_neg, sin_neg. Qed.
Lemma expI_mult k x y : expI x = expI y -> expI (IZR k * x) = expI (IZR k * y).
Proof.
  intros E. assert (forall n : nat, expI (INR n * x) = expI (INR n * y)) as H.
  { induction n as [|n IH]; [cbn [INR]; now rewrite !Rmult_0_l|]. rewrite S_INR, !Rmult_plus_distr_r, !expI_add, IH, !Rmult_1_l. now rewrite E. }
  destruct (Z_le_dec 0 k) as [P|P].
  - specialize (H (Z.to_nat k)). rewrite INR_IZR_INZ, Z2Nat.id in H by lia. exact H.
  - specialize (H (Z.to_nat (- k))). rewrite INR_IZR_INZ, Z2Nat.id in H by lia. rewrite opp_IZR in H.
    replace (IZR k * x) with (- (- IZR k * x)) by ring. replace (IZR k * y) with (- (- IZR k * y)) by ring. now rewrite !expI_opp, H.
Qed.
Lemma expI_kpi k : expI (IZR k * PI) = RtoC (IZR (minusOnePow k)).
Proof.
  assert (forall n : nat, expI (INR n * PI) = RtoC (IZR (minusOnePow (Z.of_nat n)))) as H.
  { induction n as [|n IH]; [cbn [INR]; rewrite Rmult_0_l; apply expI_0|]. rewrite S_INR, Rmult_plus_distr_r, Rmult_1_l, expI_add, IH.
    rewrite Nat2Z.inj_succ, <- Z.add_1_r, mop_add, mult_IZR. change (minusOnePow 1) with (-1)%Z. unfold expI. rewrite cos_PI, sin_PI.
    apply c_eq; unfold Cmult, RtoC; cbn [fst snd]; ring. }
  destruct (Z_le_dec 0 k) as [P|P].
  - specialize (H (Z.to_nat k)). rewrite INR_IZR_INZ, Z2Nat.id in H by lia. exact H.
  - specialize (H (Z.to_nat (- k))). rewrite INR_IZR_INZ, Z2Nat.id, mop_opp in H by lia. rewrite opp_IZR in H.
    replace (IZR k * PI) with (- (- IZR k * PI)) by ring. rewrite expI_opp, H. apply c_eq; unfold Cconj, RtoC; cbn [fst snd]; ring.
Qed.
Definition offAxis (p : lv) : Prop := lx p <> 0 \/ ly p <> 0.
Lemma offAxis_perp p : offAxis p -> vPerp (vect p) <> 0.
Proof.
  intros H E. pose proof (perp_sq (vect p)) as Q. rewrite E, Rmult_0_l in Q. symmetry in Q. apply sum2_zero in Q. unfold vect in Q. cbn [vx vy] in Q. destruct H; tauto.
Qed.
Lemma expI_phi p : offAxis p -> expI (phiOf p) = (lx p / vPerp (vect p), ly p / vPerp (vect p)).
Proof.
  intros H. pose proof (offAxis_perp p H). destruct (phi_spec (vect p)) as [A B]. change (vx (vect p)) with (lx p) in A. change (vy (vect p)) with (ly p) in B. unfold expI, phiOf. rewrite <- A, <- B at 1.
  apply c_eq; cbn [fst snd]; field; assumption.
Qed.
Lemma mir_offAxis K p : offAxis p -> offAxis (mir K p).
Proof. intros H. unfold offAxis, mir, sg in *. cbn [lx ly]. destruct (s1 K), (s2 K); lra. Qed.
(* phi of a mirrored momentum *)
Lemma phi_onAxis p : ~ offAxis p -> phiOf p = 0.
Proof.
  intros H. unfold phiOf, vPhi, reqb, vect. cbn [vx vy]. unfold offAxis in H. destruct (Req_EM_T (lx p) 0); [|tauto]. destruct (Req_EM_T (ly p) 0); [reflexivity|tauto].
Qed.
Lemma offAxis_dec p : offAxis p \/ ~ offAxis p.
Proof. unfold offAxis. destruct (Req_EM_T (lx p) 0), (Req_EM_T (ly p) 0); lra. Qed.
Lemma expI_phi_Y p : expI (phiOf (mir KY p)) = expI (- phiOf p).
Proof.
  destruct (offAxis_dec p) as [H|H].
  - rewrite expI_opp, expI_phi, expI_phi, mir_perp by (try apply mir_offAxis; exact H). pose proof (offAxis_perp p H). unfold mir, KY, sg, Cconj. cbn [s1 s2 s3 lx ly fst snd]. apply c_eq; cbn [fst snd]; field; assumption.
  - assert (~ offAxis (mir KY p)) as H' by (intros N; apply H; apply (mir_offAxis KY) in N; now rewrite mir_mir in N). rewrite !phi_onAxis by assumption. now rewrite Ropp_0.
Qed.
Lemma expI_phi_X p : offAxis p -> expI (phiOf (mir KX p)) = expI (PI + - phiOf p).
Proof.
  intros H. rewrite expI_add, expI_opp, expI_phi, expI_phi, mir_perp by (try apply mir_offAxis; exact H). pose proof (offAxis_perp p H).
  unfold mir, KX, sg, Cconj, expI. rewrite cos_PI, sin_PI. cbn [s1 s2 s3 lx ly fst snd]. apply c_eq; unfold Cmult; cbn [fst snd]; field; assumption.
Qed.
Lemma expI_phi_I p : offAxis p -> expI (phiOf (mir KI p)) = expI (PI + phiOf p).
Proof.
  intros H. rewrite expI_add, expI_phi, expI_phi, mir_perp by (try apply mir_offAxis; exact H). pose proof (offAxis_perp p H).
  unfold mir, KI, sg, expI. rewrite cos_PI, sin_PI. cbn [s1 s2 s3 lx ly fst snd]. apply c_eq; unfold Cmult; cbn [fst snd]; field; assumption.
Qed.
Lemma offAxis_norm p : offAxis p -> norm3 (vect p) <> 0.
Proof. intros H E. apply norm3_zero in E. unfold vect in E. cbn [vx vy] in E. destruct H; tauto. Qed.

(* ---- the D function of a mirrored momentum, for integer spin (M = 2 k, n = 2 k') ---- *)
Definition sz (k : Z) : C := RtoC (IZR (minusOnePow k)).
Lemma sz_add a b : sz (a + b) = (sz a * sz b)%C.
Proof. unfold sz. now rewrite mop_add, mult_IZR, RtoC_mult. Qed.
Lemma half_even M : Z.even M = true -> exists k, M = (2 * k)%Z.
Proof. intros H. apply Z.even_spec in H. exact H. Qed.
Lemma IZR_half k x : IZR (2 * k) / 2 * x = IZR k * x.
Proof. rewrite mult_IZR. field. Qed.
Lemma half_k k : (2 * k / 2)%Z = k. Proof. now apply hf. Qed.
Lemma Dconj_Y J M n p : Z.even M = true -> isProjOf J M -> isProjOf J n ->
  Dconj J M n (phiOf (mir KY p)) (thetaOf (mir KY p)) = (sz ((M - n) / 2) * Dconj J (- M) (- n) (phiOf p) (thetaOf p))%C.
Proof.
  intros EM HM Hn. rewrite theta_same by reflexivity. unfold Dconj. rewrite wignerD_neg by assumption. apply half_even in EM. destruct EM as (k & ->).
  replace (- (2 * k))%Z with (2 * - k)%Z by lia. rewrite !IZR_half, (expI_mult k _ _ (expI_phi_Y p)).
  replace (IZR k * - phiOf p) with (IZR (- k) * phiOf p) by (rewrite opp_IZR; ring). unfold sz.
  set (w := wignerD J (2 * k) n (thetaOf p)). rewrite RtoC_mult.
  assert (RtoC (IZR (minusOnePow ((2 * k - n) / 2))) * RtoC (IZR (minusOnePow ((2 * k - n) / 2))) = RtoC 1)%C as S by (rewrite <- RtoC_mult, <- mult_IZR, mop_sq; reflexivity).
  transitivity (expI (IZR (- k) * phiOf p) * (RtoC 1 * RtoC w))%C; [ring|rewrite <- S; ring].
Qed.
Lemma Dconj_X J M n p : Z.even M = true -> offAxis p -> isProjOf J M -> isProjOf J n ->
  Dconj J M n (phiOf (mir KX p)) (thetaOf (mir KX p)) = (sz (M / 2) * sz ((M - n) / 2) * Dconj J (- M) (- n) (phiOf p) (thetaOf p))%C.
Proof.
  intros EM HO HM Hn. rewrite theta_same by reflexivity. unfold Dconj. rewrite wignerD_neg by assumption. apply half_even in EM. destruct EM as (k & ->).
  replace (- (2 * k))%Z with (2 * - k)%Z by lia. rewrite !IZR_half, (expI_mult k _ _ (expI_phi_X p HO)), half_k.
  replace (IZR k * (PI + - phiOf p)) with (IZR k * PI + IZR (- k) * phiOf p) by (rewrite opp_IZR; ring). rewrite expI_add, expI_kpi. fold (sz k).
  set (w := wignerD J (2 * k) n (thetaOf p)). rewrite RtoC_mult. unfold sz at 3.
  assert (RtoC (IZR (minusOnePow ((2 * k - n) / 2))) * RtoC (IZR (minusOnePow ((2 * k - n) / 2))) = RtoC 1)%C as S by (rewrite <- RtoC_mult, <- mult_IZR, mop_sq; reflexivity).
  transitivity (sz k * expI (IZR (- k) * phiOf p) * (RtoC 1 * RtoC w))%C; [ring|rewrite <- S; ring].
Qed.
Lemma Dconj_I J M n p : Z.even J = true -> Z.even M = true -> offAxis p -> isProjOf J M -> isProjOf J n ->
  Dconj J M n (phiOf (mir KI p)) (thetaOf (mir KI p)) = (sz (J / 2) * Dconj J M (- n) (phiOf p) (thetaOf p))%C.
Proof.
  intros EJ EM HO HM Hn. rewrite theta_turned by (try reflexivity; now apply offAxis_norm). unfold Dconj. rewrite wignerD_pi by assumption.
  apply half_even in EM. destruct EM as (k & ->). apply half_even in EJ. destruct EJ as (j & ->).
  rewrite !IZR_half, (expI_mult k _ _ (expI_phi_I p HO)), half_k. replace (2 * j + 2 * k)%Z with (2 * (j + k))%Z by lia. rewrite half_k.
  replace (IZR k * (PI + phiOf p)) with (IZR k * PI + IZR k * phiOf p) by ring. rewrite expI_add, expI_kpi, mop_add, mult_IZR, !RtoC_mult. fold (sz k). fold (sz j).
  assert (sz k * sz k = RtoC 1)%C as S by (unfold sz; rewrite <- RtoC_mult, <- mult_IZR, mop_sq; reflexivity).
  transitivity ((sz k * sz k) * sz j * expI (IZR k * phiOf p) * RtoC (wignerD (2 * j) (2 * k) (- n) (thetaOf p)))%C; [ring|rewrite S; ring].
Qed.
