(* C75: two-body amplitudes and decay amplitudes for mirrored momenta. *)
From Coq Require Import ZArith Reals List Bool Lia Lra Psatz Permutation.
From Coquelicot Require Import Complex.
From Verif Require Import SpinSpec CGSpec CGBoxModel CGProofs CGValProofs DFuncSpec DFuncProofs PhysModel PhaseModel PhaseSpec PhaseProofs FrameModel FrameSpec FrameProofs FrameProofs2 FrameProofs3 FrameProofs4 FrameProps FrameProps2 AmpModel AmpSpec AmpProofs AmpProofs2 AmpProofs3 AmpProofs4 AmpProps ParityProofs ParityProofs2 ParityProofs3.
Import ListNotations.
Open Scope C_scope.

(* ---- sums and signs ---- *)
Lemma csum_perm {A} (l l' : list A) f : Permutation l l' -> csum l f = csum l' f.
Proof.
  unfold csum. induction 1; cbn; [reflexivity|now rewrite IHPermutation| |congruence]. ring.
Qed.
Lemma projections_iff j m : (0 <= j)%Z -> In m (projections j) <-> isProjOf j m.
Proof.
  intros Hj. split; [apply projections_in|]. intros (_ & k & Hk & ->). unfold projections. apply in_map_iff. exists (Z.to_nat k). split; [lia|]. apply in_seq. lia.
Qed.
Lemma projections_nodup j : NoDup (projections j).
Proof. unfold projections. apply FinFun.Injective_map_NoDup; [intros x y; lia|apply seq_NoDup]. Qed.
Lemma csum_neg j (F : Z -> C) : (0 <= j)%Z -> csum (projections j) F = csum (projections j) (fun m => F (- m)%Z).
Proof.
  intros Hj. rewrite <- (csum_map (projections j) Z.opp F). apply csum_perm. apply NoDup_Permutation; [apply projections_nodup| |].
  - apply FinFun.Injective_map_NoDup; [intros x y; lia|apply projections_nodup].
  - intros m. rewrite in_map_iff, projections_iff by exact Hj. split.
    + intros H. exists (- m)%Z. split; [lia|]. apply projections_iff; [exact Hj|now apply proj_neg].
    + intros (x & <- & Hx). apply projections_iff in Hx; [|exact Hj]. now apply proj_neg.
Qed.
Lemma sz_sq k : sz k * sz k = RtoC 1.
Proof. unfold sz. rewrite <- RtoC_mult, <- mult_IZR, mop_sq. reflexivity. Qed.
Lemma sz_par x y : Z.even (x - y) = true -> sz x = sz y.
Proof.
  intros H. unfold sz. f_equal. f_equal. unfold minusOnePow. rewrite Z.even_sub in H. destruct (Z.even x), (Z.even y); cbn in H; congruence.
Qed.
Lemma even_2k k : Z.even (2 * k) = true. Proof. now rewrite Z.even_mul. Qed.

(* the reflectivity basis only affects the projection of the parent *)
Lemma reflState_lin J P M rf c F : reflState J P M rf (fun x => c * F x) = c * reflState J P M rf F.
Proof. unfold reflState. ring. Qed.
Lemma reflState_csum {A} J P M rf (l : list A) (F : A -> Z -> C) (y : A -> C) :
  csum l (fun x => reflState J P M rf (F x) * y x) = reflState J P M rf (fun m => csum l (fun x => F x m * y x)).
Proof.
  unfold reflState. induction l as [|x l IH]; cbn; [ring|].
  fold (csum l (fun x => RtoC (reflNorm M) * (F x M - RtoC (reflSign J P M rf) * F x (- M)%Z) * y x)).
  fold (csum l (fun x => F x M * y x)). fold (csum l (fun x => F x (- M)%Z * y x)). rewrite IH. ring.
Qed.
Lemma vertex_core f ps useRefl u top p v a b l l1 l2 :
  gOf f ps useRefl u top p v a b l l1 l2
  = if top && useRefl then reflState (pJ ps p) (pP ps p) l (pRefl ps p) (fun M => gOf f ps useRefl u false p v a b M l1 l2)
    else gOf f ps useRefl u false p v a b l l1 l2.
Proof.
  unfold gOf. cbn [andb]. destruct (top && useRefl); [|reflexivity]. destruct f.
  - unfold helVertexAmp. cbn [andb].
    set (D := fun M => Dconj (pJ ps p) M (l1 - l2) (phiOf (u a)) (thetaOf (u a))). unfold reflState. unfold D. ring.
  - unfold canVertexAmp. rewrite reflState_csum. unfold reflState. ring.
Qed.

Section Vertex.
Variables (ps : parts) (u w : lvs) (p a b : nat) (v : vtx).
Hypothesis EM : lvM (w p) = lvM (u p).

(* helicity formalism *)
Lemma hel_gen K l l1 l2 l' c : w a = mir K (u a) -> w b = mir K (u b) ->
  (isProjOf (pJ ps p) (l1 - l2) -> Dconj (pJ ps p) l (l1 - l2) (phiOf (w a)) (thetaOf (w a)) = c * Dconj (pJ ps p) l' (- (l1 - l2)) (phiOf (u a)) (thetaOf (u a))) ->
  helVertexAmp ps false w p v a b l l1 l2 = c * sz ((vL v + pJ ps a + pJ ps b - pJ ps p) / 2) * helVertexAmp ps false u p v a b l' (- l1) (- l2).
Proof.
  intros Ea Eb HD. unfold helVertexAmp. rewrite EM, Eb, Ea, !mir_lvM, mir_norm, <- Ea.
  replace (- l1 - - l2)%Z with (- (l1 - l2))%Z by lia. set (n := (l1 - l2)%Z) in *.
  pose proof (CG_rev (vL v) 0 (vS v) n (pJ ps p) n) as R1. pose proof (CG_rev (pJ ps a) l1 (pJ ps b) (- l2) (vS v) n) as R2. change (- 0)%Z with 0%Z in R1. rewrite R1, R2.
  destruct (Req_EM_T (CG (vL v) 0 (vS v) n (pJ ps p) n) 0) as [Z1|N1]; [rewrite Z1; rewrite Rmult_0_r; ring|].
  destruct (Req_EM_T (CG (pJ ps a) l1 (pJ ps b) (- l2) (vS v) n) 0) as [Z2|N2]; [rewrite Z2; rewrite Rmult_0_r; ring|].
  apply CG_nz in N1, N2. rewrite HD by apply N1. assert (couples (vL v) (vS v) (pJ ps p)) as C1 by apply N1. assert (couples (pJ ps a) (pJ ps b) (vS v)) as C2 by apply N2. clear HD R1 R2 N1 N2.
  rewrite !RtoC_mult. fold (sz ((vL v + vS v - pJ ps p) / 2)). fold (sz ((pJ ps a + pJ ps b - vS v) / 2)).
  assert (sz ((vL v + pJ ps a + pJ ps b - pJ ps p) / 2) = sz ((vL v + vS v - pJ ps p) / 2) * sz ((pJ ps a + pJ ps b - vS v) / 2)) as ->.
  { destruct C1 as (_ & _ & k & _ & K1 & _), C2 as (_ & _ & k' & _ & K2 & _). rewrite <- sz_add. f_equal.
    assert (exists x, vL v + vS v - pJ ps p = 2 * x)%Z as (x & Ex) by (destruct (Z.abs_eq_or_opp (vL v - vS v)) as [Q|Q]; rewrite Q in K1; [exists (vS v - k)%Z|exists (vL v - k)%Z]; lia).
    assert (exists y, pJ ps a + pJ ps b - vS v = 2 * y)%Z as (y & Ey) by (destruct (Z.abs_eq_or_opp (pJ ps a - pJ ps b)) as [Q|Q]; rewrite Q in K2; [exists (pJ ps b - k')%Z|exists (pJ ps a - k')%Z]; lia).
    rewrite Ex, Ey, !half_k. apply hf. lia. }
  set (A := sz ((vL v + vS v - pJ ps p) / 2)). set (B := sz ((pJ ps a + pJ ps b - vS v) / 2)).
  assert (A * A = RtoC 1) as SA by apply sz_sq. assert (B * B = RtoC 1) as SB by apply sz_sq.
  match goal with |- ?n * (?c * ?D) * ?x * ?y * ?z * ?m = _ => transitivity ((A * A) * (B * B) * (n * c * D * x * y * z * m)); [rewrite SA, SB; ring|ring] end.
Qed.
Lemma proj_even j l : Z.even j = true -> isProjOf j l -> Z.even l = true.
Proof. intros E (_ & k & _ & ->). rewrite Z.even_add, Z.even_opp, E, even_2k. reflexivity. Qed.
Section Even.
Hypotheses (EL : Z.even (vL v) = true) (EJ : Z.even (pJ ps p) = true) (Ea : Z.even (pJ ps a) = true) (Eb : Z.even (pJ ps b) = true).
Lemma hel_Y l l1 l2 : w a = mir KY (u a) -> w b = mir KY (u b) -> isProjOf (pJ ps p) l -> isProjOf (pJ ps a) l1 -> isProjOf (pJ ps b) l2 ->
  helVertexAmp ps false w p v a b l l1 l2
  = sz (vL v / 2) * sz ((pJ ps p - l) / 2) * sz ((pJ ps a - l1) / 2) * sz ((pJ ps b - l2) / 2) * helVertexAmp ps false u p v a b (- l) (- l1) (- l2).
Proof.
  intros Wa Wb Hl H1 H2. assert (Z.even l = true) as X by now apply (proj_even (pJ ps p)). assert (Z.even l1 = true) as X1 by now apply (proj_even (pJ ps a)). assert (Z.even l2 = true) as X2 by now apply (proj_even (pJ ps b)).
  rewrite (hel_gen KY l l1 l2 (- l) (sz ((l - (l1 - l2)) / 2)) Wa Wb) by (intros Hn; rewrite Wa; now apply Dconj_Y).
  rewrite <- !sz_add. f_equal. apply sz_par.
  destruct (half_even _ EL) as (L & ->), (half_even _ EJ) as (J & ->), (half_even _ Ea) as (A & ->), (half_even _ Eb) as (B & ->), (half_even _ X) as (k & ->), (half_even _ X1) as (k1 & ->), (half_even _ X2) as (k2 & ->).
  rewrite (hf (2 * k - (2 * k1 - 2 * k2)) (k - (k1 - k2))), (hf (2 * L + 2 * A + 2 * B - 2 * J) (L + A + B - J)), half_k, (hf (2 * J - 2 * k) (J - k)), (hf (2 * A - 2 * k1) (A - k1)), (hf (2 * B - 2 * k2) (B - k2)) by lia.
  replace (k - (k1 - k2) + (L + A + B - J) - (L + (J - k) + (A - k1) + (B - k2)))%Z with (2 * (k + k2 - J))%Z by lia. apply even_2k.
Qed.
Lemma hel_X l l1 l2 : w a = mir KX (u a) -> w b = mir KX (u b) -> offAxis (u a) -> isProjOf (pJ ps p) l -> isProjOf (pJ ps a) l1 -> isProjOf (pJ ps b) l2 ->
  helVertexAmp ps false w p v a b l l1 l2
  = sz (vL v / 2) * sz (pJ ps p / 2) * sz ((pJ ps a - l1) / 2) * sz ((pJ ps b - l2) / 2) * helVertexAmp ps false u p v a b (- l) (- l1) (- l2).
Proof.
  intros Wa Wb HO Hl H1 H2. assert (Z.even l = true) as X by now apply (proj_even (pJ ps p)). assert (Z.even l1 = true) as X1 by now apply (proj_even (pJ ps a)). assert (Z.even l2 = true) as X2 by now apply (proj_even (pJ ps b)).
  rewrite (hel_gen KX l l1 l2 (- l) (sz (l / 2) * sz ((l - (l1 - l2)) / 2)) Wa Wb) by (intros Hn; rewrite Wa; now apply Dconj_X).
  rewrite <- !sz_add. f_equal. apply sz_par.
  destruct (half_even _ EL) as (L & ->), (half_even _ EJ) as (J & ->), (half_even _ Ea) as (A & ->), (half_even _ Eb) as (B & ->), (half_even _ X) as (k & ->), (half_even _ X1) as (k1 & ->), (half_even _ X2) as (k2 & ->).
  rewrite (hf (2 * k - (2 * k1 - 2 * k2)) (k - (k1 - k2))), (hf (2 * L + 2 * A + 2 * B - 2 * J) (L + A + B - J)), !half_k, (hf (2 * A - 2 * k1) (A - k1)), (hf (2 * B - 2 * k2) (B - k2)) by lia.
  replace (k + (k - (k1 - k2)) + (L + A + B - J) - (L + J + (A - k1) + (B - k2)))%Z with (2 * (k + k2 - J))%Z by lia. apply even_2k.
Qed.
Lemma hel_I l l1 l2 : w a = mir KI (u a) -> w b = mir KI (u b) -> offAxis (u a) -> isProjOf (pJ ps p) l -> isProjOf (pJ ps a) l1 -> isProjOf (pJ ps b) l2 ->
  helVertexAmp ps false w p v a b l l1 l2 = sz (vL v / 2) * sz (pJ ps a / 2) * sz (pJ ps b / 2) * helVertexAmp ps false u p v a b l (- l1) (- l2).
Proof.
  intros Wa Wb HO Hl H1 H2. assert (Z.even l = true) as X by now apply (proj_even (pJ ps p)).
  rewrite (hel_gen KI l l1 l2 l (sz (pJ ps p / 2)) Wa Wb) by (intros Hn; rewrite Wa; now apply Dconj_I).
  rewrite <- !sz_add. f_equal. apply sz_par.
  destruct (half_even _ EL) as (L & ->), (half_even _ EJ) as (J & ->), (half_even _ Ea) as (A & ->), (half_even _ Eb) as (B & ->).
  rewrite (hf (2 * L + 2 * A + 2 * B - 2 * J) (L + A + B - J)), !half_k by lia. replace (J + (L + A + B - J) - (L + A + B))%Z with (2 * 0)%Z by lia. apply even_2k.
Qed.
End Even.

(* canonical formalism *)
Lemma Ylm_D L m theta phi : Ylm L m theta phi = RtoC (sqrt (IZR (L + 1) / (4 * PI))) * Dconj L m 0 phi theta.
Proof. unfold Ylm, Dconj. ring. Qed.
Lemma proj_0 j : (0 <= j)%Z -> Z.even j = true -> isProjOf j 0.
Proof. intros H E. destruct (half_even _ E) as (k & ->). split; [lia|]. exists k. lia. Qed.
Lemma Ylm_Y L m q : (0 <= L)%Z -> Z.even L = true -> isProjOf L m -> Ylm L m (thetaOf (mir KY q)) (phiOf (mir KY q)) = sz (m / 2) * Ylm L (- m) (thetaOf q) (phiOf q).
Proof.
  intros HL E Hm. rewrite !Ylm_D, Dconj_Y; [|now apply (proj_even L)|exact Hm|now apply proj_0]. replace (m - 0)%Z with m by lia. change (- 0)%Z with 0%Z. ring.
Qed.
Lemma bf_0 L q : (0 < L)%Z -> q = 0%R -> barrierFactor L q defaultPr = 0%R.
Proof.
  intros HL ->. unfold barrierFactor. replace (barrierFactorSquared L 0 defaultPr) with 0%R; [apply sqrt_0|]. symmetry.
  unfold barrierFactorSquared. replace (0 * 0 / (defaultPr * defaultPr))%R with 0%R by (unfold Rdiv; ring).
  do 6 (repeat match goal with |- context [match ?x with _ => _ end] => is_var x; destruct x; try reflexivity; try lia end); cbv zeta; unfold Rdiv; ring.
Qed.
Lemma Ylm_I L m q : (0 <= L)%Z -> Z.even L = true -> isProjOf L m ->
  RtoC (barrierFactor L (norm3 (vect q)) defaultPr) * Ylm L m (thetaOf (mir KI q)) (phiOf (mir KI q)) = RtoC (barrierFactor L (norm3 (vect q)) defaultPr) * (sz (L / 2) * Ylm L m (thetaOf q) (phiOf q)).
Proof.
  intros HL E Hm. pose proof (proj_0 _ HL E) as H0. assert (Z.even m = true) as Em by now apply (proj_even L).
  destruct (offAxis_dec q) as [HO|HO].
  { f_equal. rewrite !Ylm_D, Dconj_I by assumption. change (- 0)%Z with 0%Z. ring. }
  destruct (Req_EM_T (norm3 (vect q)) 0) as [EN|NN].
  { destruct (Z.eq_dec L 0) as [->|NL]; [|rewrite bf_0 by (try lia; exact EN); ring]. f_equal.
    assert (m = 0)%Z as -> by (destruct Hm as (_ & k & ? & ->); lia). change (sz (0 / 2)) with (RtoC 1). rewrite !Ylm_D. unfold Dconj. rewrite !wignerD_000.
    replace (IZR 0 / 2 * phiOf (mir KI q))%R with 0%R by (cbn; lra). replace (IZR 0 / 2 * phiOf q)%R with 0%R by (cbn; lra). ring. }
  f_equal. rewrite !Ylm_D. unfold Dconj. rewrite theta_turned by (try reflexivity; exact NN). rewrite wignerD_pi by assumption. change (- 0)%Z with 0%Z.
  rewrite (phi_onAxis q) by exact HO. rewrite (phi_onAxis (mir KI q)) by (intros N; apply HO; apply (mir_offAxis KI) in N; now rewrite mir_mir in N).
  destruct (Z.eq_dec m 0) as [->|Nm]; [replace (L + 0)%Z with L by lia; unfold sz; rewrite RtoC_mult; ring|].
  assert (wignerD L m 0 (thetaOf q) = 0%R) as ->; [|rewrite !Rmult_0_r; ring].
  assert (thetaOf q = 0%R \/ thetaOf q = PI) as [-> | ->].
  { unfold offAxis in HO. assert (lx q = 0%R) as Ex by (destruct (Req_EM_T (lx q) 0); [assumption|tauto]). assert (ly q = 0%R) as Ey by (destruct (Req_EM_T (ly q) 0); [assumption|tauto]).
    unfold thetaOf, vTheta, vPerp, vect. cbn [vx vy vz]. rewrite Ex, Ey. replace (0 * 0 + 0 * 0)%R with 0%R by ring. rewrite sqrt_0.
    unfold reqb. destruct (Req_EM_T 0 0) as [_|?]; [|lra]. cbn [andb]. destruct (Req_EM_T (lz q) 0) as [Z0|NZ]; [now left|].
    unfold atan2, rltb. destruct (Rlt_dec 0 (lz q)); [left; replace (0 / lz q)%R with 0%R by (field; lra); apply atan_0|].
    destruct (Rlt_dec (lz q) 0); [|lra]. destruct (Rlt_dec 0 0); [lra|]. right. replace (0 / lz q)%R with 0%R by (field; lra). rewrite atan_0. ring. }
  - now apply wignerD_at_0.
  - replace PI with (PI - 0)%R by ring. rewrite wignerD_pi by assumption. change (- 0)%Z with 0%Z. rewrite wignerD_at_0 by assumption. ring.
Qed.
Lemma can_I m m1 m2 : w a = mir KI (u a) -> w b = mir KI (u b) -> (0 <= vL v)%Z -> Z.even (vL v) = true ->
  canVertexAmp ps false w p v a b m m1 m2 = sz (vL v / 2) * canVertexAmp ps false u p v a b m m1 m2.
Proof.
  intros Wa Wb HL EL. unfold canVertexAmp. rewrite EM, Wa, Wb, !mir_lvM, mir_norm.
  set (bf := RtoC (barrierFactor (vL v) (norm3 (vect (u a))) defaultPr)). set (LS := fun mL => RtoC (CG (vL v) mL (vS v) (m1 + m2) (pJ ps p) m)).
  assert (bf * csum (projections (vL v)) (fun mL => LS mL * Ylm (vL v) mL (thetaOf (mir KI (u a))) (phiOf (mir KI (u a))))
    = bf * (sz (vL v / 2) * csum (projections (vL v)) (fun mL => LS mL * Ylm (vL v) mL (thetaOf (u a)) (phiOf (u a))))) as E.
  { rewrite <- !csum_scal_l. apply csum_ext. intros mL Hm. apply projections_in in Hm. pose proof (Ylm_I (vL v) mL (u a) HL EL Hm) as Q. fold bf in Q.
    transitivity (LS mL * (bf * Ylm (vL v) mL (thetaOf (mir KI (u a))) (phiOf (mir KI (u a))))); [ring|rewrite Q; ring]. }
  match goal with |- ?x * ?y * _ * ?z * _ = _ => transitivity (x * y * z * (bf * csum (projections (vL v)) (fun mL => LS mL * Ylm (vL v) mL (thetaOf (mir KI (u a))) (phiOf (mir KI (u a)))))); [unfold LS; ring|rewrite E; unfold LS; ring] end.
Qed.
Lemma can_Y m m1 m2 : w a = mir KY (u a) -> w b = mir KY (u b) -> (0 <= vL v)%Z ->
  Z.even (vL v) = true -> Z.even (pJ ps p) = true -> Z.even (pJ ps a) = true -> Z.even (pJ ps b) = true -> isProjOf (pJ ps p) m -> isProjOf (pJ ps a) m1 -> isProjOf (pJ ps b) m2 ->
  canVertexAmp ps false w p v a b m m1 m2
  = sz (vL v / 2) * sz ((pJ ps p - m) / 2) * sz ((pJ ps a - m1) / 2) * sz ((pJ ps b - m2) / 2) * canVertexAmp ps false u p v a b (- m) (- m1) (- m2).
Proof.
  intros Wa Wb HL EL EJ Ea Eb Hm H1 H2. unfold canVertexAmp. rewrite EM, Wa, Wb, !mir_lvM, mir_norm.
  replace (- m1 + - m2)%Z with (- (m1 + m2))%Z by lia. set (mS := (m1 + m2)%Z). rewrite (CG_rev (pJ ps a) m1 (pJ ps b) m2 (vS v) mS).
  set (si := sz (vL v / 2) * sz ((pJ ps p - m) / 2) * sz ((pJ ps a - m1) / 2) * sz ((pJ ps b - m2) / 2)).
  destruct (Req_EM_T (CG (pJ ps a) m1 (pJ ps b) m2 (vS v) mS) 0) as [Z2|N2]; [rewrite Z2; rewrite Rmult_0_r; ring|].
  apply CG_nz in N2. assert (couples (pJ ps a) (pJ ps b) (vS v)) as C2 by apply N2.
  assert (csum (projections (vL v)) (fun mL => RtoC (CG (vL v) mL (vS v) mS (pJ ps p) m) * Ylm (vL v) mL (thetaOf (mir KY (u a))) (phiOf (mir KY (u a))))
    = si * sz ((pJ ps a + pJ ps b - vS v) / 2) * csum (projections (vL v)) (fun mL => RtoC (CG (vL v) mL (vS v) (- mS) (pJ ps p) (- m)) * Ylm (vL v) mL (thetaOf (u a)) (phiOf (u a)))) as E.
  { rewrite csum_neg by exact HL. rewrite <- csum_scal_l. apply csum_ext. intros mL HmL. apply projections_in in HmL.
    rewrite Ylm_Y by (try assumption; now apply proj_neg). rewrite Z.opp_involutive.
    pose proof (CG_rev (vL v) mL (vS v) (- mS) (pJ ps p) (- m)) as R. rewrite !Z.opp_involutive in R. rewrite R.
    destruct (Req_EM_T (CG (vL v) mL (vS v) (- mS) (pJ ps p) (- m)) 0) as [Z1|N1]; [rewrite Z1; rewrite Rmult_0_r; ring|].
    apply CG_nz in N1. assert (couples (vL v) (vS v) (pJ ps p)) as C1 by apply N1. assert (mL + - mS = - m)%Z as EmL by apply N1.
    rewrite RtoC_mult. fold (sz ((vL v + vS v - pJ ps p) / 2)).
    assert (sz ((vL v + vS v - pJ ps p) / 2) * sz (- mL / 2) = si * sz ((pJ ps a + pJ ps b - vS v) / 2)) as ES.
    { unfold si. rewrite <- !sz_add. apply sz_par.
      assert (Z.even m = true) as X by now apply (proj_even (pJ ps p)). assert (Z.even m1 = true) as X1 by now apply (proj_even (pJ ps a)). assert (Z.even m2 = true) as X2 by now apply (proj_even (pJ ps b)).
      assert (Z.even (vS v) = true) as XS.
      { destruct C2 as (_ & _ & k' & _ & K2 & _). rewrite K2. rewrite Z.even_add, even_2k. assert (Z.even (Z.abs (pJ ps a - pJ ps b)) = true) as ->; [|reflexivity].
        destruct (Z.abs_eq_or_opp (pJ ps a - pJ ps b)) as [-> | ->]; rewrite ?Z.even_opp, Z.even_sub, Ea, Eb; reflexivity. }
      assert (mL = mS - m)%Z as -> by lia. unfold mS. clear - EL EJ Ea Eb X X1 X2 XS.
      destruct (half_even _ EL) as (L & ->), (half_even _ EJ) as (J & ->), (half_even _ Ea) as (A & ->), (half_even _ Eb) as (B & ->), (half_even _ X) as (k & ->), (half_even _ X1) as (k1 & ->), (half_even _ X2) as (k2 & ->), (half_even _ XS) as (S & ->).
      rewrite (hf (2 * L + 2 * S - 2 * J) (L + S - J)), (hf (- (2 * k1 + 2 * k2 - 2 * k)) (k - k1 - k2)), half_k, (hf (2 * J - 2 * k) (J - k)), (hf (2 * A - 2 * k1) (A - k1)), (hf (2 * B - 2 * k2) (B - k2)), (hf (2 * A + 2 * B - 2 * S) (A + B - S)) by lia.
      match goal with |- Z.even ?x = true => replace x with (2 * (S - J + k - A - B))%Z by lia end. apply even_2k. }
    match goal with |- ?x * ?c * (?y * ?Y) = _ => transitivity ((x * y) * c * Y); [ring|rewrite ES; ring] end. }
  rewrite E. rewrite RtoC_mult. fold (sz ((pJ ps a + pJ ps b - vS v) / 2)). ring.
Qed.
End Vertex.
