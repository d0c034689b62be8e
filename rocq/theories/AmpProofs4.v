(* Two-body decay amplitudes of the two formalisms (C74). *)
From Coq Require Import List ZArith Reals Bool Lia Lra.
From Coquelicot Require Import Complex.
From Verif Require Import SpinModel SpinSpec SpinProofs CGModel CGSpec CGProofs CGValProofs CGValProps DFuncModel DFuncSpec DFuncProofs CGBoxModel PhysModel PhaseModel PhaseSpec FrameModel FrameSpec AmpModel AmpSpec AmpProofs AmpProofs3.
Import ListNotations.
Open Scope C_scope.

Lemma clebsch_ok j1 m1 j2 m2 J M : (j1 < 18)%Z -> (j2 < 18)%Z -> (J < 18)%Z -> clebsch j1 m1 j2 m2 J M = Some (CG j1 m1 j2 m2 J M).
Proof.
  intros H1 H2 H3. pose proof (C69_every_answer_is_CG [OpCall j1 m1 j2 m2 J M]) as H.
  assert (forall a b c d e f, In (OpCall a b c d e f) [OpCall j1 m1 j2 m2 J M] -> (a < 18 /\ c < 18 /\ e < 18)%Z) as K.
  { intros a b c d e f [E|[]]. injection E as <- <- <- <- <- <-. tauto. }
  specialize (H K). cbn [opCalls flat_map app cgRun] in H. unfold clebsch.
  destruct (cgCall cgInit j1 m1 j2 m2 J M) as [s o]. cbn [snd].
  destruct o as [|v0].
  - inversion H as [|x y l0 l1 (v & E1 & E2) _ Ex Ey]. discriminate.
  - inversion H as [|x y l0 l1 (v & E1 & E2) _ Ex Ey]. injection E1 as ->. destruct v; cbn [cgReal] in E2; now rewrite <- E2.
Qed.
Lemma CG_nz j1 m1 j2 m2 J M : CG j1 m1 j2 m2 J M <> 0%R -> cgAdmissible j1 m1 j2 m2 J M.
Proof.
  intros H. apply Decidable.not_not; [|intros K; now apply H, CG_not]. unfold Decidable.decidable, cgAdmissible.
  rewrite <- !spinProj_correct, <- spinsCanCouple_correct, <- Z.eqb_eq.
  destruct (spinAndProjAreCompatible j1 m1), (spinAndProjAreCompatible j2 m2), (spinAndProjAreCompatible J M), (spinsCanCouple j1 j2 J), (Z.eqb (m1 + m2) M); intuition congruence.
Qed.

Lemma dFunction_ok j m n theta : (j < 41)%Z -> isProjOf j m -> isProjOf j n -> dFunction j m n theta = Some (wignerD j m n theta).
Proof.
  intros Hj Hm Hn. unfold dFunction. destruct (dCall_correct dInit j m n theta dInv_init Hj Hm Hn) as (s' & E & _). now rewrite E.
Qed.
Lemma proj_neg j m : isProjOf j m -> isProjOf j (- m).
Proof. intros (H & k & Hk & ->). split; [exact H|]. exists (j - k)%Z. lia. Qed.
Lemma c_eq (x y : C) : fst x = fst y -> snd x = snd y -> x = y.
Proof. destruct x, y. cbn. now intros -> ->. Qed.
Lemma DConj_ok j m n phi theta : (j < 41)%Z -> isProjOf j m -> isProjOf j n -> DFunctionConj j m n phi theta 0 = Some (Dconj j m n phi theta).
Proof.
  intros Hj Hm Hn. unfold DFunctionConj, DFunction. rewrite dFunction_ok by assumption. cbn [bnd]. f_equal. unfold Dconj.
  replace (IZR m / 2 * phi + IZR n / 2 * 0)%R with (IZR m / 2 * phi)%R by ring. unfold expI. rewrite cos_neg, sin_neg.
  apply c_eq; unfold Cmult, RtoC, Cconj; cbn [fst snd]; ring.
Qed.
Lemma reflFactor_ok J P M refl : isProjOf J M -> (0 <= M)%Z -> isSign P -> isSign refl -> reflectivityFactor J P M refl = (refl * P * minusOnePow ((J - M) / 2))%Z.
Proof.
  intros (HJ & k & Hk & ->) HM HP HR. unfold reflectivityFactor.
  assert ((Z.abs P =? 1)%Z = true) as -> by (destruct HP as [-> | ->]; reflexivity).
  assert ((- J + 2 * k <? 0)%Z = false) as -> by (apply Z.ltb_ge; lia).
  assert ((Z.abs refl =? 1)%Z = true) as -> by (destruct HR as [-> | ->]; reflexivity). cbn [negb].
  replace (J - (- J + 2 * k))%Z with ((J - k) * 2)%Z by ring. rewrite Z.quot_mul, Z.div_mul by lia. now rewrite pm1_mop.
Qed.
Lemma sign_cases a b c : isSign a -> isSign b -> (a * b * minusOnePow c = 1 \/ a * b * minusOnePow c = -1)%Z.
Proof. intros [-> | ->] [-> | ->]; unfold minusOnePow; destruct (Z.even c); cbn; tauto. Qed.
Lemma sqrt2_inv : (1 / sqrt 2 = / sqrt 2)%R. Proof. unfold Rdiv. ring. Qed.
Lemma reflState_0 J P refl f r : (r = refl * P * minusOnePow ((J - 0) / 2))%Z -> isSign P -> isSign refl ->
  reflState J P 0 refl f = if (r =? 1)%Z then RtoC 0 else f 0%Z.
Proof.
  intros E HP HR. unfold reflState, reflNorm, reflSign. cbn [Z.eqb Z.opp]. rewrite <- E.
  destruct (sign_cases refl P ((J - 0) / 2) HR HP) as [Q|Q]; rewrite <- E in Q; rewrite Q; cbn [Z.eqb Pos.eqb].
  - apply c_eq; unfold Cmult, Cminus, Cplus, Copp, RtoC; cbn [fst snd]; lra.
  - apply c_eq; unfold Cmult, Cminus, Cplus, Copp, RtoC; cbn [fst snd]; lra.
Qed.
Lemma DReflConj_ok j m n P refl phi theta : (j < 41)%Z -> isProjOf j m -> isProjOf j n -> (0 <= m)%Z -> isSign P -> isSign refl ->
  DFunctionReflConj j m n P refl phi theta 0 = Some (reflState j P m refl (fun M => Dconj j M n phi theta)).
Proof.
  intros Hj Hm Hn Pm HP HR. unfold DFunctionReflConj, DFunctionRefl. rewrite reflFactor_ok by assumption.
  pose proof (DConj_ok j m n phi theta Hj Hm Hn) as E1. unfold DFunctionConj in E1.
  pose proof (DConj_ok j (- m) n phi theta Hj (proj_neg _ _ Hm) Hn) as E2. unfold DFunctionConj in E2.
  destruct (DFunction j m n phi theta 0) as [D1|] eqn:F1; [|discriminate]. cbn [bnd] in E1. assert (Cconj D1 = Dconj j m n phi theta) as G1 by congruence.
  destruct (DFunction j (- m) n phi theta 0) as [D2|] eqn:F2; [|discriminate]. cbn [bnd] in E2. assert (Cconj D2 = Dconj j (- m) n phi theta) as G2 by congruence.
  destruct (Z.eqb_spec m 0) as [->|Nm].
  - rewrite (reflState_0 j P refl _ _ eq_refl HP HR). destruct (_ =? 1)%Z.
    + cbn [bnd]. f_equal. apply c_eq; unfold Cconj, RtoC; cbn [fst snd]; ring.
    + rewrite F1. cbn [bnd]. now rewrite G1.
  - cbn [bnd]. f_equal. unfold reflState, reflNorm. destruct (Z.eqb_spec m 0) as [|_]; [contradiction|].
    rewrite <- G1, <- G2. unfold reflSign. rewrite sqrt2_inv. apply c_eq; unfold Cmult, Cminus, Cplus, Copp, Cconj, RtoC; cbn [fst snd]; ring.
Qed.
Lemma reqb_spec x y : reqb x y = true <-> x = y.
Proof. unfold reqb. destruct (Req_EM_T x y); split; congruence. Qed.

Definition vspins (ps : parts) (p : nat) (v : vtx) (a b : nat) : Prop :=
  (pJ ps p < 18)%Z /\ (pJ ps a < 18)%Z /\ (pJ ps b < 18)%Z /\ (0 <= vL v < 18)%Z /\ (vS v < 18)%Z.
Lemma hel_ok ps useRefl top s h p v a b : vspins ps p v a b -> isProjOf (pJ ps p) (h p) ->
  (top && useRefl = true -> (0 <= h p)%Z /\ isSign (pP ps p) /\ isSign (pRefl ps p)) ->
  helTwoBody ps useRefl top s h p v a b = Some (helVertexAmp ps (top && useRefl) s p v a b (h p) (h a) (h b)).
Proof.
  intros (H1 & H2 & H3 & H4 & H5) Hp HR. unfold helTwoBody. rewrite !clebsch_ok by lia. cbn [bnd].
  unfold helVertexAmp. set (c1 := CG (vL v) 0 _ _ _ _). set (c2 := CG (pJ ps a) _ _ _ _ _).
  destruct (reqb c1 0) eqn:E1.
  { apply reqb_spec in E1. rewrite E1. f_equal. ring. }
  destruct (reqb c2 0) eqn:E2.
  { apply reqb_spec in E2. rewrite E2. f_equal. ring. }
  assert (c1 <> 0%R) as N1 by (intros Q; apply reqb_spec in Q; congruence).
  apply CG_nz in N1. destruct N1 as (_ & _ & PJ & _).
  assert ((if top && useRefl then DFunctionReflConj (pJ ps p) (h p) (h a - h b) (pP ps p) (pRefl ps p) (vPhi (vect (s a))) (vTheta (vect (s a))) 0
    else DFunctionConj (pJ ps p) (h p) (h a - h b) (vPhi (vect (s a))) (vTheta (vect (s a))) 0)
    = Some (if top && useRefl then reflState (pJ ps p) (pP ps p) (h p) (pRefl ps p) (fun M => Dconj (pJ ps p) M (h a - h b) (phiOf (s a)) (thetaOf (s a)))
            else Dconj (pJ ps p) (h p) (h a - h b) (phiOf (s a)) (thetaOf (s a)))) as ->.
  { destruct (top && useRefl); [apply DReflConj_ok; try lia; try assumption; now apply HR|apply DConj_ok; try lia; assumption]. }
  cbn [bnd]. reflexivity.
Qed.
Lemma lsCan_ok ps useRefl top p L S mL mS M : (pJ ps p < 18)%Z -> (L < 18)%Z -> (S < 18)%Z -> isProjOf (pJ ps p) M ->
  (top && useRefl = true -> (0 <= M)%Z /\ isSign (pP ps p) /\ isSign (pRefl ps p)) ->
  exists r, lsCanonical ps useRefl top p L S mL mS M = Some r /\
    RtoC r = if top && useRefl then reflState (pJ ps p) (pP ps p) M (pRefl ps p) (fun M => RtoC (CG L mL S mS (pJ ps p) M)) else RtoC (CG L mL S mS (pJ ps p) M).
Proof.
  intros H1 H2 H3 HM HR. unfold lsCanonical. rewrite (andb_comm useRefl top). rewrite !clebsch_ok by lia. destruct (top && useRefl); [|eauto].
  destruct HR as (HR & HP & HE); [reflexivity|]. rewrite reflFactor_ok by assumption. destruct (Z.eqb_spec M 0) as [->|NM].
  - rewrite (reflState_0 _ _ _ _ _ eq_refl HP HE). destruct (_ =? 1)%Z; eauto.
  - cbn [bnd]. eexists. split; [reflexivity|]. unfold reflState, reflNorm. destruct (Z.eqb_spec M 0) as [|_]; [contradiction|]. unfold reflSign. rewrite sqrt2_inv.
    apply c_eq; unfold Cmult, Cminus, Cplus, Copp, RtoC; cbn [fst snd]; ring.
Qed.
Lemma even_half L : Z.even L = true -> exists k, (L = 2 * k)%Z.
Proof. intros E. apply Z.even_spec in E. exact E. Qed.
Lemma can_ok ps useRefl top s h p v a b : vspins ps p v a b -> Z.even (vL v) = true -> isProjOf (pJ ps p) (h p) ->
  (top && useRefl = true -> (0 <= h p)%Z /\ isSign (pP ps p) /\ isSign (pRefl ps p)) ->
  canTwoBody ps useRefl top s h p v a b = Some (canVertexAmp ps (top && useRefl) s p v a b (h p) (h a) (h b)).
Proof.
  intros (H1 & H2 & H3 & H4 & H5) HE Hp HR. unfold canTwoBody. rewrite clebsch_ok by lia. cbn [bnd].
  unfold canVertexAmp. set (c1 := CG (pJ ps a) _ _ _ _ _).
  destruct (reqb c1 0) eqn:E1.
  { apply reqb_spec in E1. rewrite E1. f_equal. ring. }
  set (term := fun mL => (if top && useRefl then reflState (pJ ps p) (pP ps p) (h p) (pRefl ps p) (fun M => RtoC (CG (vL v) mL (vS v) (h a + h b) (pJ ps p) M))
     else RtoC (CG (vL v) mL (vS v) (h a + h b) (pJ ps p) (h p))) * Ylm (vL v) mL (thetaOf (s a)) (phiOf (s a))).
  assert (isProjOf (vL v) 0) as P0 by (destruct (even_half _ HE) as (k & Ek); split; [lia|]; exists k; lia).
  assert (forall l c, (forall mL, In mL l -> isProjOf (vL v) mL) -> foldO (fun mL amp =>
    do LSClebsch <- lsCanonical ps useRefl top p (vL v) (vS v) mL (h a + h b) (h p);
    if reqb LSClebsch 0 then Some amp else
    do Y <- sphericalHarmonic (vL v) mL (vTheta (vect (s a))) (vPhi (vect (s a)));
    Some (amp + RtoC LSClebsch * Y)%C) l c = Some (c + csum l term)) as K.
  { induction l as [|mL l IH]; intros c Hl; [cbn; f_equal; ring|]. cbn [foldO].
    destruct (lsCan_ok ps useRefl top p (vL v) (vS v) mL (h a + h b) (h p)) as (r & Er & Cr); try lia; try assumption.
    rewrite Er. cbn [bnd]. destruct (reqb r 0) eqn:Q.
    - apply reqb_spec in Q. subst r. cbn [bnd]. rewrite IH by (intros x Hx; apply Hl; now right). f_equal. cbn. fold (csum l term).
      unfold term at 2. rewrite <- Cr. ring.
    - unfold sphericalHarmonic. rewrite dFunction_ok by (try lia; try exact P0; apply Hl; now left). cbn [bnd].
      rewrite IH by (intros x Hx; apply Hl; now right). f_equal. cbn. fold (csum l term). unfold term at 2. rewrite <- Cr. unfold Ylm, phiOf, thetaOf. ring. }
  rewrite stepUp_projections by lia. rewrite K by (intros mL Hm; now apply projections_in). cbn [bnd]. f_equal. unfold massDepAmplitude, vMag, norm3. ring.
Qed.
