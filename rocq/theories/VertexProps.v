(* C52: isobar decay vertices accepted by the consistency check. *)
From Coq Require Import String List ZArith QArith Bool Reals Lia.
From Verif Require Import SpinModel SpinSpec SpinProofs SpinProps CGModel CGSpec CGProofs ParticleModel VertexModel.
Import ListNotations.
Open Scope Z_scope.

(* ---- specification, independent of the code ---- *)
(* orbital angular momentum l (in units of hbar) contributes (-1)^l to the parity *)
Definition parityConserved (m d1 d2 : pprops) (L : Z) : Prop :=
  forall l, L = 2 * l -> pP m = pP d1 * pP d2 * minusOnePow l.

(* isospin addition: (I1 I1z) + (I2 I2z) has a component in (I Iz) *)
Definition isospinCouples (m d1 d2 : pprops) : Prop :=
  cgAdmissible (pI d1) (isospinProj d1) (pI d2) (isospinProj d2) (pI m) (isospinProj m) /\
  ~ (sumQ (Z.to_nat (pI m + isospinProj m + 1))
          (wignerTerm (pI d1) (isospinProj d1) (pI d2) (isospinProj d2) (pI m) (isospinProj m)) == 0)%Q.

(* G = C (-1)^I for neutral particles with integer isospin; charged particles have no C parity *)
Definition cParityConsistent (p : pprops) : Prop :=
  (pCharge p <> 0 -> pC p = 0) /\
  (pCharge p = 0 -> forall i, pI p = 2 * i -> pC p = pG p * minusOnePow i) /\
  (pCharge p = 0 -> forall i, pI p = 2 * i + 1 -> pC p = - pG p).

Definition consistent (v : vertex) : Prop :=
  let m := vParent v in let d1 := vD1 v in let d2 := vD2 v in
  pCharge m = pCharge d1 + pCharge d2 /\ pB m = pB d1 + pB d2 /\ pS m = pS d1 + pS d2 /\
  pCharm m = pCharm d1 + pCharm d2 /\ pBeauty m = pBeauty d1 + pBeauty d2 /\
  pG m = pG d1 * pG d2 /\
  (exists l, 0 <= l /\ vL v = 2 * l) /\ parityConserved m d1 d2 (vL v) /\
  couples (pJ d1) (pJ d2) (vS v) /\ couples (vL v) (vS v) (pJ m) /\
  isospinCouples m d1 d2 /\
  cParityConsistent m /\ cParityConsistent d1 /\ cParityConsistent d2.

Lemma even_half n : isEven n = true <-> exists k, n = 2 * k.
Proof.
  unfold isEven, isOdd. rewrite negb_true_iff, <- Z.negb_even, negb_false_iff, Z.even_spec. reflexivity.
Qed.

Lemma rem4 l : 0 <= l -> (if Z.rem (2 * l) 4 =? 0 then 1 else -1) = minusOnePow l.
Proof.
  intros H. unfold minusOnePow. rewrite Z.rem_mod_nonneg by lia.
  destruct (Z.even l) eqn:E.
  - apply Z.even_spec in E. destruct E as [k ->]. replace (2 * (2 * k)) with (k * 4) by lia.
    rewrite Z.mod_mul by lia. reflexivity.
  - rewrite <- Z.negb_odd, negb_false_iff in E. apply Z.odd_spec in E. destruct E as [k ->].
    replace (2 * (2 * k + 1)) with (2 + k * 4) by lia. rewrite Z.mod_add by lia. reflexivity.
Qed.

Lemma cInc p : 0 <= pI p -> (cInconsistent p = false <-> cParityConsistent p).
Proof.
  intros HI. unfold cInconsistent, cParityConsistent.
  assert (Hi : (exists i, 0 <= i /\ pI p = 2 * i) \/ (exists i, 0 <= i /\ pI p = 2 * i + 1)).
  { destruct (Z.Even_or_Odd (pI p)) as [[i Hi]|[i Hi]]; [left|right]; exists i; split; lia. }
  destruct (pCharge p =? 0) eqn:Eq; cbn [negb andb orb].
  - rewrite orb_false_r, negb_false_iff, Z.eqb_eq.
    apply Z.eqb_eq in Eq.
    destruct Hi as [[i [Hi Ei]]|[i [Hi Ei]]].
    + rewrite Ei, rem4 by lia. split.
      * intros H. split; [lia|]. split; [|lia]. intros _ j Hj. replace j with i by lia. exact H.
      * intros (_ & H & _). apply H; lia.
    + assert (Er : Z.rem (pI p) 4 =? 0 = false).
      { rewrite Ei, Z.rem_mod_nonneg by lia. apply Z.eqb_neq. intros E.
        apply Z.mod_divide in E; [|lia]. destruct E as [k E]. lia. }
      rewrite Er. split.
      * intros H. split; [lia|]. split; [lia|]. intros _ j Hj. lia.
      * intros (_ & _ & H). specialize (H Eq i Ei). lia.
  - apply Z.eqb_neq in Eq. rewrite negb_false_iff, Z.eqb_eq. split.
    + intros H. split; [auto|]. split; lia.
    + intros (H & _). auto.
Qed.

(* all quantum numbers a user can set: spins and isospins are not negative (the setters
   take absolute values), isospins below the range limit of the Clebsch-Gordan cache *)
Theorem C52_check_exact : forall v,
  0 <= vL v -> 0 <= pI (vParent v) < 18 -> 0 <= pI (vD1 v) < 18 -> 0 <= pI (vD2 v) < 18 ->
  exists b, checkConsistency v = Some b /\ (b = true <-> consistent v).
Proof.
  intros v HL HI0 HI1 HI2. unfold checkConsistency.
  destruct (C05_spinStatesCanCouple_with_projections (pI (vD1 v)) (isospinProj (vD1 v)) (pI (vD2 v)) (isospinProj (vD2 v))
              (pI (vParent v)) (isospinProj (vParent v)) ltac:(lia) ltac:(lia) ltac:(lia)) as (iso & Eiso & Hiso).
  rewrite Eiso. cbn [bindP]. eexists. split; [reflexivity|].
  unfold consistent. rewrite !andb_true_iff, negb_true_iff, !orb_false_iff.
  rewrite !cInc by lia.
  unfold checkMultiplicativeQn, checkAdditiveQn. rewrite !Z.eqb_eq.
  rewrite !C01_spinStatesCanCouple_iff_triangle, even_half.
  fold (isospinCouples (vParent v) (vD1 v) (vD2 v)) in Hiso. rewrite Hiso.
  unfold parityConserved.
  split.
  - intros (((((((((((HG & HP) & HQ) & HB) & HS) & HC) & HBe) & [l Hl]) & Hs) & HLS) & Hi) & ((Hc1 & Hc2) & Hc0)).
    assert (0 <= l) by lia. rewrite Hl, rem4 in HP by lia.
    do 6 (split; [assumption|]). split; [exists l; lia|].
    split; [intros j Hj; replace j with l by lia; exact HP|].
    do 5 (split; [assumption|]). assumption.
  - intros (HQ & HB & HS & HC & HBe & HG & [l [Hl0 Hl]] & HP & Hs & HLS & Hi & Hc0 & Hc1 & Hc2).
    specialize (HP l Hl). rewrite Hl, rem4 in * by lia.
    assert (Hx : exists k, 2 * l = 2 * k) by (exists l; reflexivity).
    tauto.
Qed.

(* an accepted vertex with known parities multiplies them correctly, whatever the isospins *)
Theorem C52_accepted : forall v, checkConsistency v = Some true ->
  pCharge (vParent v) = pCharge (vD1 v) + pCharge (vD2 v) /\ pB (vParent v) = pB (vD1 v) + pB (vD2 v) /\
  pS (vParent v) = pS (vD1 v) + pS (vD2 v) /\ pCharm (vParent v) = pCharm (vD1 v) + pCharm (vD2 v) /\
  pBeauty (vParent v) = pBeauty (vD1 v) + pBeauty (vD2 v) /\ pG (vParent v) = pG (vD1 v) * pG (vD2 v) /\
  isospinProj (vParent v) = isospinProj (vD1 v) + isospinProj (vD2 v).
Proof.
  intros v H. unfold checkConsistency in H.
  destruct (spinStatesCanCouple _ _ _ _ _ _) as [iso|]; cbn [bindP] in H; [|discriminate H].
  injection H as H. rewrite !andb_true_iff in H. unfold checkMultiplicativeQn, checkAdditiveQn in H. rewrite !Z.eqb_eq in H.
  destruct H as (((((((((((HG & HP) & HQ) & HB) & HS) & HC) & HBe) & Hl) & Hs) & HLS) & Hi) & Hc).
  unfold isospinProj. rewrite HQ, HB, HS, HC, HBe. repeat (split; [auto|]). lia.
Qed.

(* ---- the check also rejects decays that conserve everything ---- *)
Definition mkP (q b i s c be g j pp cc : Z) : pprops := PP [] [] q 0%R 0%R 0%R b i s c be g j pp cc [].
(* rho(770)0 -> pi+ pi-  and  f2(1270) -> K+ K- ; kaons have no G parity *)
Definition rho0 := mkP 0 0 2 0 0 0 1 2 (-1) (-1).
Definition piP  := mkP 1 0 2 0 0 0 (-1) 0 (-1) 0.
Definition piM  := mkP (-1) 0 2 0 0 0 (-1) 0 (-1) 0.
Definition f2   := mkP 0 0 0 0 0 0 1 4 1 1.
Definition Kp   := mkP 1 0 1 1 0 0 0 0 (-1) 0.
Definition Km   := mkP (-1) 0 1 (-1) 0 0 0 0 (-1) 0.

Example C52_ex : checkConsistency (Vtx rho0 piP piM 2 0) = Some true /\ checkConsistency (Vtx rho0 piP piM 4 0) = Some false.
Proof. split; vm_compute; reflexivity. Qed.

(* f2(1270) -> K+ K- in a D wave conserves charge, strangeness, parity, angular momentum and
   isospin and occurs in nature, but the code rejects it, because it multiplies the G parities
   of particles that have none *)
Theorem C52_kaon_pair_refuted : exists v,
  pCharge (vParent v) = pCharge (vD1 v) + pCharge (vD2 v) /\ pB (vParent v) = pB (vD1 v) + pB (vD2 v) /\
  pS (vParent v) = pS (vD1 v) + pS (vD2 v) /\ pCharm (vParent v) = pCharm (vD1 v) + pCharm (vD2 v) /\
  pBeauty (vParent v) = pBeauty (vD1 v) + pBeauty (vD2 v) /\
  parityConserved (vParent v) (vD1 v) (vD2 v) (vL v) /\
  couples (pJ (vD1 v)) (pJ (vD2 v)) (vS v) /\ couples (vL v) (vS v) (pJ (vParent v)) /\
  isospinCouples (vParent v) (vD1 v) (vD2 v) /\
  cParityConsistent (vParent v) /\ cParityConsistent (vD1 v) /\ cParityConsistent (vD2 v) /\
  pG (vD1 v) = 0 /\ pG (vD2 v) = 0 /\
  checkConsistency v = Some false.
Proof.
  exists (Vtx f2 Kp Km 4 0). do 5 (split; [reflexivity|]).
  split; [intros l Hl; change (4 = 2 * l) in Hl; replace l with 2 by lia; reflexivity|].
  split; [apply C01_spinStatesCanCouple_iff_triangle; reflexivity|].
  split; [apply C01_spinStatesCanCouple_iff_triangle; reflexivity|].
  split; [|split; [apply cInc; [cbn; lia|reflexivity]|split; [apply cInc; [cbn; lia|reflexivity]|
    split; [apply cInc; [cbn; lia|reflexivity]|split; [reflexivity|split; [reflexivity|vm_compute; reflexivity]]]]]].
  unfold isospinCouples. split; [|vm_compute; intros E; discriminate E].
  unfold cgAdmissible. rewrite <- !C01_projection_check, <- C01_spinStatesCanCouple_iff_triangle.
  repeat split.
Qed.

(* ---- recomputation of parent quantum numbers ---- *)
(* the parent particle p' differs from p only in charge and baryon number *)
Definition sameExceptChargeBaryon (p p' : pprops) : Prop :=
  pName p' = pName p /\ pAnti p' = pAnti p /\ pMass p' = pMass p /\ pMass2 p' = pMass2 p /\ pWidth p' = pWidth p /\
  pI p' = pI p /\ pS p' = pS p /\ pCharm p' = pCharm p /\ pBeauty p' = pBeauty p /\ pG p' = pG p /\ pJ p' = pJ p /\
  pP p' = pP p /\ pC p' = pC p /\ pDecays p' = pDecays p.

Theorem C52_calc_parent : forall v,
  (calcParentCharge v = None <-> 10 <= Z.abs (pCharge (vD1 v) + pCharge (vD2 v))) /\
  (forall v', calcParentCharge v = Some v' ->
     let w := calcParentBaryonNmb v' in
     pCharge (vParent w) = pCharge (vD1 v) + pCharge (vD2 v) /\ pB (vParent w) = pB (vD1 v) + pB (vD2 v) /\
     sameExceptChargeBaryon (vParent v) (vParent w) /\ vD1 w = vD1 v /\ vD2 w = vD2 v /\ vL w = vL v /\ vS w = vS v).
Proof.
  intros v. unfold calcParentCharge, setCharge. destruct (Z.abs _ <? 10) eqn:E; cbn [bindP].
  - apply Z.ltb_lt in E. split; [split; [discriminate|lia]|]. intros v' H. injection H as <-. cbn.
    repeat (split; [reflexivity|]). split; [repeat split|repeat split].
  - apply Z.ltb_ge in E. split; [split; [lia|reflexivity]|]. intros v' H. discriminate H.
Qed.

Example C52_calc_parent_ex : exists v', calcParentCharge (Vtx (mkP 7 5 2 0 0 0 1 2 (-1) 0) piP rho0 0 2) = Some v' /\
  pCharge (vParent (calcParentBaryonNmb v')) = 1 /\ pB (vParent (calcParentBaryonNmb v')) = 0.
Proof. eexists. repeat split. Qed.
