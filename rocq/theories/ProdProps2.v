(* C80: acceptance of decays and the maximal weights in slices of mass. *)
From Coq Require Import List ZArith Reals Bool Lia Lra Psatz.
From Verif Require Import ArrayModel CGBoxModel PhysModel PhysProps PhaseModel PhaseSpec PhaseProofs PhaseProofs2 PhaseProofs3 PhaseProps PhaseProps4 FrameModel FrameSpec.
From Verif Require Import ProdModel ProdSpec ProdProofs ProdProofs2 ProdProofs3 ProdProofs4 ProdProps.
Import ListNotations.
Open Scope R_scope.

Lemma breakup_is w m1 m2 q : 0 <= m1 -> 0 <= m2 -> 0 < w -> isBreakup w m1 m2 q -> breakupMomentum w m1 m2 = Some q.
Proof.
  intros H1 H2 W H. assert (m1 + m2 <= w) as H3.
  { destruct H as [Q E]. assert (m1 <= sqrt (m1 ^ 2 + q ^ 2)) by (rewrite <- (sqrt_pow2 m1 H1) at 1; apply sqrt_le_1_alt; nra).
    assert (m2 <= sqrt (m2 ^ 2 + q ^ 2)) by (rewrite <- (sqrt_pow2 m2 H2) at 1; apply sqrt_le_1_alt; nra). lra. }
  destruct (C57_breakup_momentum_conserves_energy w m1 m2 H1 H2 W H3) as (q' & E & Q & EE & _).
  rewrite E. f_equal. apply (isBreakup_unique w m1 m2); [exact W| |exact H]. split; [exact Q|]. cbn [pow]. rewrite !Rmult_1_r. exact EE.
Qed.
(* one attempt: masses are generated for the mass of X, the weight is that of the decay, and the
   decay is accepted with probability weight * m * q / (maximal weight * mMax * qMax), where q is
   the break-up momentum of X and a particle with the mass of the target; if X at the upper end of
   the mass range cannot move every decay is accepted whatever its weight *)
Theorem C80_attempt : forall ms g fuel rnd sqrtS mt xMax xM X pos q qMax,
  usedFor ms g -> gWT g = S_U_CHUNG -> canDecay ms X xM -> uniform rnd -> someDistinct fuel rnd pos (length ms - 2) ->
  0 <= mt -> 0 < xM -> xM <= xMax -> 0 < sqrtS -> isBreakup sqrtS xMax mt qMax -> isBreakup sqrtS xM mt q ->
  exists ok g' pos' wt r, attempt fuel rnd sqrtS mt xMax xM X pos g = Some (ok, g', pos')
    /\ gW g' = Fin wt /\ 0 <= wt /\ allowedMasses ms (gM g') /\ nth (length ms - 1) (gM g') 0 = xM
    /\ (0 < gMaxW g -> 0 < qMax -> (ok = true <-> rnd r * (gMaxW g * xMax * qMax) <= wt * xM * q))
    /\ (qMax = 0 -> ok = true)
    /\ (ok = true -> isEvent ms (gM g') X (gDau g')) /\ (ok = false -> gDau g' = gDau g).
Proof.
  intros ms g fuel rnd sqrtS mt xMax xM X pos q qMax HU T (Hn & Hp & HP & H0 & HM & HS & Hs) U Hd MT XM XX SS BM B.
  pose proof (usedFor_consistent ms g HU) as C.
  unfold attempt. destruct (pick_ok ms g fuel rnd xM pos C Hp U (fun _ => Hd) HS Hs) as (Ms & p1 & E1 & HO). rewrite E1. cbn [bnd].
  pose proof (pickMasses_consistent ms fuel rnd xM pos g _ _ C E1) as C1.
  rewrite (breakup_is sqrtS xMax mt qMax ltac:(lra) MT SS BM). cbn [bnd]. unfold rdiv at 1. destruct (Req_EM_T sqrtS 0) as [?|_]; [lra|]. cbn [bnd].
  rewrite (breakup_is sqrtS xM mt q ltac:(lra) MT SS B). cbn [bnd]. unfold rdiv. destruct (Req_EM_T sqrtS 0) as [?|_]; [lra|]. cbn [bnd].
  destruct (weight_ok ms (withM Ms g) xM C1 Hp HS Hs HO) as (w & mx & qs & E2 & W0 & _ & HQ). rewrite E2. cbn [bnd].
  cbn [withM withWeight withQ gW gMaxW imul]. pose proof (weight_consistent ms _ _ C1 E2) as C2.
  set (g2 := withWeight (Fin w) mx (withQ qs (withM Ms g))) in *.
  assert (gM g2 = Ms) as EM by reflexivity. assert (gQ g2 = qs) as EQ by reflexivity. assert (gW g2 = Fin w) as EWt by reflexivity. assert (gDau g2 = gDau g) as ED by reflexivity.
  pose proof (proj1 HO) as HA. pose proof (proj1 (proj2 HO)) as HL.
  set (cond := igtb _ _). assert ((0 < gMaxW g -> 0 < qMax -> cond = false <-> rnd p1 * (gMaxW g * xMax * qMax) <= w * xM * q) /\ (qMax = 0 -> cond = false)) as [K1 K2].
  { unfold cond. cbn [idiv]. split.
    - intros MW Qp. assert (0 < gMaxW g * xMax) by nra. assert (0 < gMaxW g * xMax * qMax) by nra.
      assert (0 < gMaxW g * xMax * (qMax / sqrtS)) as D by (apply Rmult_lt_0_compat; [assumption|now apply Rdiv_lt_0_compat]).
      unfold reqb. destruct (Req_EM_T _ 0) as [?|_]; [lra|]. cbn [igtb].
      replace (w * xM * (q / sqrtS) / (gMaxW g * xMax * (qMax / sqrtS))) with (w * xM * q / (gMaxW g * xMax * qMax)) by (field; repeat split; lra).
      set (A := gMaxW g * xMax * qMax) in *. set (Bv := w * xM * q). unfold rltb. destruct (Rlt_dec (Bv / A) (rnd p1)) as [L|L]; (split; [intros E|intros E]); try discriminate; try reflexivity.
      + exfalso. apply (Rmult_lt_compat_r A) in L; [|assumption]. unfold Rdiv in L. rewrite Rmult_assoc, Rinv_l, Rmult_1_r in L by lra. lra.
      + apply Rnot_lt_le in L. apply (Rmult_le_compat_r A) in L; [|lra]. unfold Rdiv in L. rewrite Rmult_assoc, Rinv_l, Rmult_1_r in L by lra. lra.
    - intros ->. replace (gMaxW g * xMax * (0 / sqrtS)) with 0 by (field; lra). unfold reqb at 1. destruct (Req_EM_T 0 0) as [_|N]; [|contradiction].
      unfold reqb. destruct (Req_EM_T _ 0) as [_|N]; [reflexivity|]. cbn [igtb]. unfold signOf. apply rltb_false.
      destruct B as [Q _]. assert (0 <= q / sqrtS) by (apply Rmult_le_pos; [exact Q|left; now apply Rinv_0_lt_compat]). assert (0 <= w * xM) by nra. nra. }
  destruct cond eqn:EC.
  - exists false, g2, (S p1), w, p1. split; [reflexivity|]. split; [exact EWt|]. split; [exact W0|]. rewrite EM. split; [exact HA|]. split; [exact HL|].
    split; [intros MW Qp; rewrite <- (K1 MW Qp); split; discriminate|]. split; [intros Qz; specialize (K2 Qz); discriminate|]. split; [discriminate|]. intros _. exact ED.
  - destruct (PhaseProps.finish ms g2 rnd (S p1) X xM C2 Hp U HP HM HO HQ) as (c & p & d & p3 & E3 & E4 & HE).
    rewrite E3. cbn [bnd]. rewrite E4. cbn [bnd]. eexists true, _, p3, w, p1. split; [reflexivity|]. split; [exact EWt|]. split; [exact W0|].
    change (gM (withDau d (withAngles c p g2))) with Ms. split; [exact HA|]. split; [exact HL|].
    split; [intros MW Qp; rewrite <- (K1 MW Qp); split; reflexivity|]. split; [reflexivity|]. split; [intros _; exact HE|discriminate].
Qed.
