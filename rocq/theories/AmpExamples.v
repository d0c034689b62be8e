(* C74: events and decays that meet the hypotheses of the theorems. *)
From Coq Require Import List ZArith Reals Bool Lia Lra Psatz.

From Coquelicot Require Import Complex.
From Verif Require Import SpinSpec SpinProofs CGBoxModel CGModel CGValProofs DFuncSpec DFuncProofs PhysModel PhaseModel PhaseSpec PhaseProofs FrameModel FrameSpec FrameProofs FrameProofs2 FrameProofs3 FrameProofs4 FrameProps FrameProps2 AmpModel AmpSpec AmpProofs AmpProofs2 AmpProofs3 AmpProofs4 AmpProps.
Import ListNotations.
Open Scope R_scope.

(* X(1+) -> rho(1-) pi S wave, rho -> pi pi P wave *)
Definition exTopo : topo := Iso 0 (Vtx 0 2 (fun _ _ _ => RtoC 1)) (Iso 1 (Vtx 2 0 (fun M _ _ => RtoC (/ M))) (Fs 2) (Fs 3)) (Fs 4).
Definition exParts : parts := Parts (fun p => match p with 0%nat | 1%nat => 2 | _ => 0 end)%Z (fun p => match p with 0%nat => 1 | _ => -1 end)%Z (fun _ => 1%Z).
Definition exEvent : lvs := fun p => match p with 2%nat => Lv 4 1 5 8 | 3%nat => Lv 4 2 5 8 | _ => Lv 4 (-3) 6 9 end.
Definition exBeam : lv := Lv 0 0 9 10.
Lemma ex_mom : momentum exEvent exTopo = Lv 12 0 16 25.
Proof. unfold exTopo, exEvent. cbn [momentum]. unfold lvAdd. cbn [lx ly lz lt]. apply lv_eq; lra. Qed.
Example C74_hypotheses : distinct exTopo /\ isDecay exTopo /\ physical exEvent exTopo /\ spinsOk exParts exTopo
  /\ stateOk exParts true (root exTopo) 2 /\ stateOk exParts true (root exTopo) 0 /\ stateOk exParts false (root exTopo) (-2)
  /\ massive 15 (momentum exEvent exTopo) /\ norm3 (cross (vect exBeam) (vect (momentum exEvent exTopo))) <> 0.
Proof.
  split; [unfold distinct, exTopo; cbn; repeat constructor; cbn; intuition discriminate|]. split; [exact I|]. split.
  { apply C74_massive_final_state. intros p Hp. cbn in Hp. unfold exEvent.
    destruct Hp as [<-|[<-|[<-|[]]]]; [exists (sqrt 22)|exists (sqrt 19)|exists (sqrt 20)]; apply massive_iff; unfold mink; cbn [lx ly lz lt];
      (split; [apply sqrt_lt_R0; lra|]); (split; [lra|]); (rewrite sqrt_sqrt by lra); lra. }
  split.
  { split; [intros p Hp; cbn in Hp; unfold exParts; destruct Hp as [<-|[<-|[<-|[<-|[<-|[]]]]]]; cbn; lia|].
    intros p v a b Hv. cbn in Hv. destruct Hv as [E|[E|[]]]; injection E as <- <- <- <-; cbn; repeat split; lia. }
  split; [split; [unfold isProjOf; cbn; split; [lia|]; first [now exists 0%Z | now exists 1%Z | now exists 2%Z | now exists (-1)%Z]|intros _; cbn; repeat split; unfold isSign; lia]|].
  split; [split; [unfold isProjOf; cbn; split; [lia|]; first [now exists 0%Z | now exists 1%Z | now exists 2%Z | now exists (-1)%Z]|intros _; cbn; repeat split; unfold isSign; lia]|].
  split; [split; [unfold isProjOf; cbn; split; [lia|]; first [now exists 0%Z | now exists 1%Z | now exists 2%Z | now exists (-1)%Z]|discriminate]|].
  rewrite ex_mom. split; [unfold massive, hasMass; cbn [lx ly lz lt]; lra|].
  intros Q. apply norm3_zero in Q. unfold cross, vect, exBeam in Q. cbn [vx vy vz lx ly lz] in Q. lra.
Qed.
(* rotation of the laboratory by 90 degrees around z *)
Definition exRot : rot3 := R3 (V3 0 (-1) 0) (V3 1 0 0) (V3 0 0 1).
Example C74_rotation_hypotheses : isLorentz (ofRot exRot)
  /\ vdot (inPlane (cross (vect exBeam) (vect (momentum exEvent exTopo)))) (restMomentum (momentum exEvent exTopo) 15 exBeam) <> 0
  /\ vdot (inPlane (cross (vect (rotVec exRot exBeam)) (vect (rotVec exRot (momentum exEvent exTopo))))) (restMomentum (rotVec exRot (momentum exEvent exTopo)) 15 (rotVec exRot exBeam)) <> 0.
Proof.
  split; [|split].
  - split.
    + intros p q. rewrite !ofRot_vec. unfold mink, rotVec, vdot, vect, exRot. cbn [rX rY rZ vx vy vz lx ly lz lt]. ring.
    + unfold det4, ofRot, exRot, det3. cbn [rX rY rZ vx vy vz lx ly lz lt]. ring.
    + intros p H _. rewrite ofRot_vec. exact H.
  - rewrite ex_mom. unfold exBeam, cross, vect. cbn [vx vy vz lx ly lz]. unfold inPlane. cbn [vx vy vz].
    destruct (Req_EM_T (0 * 16 - 9 * 0) 0) as [_|N]; [|lra]. destruct (Req_EM_T (9 * 12 - 0 * 16) 0) as [N|_]; [lra|].
    unfold vdot, restMomentum. cbn [vx vy vz lx ly lz lt]. lra.
  - rewrite ex_mom. unfold exBeam, exRot, rotVec, vdot at 1 2 3 4 5 6 7 8 9 10 11 12, vect. cbn [vx vy vz rX rY rZ lx ly lz lt].
    unfold cross. cbn [vx vy vz]. unfold inPlane. cbn [vx vy vz].
    rewrite ?Rmult_0_l. 
    match goal with |- context [Req_EM_T ?x 0] => destruct (Req_EM_T x 0) as [N|_]; [exfalso; lra|] end.
    unfold vdot, restMomentum. cbn [vx vy vz lx ly lz lt]. lra.
Qed.

(* J = 0 decaying to two spinless particles: the amplitude is 1 *)
Definition exTopo0 : topo := Iso 0 (Vtx 0 0 (fun _ _ _ => RtoC 1)) (Fs 1) (Fs 2).
Definition exParts0 : parts := Parts (fun _ => 0%Z) (fun _ => 1%Z) (fun _ => 1%Z).
Example C74_scalar : forall f, exists a, termAmp f exParts0 false false false exBeam exTopo0 exEvent (fun _ => 0%Z) = Some a /\ a = RtoC 1.
Proof.
  intros f. destruct (C74_amplitude f exParts0 false false false exBeam exTopo0 exEvent (fun _ => 0%Z)) as (s' & _ & E).
  - unfold distinct, exTopo0; cbn; repeat constructor; cbn; intuition discriminate.
  - exact I.
  - apply C74_massive_final_state. intros p Hp. cbn in Hp. unfold exEvent.
    destruct Hp as [<-|[<-|[]]]; [exists (sqrt 20)|exists (sqrt 22)]; apply massive_iff; unfold mink; cbn [lx ly lz lt];
      (split; [apply sqrt_lt_R0; lra|]); (split; [lra|]); (rewrite sqrt_sqrt by lra); lra.
  - split; [intros p _; cbn; lia|]. intros p v a b Hv. cbn in Hv. destruct Hv as [Q|[]]; injection Q as <- <- <- <-; cbn; repeat split; lia.
  - split; [unfold isProjOf; cbn; split; [lia|now exists 0%Z]|discriminate].
  - discriminate.
  - eexists. split; [exact E|].
    assert (CG 0 0 0 0 0 0 = 1) as C1.
    { pose proof (clebsch_ok 0 0 0 0 0 0 ltac:(lia) ltac:(lia) ltac:(lia)) as Q.
      assert (clebsch 0 0 0 0 0 0 = Some 1) as Q1; [|congruence].
      unfold clebsch. replace (snd (cgCall cgInit 0 0 0 0 0 0)) with (CGVal (CGRoot (QArith_base.Qmake 1 1) (QArith_base.Qmake 1 1))) by (vm_compute; reflexivity).
      f_equal. unfold Rdefinitions.Q2R. cbn. rewrite Rinv_1, Rmult_1_r, sqrt_1. ring. }
    rewrite decayAmp_pure; [|unfold distinct, exTopo0; cbn; repeat constructor; cbn; intuition discriminate|exact I].
    unfold exTopo0. cbn [pureAmp root]. change (projections (pJ exParts0 1)) with [0%Z]. change (projections (pJ exParts0 2)) with [0%Z].
    unfold csum at 1. cbn [fold_right]. unfold csum. cbn [fold_right].
    assert (forall th ph, Dconj 0 0 (0 - 0) ph th = RtoC 1) as ED.
    { intros th ph. unfold Dconj, expI. change (0 - 0)%Z with 0%Z. rewrite wignerD_000. replace (IZR 0 / 2 * ph) with 0 by lra. rewrite cos_0, sin_0. now rewrite Cmult_1_r. }
    assert (forall q, barrierFactor 0 q defaultPr = 1) as EB by (intros q; unfold barrierFactor, barrierFactorSquared; apply sqrt_1).
    destruct f; unfold gOf, helVertexAmp, canVertexAmp; cbn [andb]; change (pJ exParts0 0) with 0%Z; change (pJ exParts0 1) with 0%Z; change (pJ exParts0 2) with 0%Z; cbn [vL vS vMassDep].
    + rewrite ED, EB. change (0 - 0)%Z with 0%Z. change (- 0)%Z with 0%Z. rewrite C1. change (IZR (0 + 1)) with 1. rewrite sqrt_1. ring.
    + change (projections 0) with [0%Z]. unfold csum. cbn [fold_right]. change (0 + 0)%Z with 0%Z. rewrite C1, EB. unfold Ylm. rewrite wignerD_000.
      replace (IZR 0 / 2 * phiOf (s' 1%nat)) with 0 by lra. unfold expI. rewrite cos_0, sin_0. change ((1, 0)) with (RtoC 1).
      assert (0 < 4 * PI) as P4 by (pose proof PI_RGT_0; lra).
      assert (sqrt (4 * PI) * sqrt (IZR (0 + 1) / (4 * PI)) = 1) as ES.
      { rewrite <- sqrt_mult_alt by lra. replace (4 * PI * (IZR (0 + 1) / (4 * PI))) with 1; [apply sqrt_1|]. change (IZR (0 + 1)) with 1. field. lra. }
      transitivity (RtoC (sqrt (4 * PI) * sqrt (IZR (0 + 1) / (4 * PI)))); [rewrite RtoC_mult; ring|now rewrite ES].
Qed.
