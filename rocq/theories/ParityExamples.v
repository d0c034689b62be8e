(* C75: a decay and an event that meet the hypotheses of the theorems. *)
From Coq Require Import List ZArith Reals Bool Lia Lra Psatz.
From Coquelicot Require Import Complex.
From Verif Require Import SpinSpec CGBoxModel PhysModel PhaseModel PhaseSpec PhaseProofs FrameModel FrameSpec FrameProofs FrameProofs2 FrameProofs3 FrameProofs4 FrameProps FrameProps2 AmpModel AmpSpec AmpProofs AmpProofs2 AmpProps AmpExamples ParityModel ParitySpec ParityProofs2 ParityProps.
Import ListNotations.
Open Scope R_scope.

(* X(1+) -> rho(1-) pi(0-) S wave, rho -> pi pi P wave: parity is conserved *)
Example C75_parity : parityConserved exParts exTopo /\ integerSpins exParts exTopo /\ spinlessFinalState exParts exTopo
  /\ spaceInvEigenValue exParts exTopo = Some (-1)%Z /\ reflectionEigenValue exParts exTopo = Some 1%Z.
Proof.
  split; [|split; [|split; [|split; reflexivity]]].
  - split; [intros p Hp; cbn in Hp; unfold exParts, isSign; destruct Hp as [<-|[<-|[<-|[<-|[<-|[]]]]]]; cbn; lia|].
    intros p v a b Hv. cbn in Hv. destruct Hv as [E|[E|[]]]; injection E as <- <- <- <-; reflexivity.
  - intros p Hp. cbn in Hp. destruct Hp as [<-|[<-|[<-|[<-|[<-|[]]]]]]; reflexivity.
  - intros p Hp. cbn in Hp. destruct Hp as [<-|[<-|[<-|[]]]]; reflexivity.
Qed.
Lemma lapply_lin L p q k : lapply L (lvAdd p (scale4 k q)) = lvAdd (lapply L p) (scale4 k (lapply L q)).
Proof. unfold lapply, lvAdd, scale4, rowDot. cbn [lx ly lz lt]. apply lv_eq; ring. Qed.
Lemma lor_zero L r : isLorentz L -> lapply L r = Lv 0 0 0 0 -> lx r = 0 /\ ly r = 0 /\ lz r = 0 /\ lt r = 0.
Proof.
  intros HL E. assert (forall q, mink r q = 0) as K by (intros q; rewrite <- (isl_mink _ HL), E; unfold mink; cbn [lx ly lz lt]; ring).
  pose proof (K (Lv 1 0 0 0)) as K1. pose proof (K (Lv 0 1 0 0)) as K2. pose proof (K (Lv 0 0 1 0)) as K3. pose proof (K (Lv 0 0 0 1)) as K4.
  unfold mink in *. cbn [lx ly lz lt] in *. lra.
Qed.
(* no particle flies along the z axis of the frame it is in *)
Example C75_off_axis : exists u, transformDaughters helStep false false exBeam exTopo exEvent = Some u /\ forall p, In p (below exTopo) -> ~ alongZ (u p).
Proof.
  destruct C74_hypotheses as (D & HD & PH & SO & _ & _ & _ & HM & HN). destruct C74_rotation_hypotheses as (_ & HV & _).
  destruct (td_ok (stepOf Helicity) false false exBeam exTopo exEvent (iso_step Helicity) D HD PH ltac:(discriminate)) as (u & E & F & _).
  exists u. split; [exact E|].
  destruct (C73_gottfried_jackson_frame exBeam _ 15 HM HN HV) as (G & EG & [LG GX GB GN]).
  destruct F as (G' & EG' & _ & _ & P1 & P4). change (modified false false exBeam exTopo exEvent) with exEvent in *. assert (G' = G) as -> by congruence. clear EG'.
  rewrite ex_mom in *.
  assert (cross (vect exBeam) (vect (Lv 12 0 16 25)) = V3 0 108 0) as EC by (unfold cross, vect, exBeam; cbn [lx ly lz vx vy vz]; f_equal; ring).
  rewrite EC in GN. assert (norm3 (V3 0 108 0) = 108) as EN by (unfold norm3; cbn [vx vy vz]; replace (0 * 0 + 108 * 108 + 0 * 0) with (108 * 108) by ring; apply sqrt_square; lra).
  rewrite EN in GN.
  assert (forall q, ly (lapply G q) = ly q) as GY.
  { intros q. rewrite (comp_y G (ofV3 (V3 0 108 0)) 108 q LG ltac:(lra) GN). unfold mink, ofV3. cbn [vx vy vz lx ly lz lt]. field. }
  assert (lapply G (Lv 0 1 0 0) = Lv 0 1 0 0) as GE.
  { transitivity (lapply G (scale4 (/ 108) (ofV3 (V3 0 108 0)))); [f_equal; unfold scale4, ofV3; cbn [vx vy vz lx ly lz lt]; apply lv_eq; field|].
    unfold scale4. rewrite lapply_scale, GN. cbn [lx ly lz lt]. apply lv_eq; field. }
  destruct GB as (k & Pk & GB). set (kt := lt (lapply G exBeam)) in *.
  (* the pion 2 is not in the plane of the beam and the normal *)
  set (q := lapply G (exEvent 2%nat)). assert (lx q <> 0) as NX.
  { intros Q. set (al := lz q / k). set (be := (lt q - al * kt) / 15).
    assert (lapply G (lvAdd (lvAdd (lvAdd (exEvent 2%nat) (scale4 (- al) exBeam)) (scale4 (- be) (Lv 12 0 16 25))) (scale4 (-1) (Lv 0 1 0 0))) = Lv 0 0 0 0) as Z0.
    { rewrite !lapply_lin. fold q. rewrite GB, GX, GE. pose proof (GY (exEvent 2%nat)) as Y. fold q in Y. unfold exEvent in Y. cbn [ly] in Y.
      unfold lvAdd, scale4. cbn [lx ly lz lt]. rewrite Q, Y. apply lv_eq; unfold be, al; field; lra. }
    apply (lor_zero G _ LG) in Z0. unfold lvAdd, scale4, exEvent, exBeam in Z0. cbn [lx ly lz lt] in Z0. destruct Z0 as (Z1 & _ & Z3 & Z4). lra. }
  cbn [placed root momentum] in P1, P4. destruct P1 as (E1 & H & LH & SH & (E2 & _) & (E3 & _)). destruct P4 as (E4 & _).
  set (d := lvAdd (exEvent 2%nat) (exEvent 3%nat)) in *.
  assert (d = lvAdd (Lv 0 1 0 0) (scale4 2 (exEvent 2%nat))) as ED by (unfold d, lvAdd, scale4, exEvent; cbn [lx ly lz lt]; apply lv_eq; lra).
  assert (u 1%nat = lvAdd (Lv 0 1 0 0) (scale4 2 q)) as E1' by (rewrite E1, ED, lapply_lin, GE; reflexivity).
  assert (ly q = 1) as QY by (unfold q; rewrite GY; reflexivity).
  destruct (PH (Iso 1 (Vtx 2 0 (fun M _ _ => RtoC (/ M))) (Fs 2) (Fs 3))) as (m & Hm); [cbn; tauto|]. cbn [momentum] in Hm. fold d in Hm.
  assert (massive m (u 1%nat)) as Hu by (rewrite E1; now apply massive_map).
  destruct (C73_helicity_frame (u 1%nat) m Hu) as (H0 & EH & [L0 _ _ N0]); [right; rewrite E1'; unfold lvAdd, scale4; cbn [ly]; rewrite QY; lra|].
  assert (forall x, lapply H x = lapply H0 x) as HH by (intros x; specialize (SH x); cbn [stepOf root] in SH; unfold helStep in SH; rewrite EH in SH; cbn [bnd] in SH; congruence).
  set (n := cross (V3 0 0 1) (vect (u 1%nat))) in *.
  assert (n = V3 (-3) (2 * lx q) 0) as En by (unfold n; rewrite E1'; unfold cross, vect, lvAdd, scale4; cbn [lx ly lz vx vy vz]; rewrite QY; f_equal; ring).
  assert (norm3 n <> 0) as Nn by (intros Q; apply norm3_zero in Q; rewrite En in Q; cbn [vx vy vz] in Q; lra).
  assert (forall x, lx x * -3 + ly x * (2 * lx q) <> 0 -> ~ alongZ (lapply H x)) as OFF.
  { intros x Hx [_ Y]. rewrite HH, (comp_y H0 (ofV3 n) (norm3 n) x L0 Nn N0) in Y. apply Hx. rewrite En in Y. unfold mink, ofV3 in Y. cbn [vx vy vz lx ly lz lt] in Y. rewrite <- En in Y.
    apply (Rmult_eq_compat_r (norm3 n)) in Y. unfold Rdiv in Y. rewrite Rmult_assoc, Rinv_l in Y by exact Nn. lra. }
  intros p Hp. cbn in Hp. destruct Hp as [<-|[<-|[<-|[<-|[]]]]].
  - intros [_ Y]. rewrite E1' in Y. unfold lvAdd, scale4 in Y. cbn [ly] in Y. lra.
  - rewrite E2, lapply_mul. apply OFF. fold q. rewrite QY. lra.
  - rewrite E3, lapply_mul. apply OFF.
    assert (lapply G (exEvent 3%nat) = lvAdd q (scale4 1 (Lv 0 1 0 0))) as ->.
    { unfold q. transitivity (lapply G (lvAdd (exEvent 2%nat) (scale4 1 (Lv 0 1 0 0)))); [f_equal; unfold lvAdd, scale4, exEvent; cbn [lx ly lz lt]; apply lv_eq; lra|]. rewrite lapply_lin, GE. reflexivity. }
    unfold lvAdd, scale4. cbn [lx ly]. rewrite QY. lra.
  - intros [_ Y]. rewrite E4, GY in Y. unfold exEvent in Y. cbn [ly] in Y. lra.
Qed.
(* the theorems apply to it: the inverted event has minus the amplitude, the reflected one the same *)
Example C75_applies : exists A, termAmp Helicity exParts true false false exBeam exTopo exEvent (fun _ => 2%Z) = Some A
  /\ termAmp Helicity exParts true true false exBeam exTopo exEvent (fun _ => 2%Z) = Some (RtoC (-1) * A)%C
  /\ termAmp Helicity exParts true false true exBeam exTopo exEvent (fun _ => 2%Z) = Some (RtoC 1 * A)%C.
Proof.
  destruct C74_hypotheses as (D & HD & PH & SO & ST & _ & _ & HM & HN). destruct C75_parity as (PC & IS & SF & E1 & E2). destruct C75_off_axis as (u & EU & OA).
  destruct (C75_space_inversion_helicity exParts true exBeam exTopo exEvent u (fun _ => 2%Z) D HD PH SO ST PC IS SF EU OA) as (e & A & Ee & T1 & T2).
  destruct (C75_reflection Helicity exParts exBeam exTopo exEvent u (fun _ => 2%Z) D HD PH SO ST PC IS SF HN EU) as (e' & A' & Ee' & T1' & T2').
  - intros _ v Hv Nv. apply OA. cbn in Hv. destruct Hv as [<-|[<-|[]]]; [exfalso; now apply Nv|cbn; tauto].
  - exists A. assert (e = -1)%Z as -> by congruence. assert (e' = 1)%Z as -> by congruence. assert (A' = A) as -> by congruence. tauto.
Qed.
