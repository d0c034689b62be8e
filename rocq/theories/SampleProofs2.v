(* C84: the event of a point. *)
From Coq Require Import List ZArith Reals Bool Lia Lra Psatz.
From Verif Require Import ArrayModel CGBoxModel PhysModel PhysProps PhaseModel PhaseSpec PhaseProofs PhaseProofs2 PhaseProofs3 PhaseProofs4 PhaseProps PhaseProps2 PhaseProps4 PhaseProps5 FrameModel FrameSpec FrameProofs FrameProofs2 FrameProofs3 FrameProps2 ProdModel ProdSpec ProdProofs SampleModel SampleSpec SampleProofs SampleProps.
From Verif Require Import LikSetProofs.
Import ListNotations.
Open Scope R_scope.

Notation L0 := (Lv 0 0 0 0).
Lemma usedFor_breakup ms g g' : usedFor ms g -> calcBreakupMomenta g = Some g' -> usedFor ms g'.
Proof.
  intros (g0 & g1 & fuel & rnd & calls & pos & pos' & E & RS & F) EB. exists g0, g1, fuel, rnd, (calls ++ [CBreakup]), pos, pos'. split; [exact E|]. split.
  - apply Forall_app. split; [exact RS|]. constructor; [exact I|constructor].
  - rewrite foldO_app. rewrite F. cbn [bnd foldO doCall]. rewrite EB. reflexivity.
Qed.
Lemma masses_pos ms Ms : Forall (fun m => 0 <= m) ms -> allowedMasses ms Ms -> 0 < nth 1 Ms 0 -> forall i, (1 <= i < length ms)%nat -> 0 < nth i Ms 0.
Proof.
  intros Hp (LA & A0 & A) M1. induction i as [|i IH]; intros Hi; [lia|]. destruct (Nat.eq_dec i 0) as [->|]; [exact M1|].
  specialize (IH ltac:(lia)). specialize (A (S i) Hi). replace (S i - 1)%nat with i in A by lia. pose proof (pos_nth ms (S i) Hp). lra.
Qed.
Lemma event_ok ms range s pars : made ms range s -> isPoint ms pars -> Forall (fun m => 0 <= m) ms ->
  allowedMasses ms (pointMasses ms pars) -> 0 < nth 1 (pointMasses ms pars) 0 ->
  (forall i, (1 <= i < length ms)%nat -> -1 <= pointCos ms pars i <= 1) ->
  exists g q, eventInX pars s = Some g /\ isEvent ms (pointMasses ms pars) (Lv 0 0 0 (massX ms pars)) (gDau g)
    /\ (let n := (length ms - 1)%nat in isBreakup (massX ms pars) (nth (n - 1) (pointMasses ms pars) 0) (nth n ms 0) q
        /\ let c := pointCos ms pars n in let f := pointPhi ms pars n in
           vect (nth n (gDau g) L0) = V3 (q * sqrt (1 - c * c) * cos f) (q * sqrt (1 - c * c) * sin f) (q * c)).
Proof.
  intros HM HP Hp AM M1 HC. destruct (made_ok ms range s HM) as (N & _ & EM & _ & _). set (Ms := pointMasses ms pars) in *.
  pose proof (masses_pos ms Ms Hp AM M1) as Mpos.
  unfold eventInX. destruct (init_ok ms range s pars true HM HP) as (r & ER & QR). fold Ms in QR. rewrite ER. cbn [bnd]. destruct r as [g|]; [|contradiction]. cbn [bnd].
  destruct QR as (_ & U & T & K & GM & ANG). specialize (ANG eq_refl). unfold nPart. rewrite EM, (massX_rd ms pars N HP). cbn [bnd].
  pose proof (usedFor_consistent ms g (sameType_usedFor ms g U)) as C0. set (mX := massX ms pars) in *.
  assert (nth (length ms - 1) Ms 0 = mX) as EX by reflexivity. assert (0 < mX) as X0 by (rewrite <- EX; apply Mpos; lia).
  rewrite <- GM in AM, Mpos. destruct (breakup_ok ms g C0 Hp AM Mpos) as (qs & EB & LQ & HQ). rewrite EB. cbn [bnd].
  pose proof (breakup_consistent ms g _ C0 EB) as C3. pose proof (usedFor_breakup ms g _ (sameType_usedFor ms g U) EB) as U3. set (g3 := withQ qs g) in *.
  destruct (eventKinematics_ok g3 ms (Lv 0 0 0 mX)) as (d & Ed & Hd); try (rewrite (co_n ms g3 C3)); try apply C3; try assumption.
  - reflexivity.
  - intros i Hi. destruct (ANG i Hi) as [E1 _]. change (gCos g3) with (gCos g). rewrite E1. now apply HC.
  - intros i Hi. change (gM g3) with (gM g). change (gQ g3) with qs. apply HQ. exact Hi.
  - change (gM g3) with (gM g). rewrite GM. fold mX. change (nth (length ms - 1) Ms 0) with mX. unfold dot. cbn [lx ly lz lt]. ring.
  - exists (withDau d g3), (nth (length ms - 1) qs 0). split; [exact Ed|]. split; [change (gM g3) with (gM g) in Hd; rewrite GM in Hd; exact Hd|]. set (n := (length ms - 1)%nat). cbv zeta.
    assert (1 <= n < length ms)%nat as Hn by (unfold n; lia). fold n. split.
    + destruct (HQ n Hn) as [_ [Q0 QE]]. rewrite GM in QE. split; [exact Q0|]. change mX with (nth n Ms 0). rewrite <- QE. f_equal; f_equal; ring.
    + set (c := pointCos ms pars n). set (f := pointPhi ms pars n). destruct (C72_direction ms g3 mX (withDau d g3) U3 ltac:(lra) Ed) as (D1 & D2 & D3). fold n in D1, D2, D3.
      change (gKT g3) with (gKT g) in D1, D2, D3. rewrite K in D1, D2, D3. change (gQ g3) with qs in D1, D2, D3. change (gCos g3) with (gCos g) in D1, D2, D3. change (gPhi g3) with (gPhi g) in D1, D2.
      destruct (ANG n Hn) as [EC EP]. rewrite EC in D1, D2, D3. rewrite EP in D1, D2. fold c in D1, D2, D3. fold f in D1, D2. unfold vect. rewrite D1, D2, D3. rewrite !Rmult_1_l. reflexivity.
Qed.
(* ---- the laboratory frame ---- *)
Lemma cs_mink p q : 0 <= lt p -> 0 <= mink p p -> 0 <= lt q -> 0 <= mink q q -> 0 <= mink p q.
Proof.
  intros P0 PM Q0 QM. unfold mink in *. destruct p as [a b c e], q as [x y z t]. cbn [lx ly lz lt] in *.
  assert ((a * x + b * y + c * z) * (a * x + b * y + c * z) <= (a * a + b * b + c * c) * (x * x + y * y + z * z)) as CS.
  { pose proof (Rle_0_sqr (a * y - b * x)). pose proof (Rle_0_sqr (a * z - c * x)). pose proof (Rle_0_sqr (b * z - c * y)). unfold Rsqr in *. nra. }
  assert ((a * a + b * b + c * c) * (x * x + y * y + z * z) <= (e * t) * (e * t)) as LE.
  { replace ((e * t) * (e * t)) with ((e * e) * (t * t)) by ring. apply Rmult_le_compat; nra. }
  assert (0 <= e * t) as ET by nra. assert (a * x + b * y + c * z <= e * t); [|lra]. apply Rsqr_incr_0_var; [unfold Rsqr; lra|exact ET].
Qed.
Section Lab.
  Variable G : lrot.
  Hypothesis HG : good G.
  Lemma inv_mink p q : mink (lapply (linv G) p) (lapply (linv G) q) = mink p q.
  Proof. rewrite <- (isl_mink _ (gd_lor _ HG) (lapply (linv G) p)), !(gd_r _ HG). reflexivity. Qed.
  Lemma inv_mass m p : hasMass m p -> hasMass m (lapply (linv G) p).
  Proof. intros H. apply mass_mink. rewrite inv_mink. now apply mass_mink. Qed.
  Lemma inv_pos p : 0 <= lt p -> 0 <= mink p p -> 0 <= lt (lapply (linv G) p).
  Proof.
    intros P M. assert (lt (lapply (linv G) p) = mink (lapply (linv G) p) (Lv 0 0 0 1)) as -> by (unfold mink; cbn [lx ly lz lt]; ring).
    set (u := lapply G (Lv 0 0 0 1)). assert (lapply (linv G) u = Lv 0 0 0 1) as <- by (apply (gd_l _ HG)). rewrite inv_mink.
    assert (mink u u = 1) as EU by (unfold u; rewrite (isl_mink _ (gd_lor _ HG)); unfold mink; cbn [lx ly lz lt]; ring).
    apply cs_mink; try assumption; [|lra]. left. apply (isl_future _ (gd_lor _ HG)); unfold mink; cbn [lx ly lz lt]; lra.
  Qed.
  Lemma inv_sum l : sum4 (map (lapply (linv G)) l) = lapply (linv G) (sum4 l).
  Proof. apply sum4_map; [intros p q; unfold plus4, lapply, rowDot; cbn [lx ly lz lt]; apply lv_eq; ring|unfold lapply, rowDot; cbn [lx ly lz lt]; apply lv_eq; ring]. Qed.
  Lemma inv_nth l i : nth i (map (lapply (linv G)) l) L0 = lapply (linv G) (nth i l L0).
  Proof. rewrite <- (map_nth (lapply (linv G))). f_equal. unfold lapply, rowDot. cbn [lx ly lz lt]. apply lv_eq; ring. Qed.
  Lemma inv_event ms Ms P ds : isEvent ms Ms P ds -> isEvent ms Ms (lapply (linv G) P) (map (lapply (linv G)) ds).
  Proof.
    intros (LE & SU & ON & MA). split; [now rewrite map_length|]. split; [rewrite inv_sum; now rewrite SU|]. split.
    - intros i Hi. destruct (ON i Hi) as [H1 H2]. rewrite inv_nth. split; [now apply inv_mass|]. apply inv_pos; [exact H2|]. apply mass_mink in H1. rewrite H1. apply Rle_0_sqr.
    - intros i Hi. rewrite firstn_map, inv_sum. now apply inv_mass, MA.
  Qed.
End Lab.
Lemma withMass_ok m p : hasMass m p -> 0 <= lt p -> withMass m (vect p) = p.
Proof.
  intros H P. unfold withMass, vect. cbn [vx vy vz]. destruct p as [x y z e]. unfold hasMass in H. cbn [lx ly lz lt] in *. f_equal.
  replace (m * m + (x * x + y * y + z * z)) with (e * e) by (cbn [pow] in H; lra). now apply sqrt_square.
Qed.
Lemma pairs_length : forall n, length (flat_map (fun a => map (fun b => (a, b)) (seq 0 a)) (seq 0 n)) = (n * (n - 1) / 2)%nat.
Proof.
  assert (forall n, (2 * length (flat_map (fun a => map (fun b => (a, b)) (seq 0 a)) (seq 0 n)) = n * (n - 1))%nat) as K.
  { induction n as [|n IH]; [reflexivity|]. rewrite seq_S. rewrite flat_map_app, app_length. cbn [flat_map plus]. rewrite app_nil_r, map_length, seq_length. destruct n; [reflexivity|]. cbn [Nat.sub] in *. rewrite !Nat.sub_0_r in *. nia. }
  intros n. rewrite <- K. rewrite Nat.mul_comm, Nat.div_mul; lia.
Qed.
Lemma pairMasses_ok ds : length (pairMasses ds) = (length ds * (length ds - 1) / 2)%nat
  /\ forall a b, (b < a < length ds)%nat -> nth (pairIndex a b) (pairMasses ds) 0 = inv2 (plus4 (nth a ds L0) (nth b ds L0)).
Proof.
  set (h := fun ab : nat * nat => lvM2 (lvAdd (nth (fst ab) ds L0) (nth (snd ab) ds L0))).
  assert (forall l, flat_map (fun a => map (fun b => lvM2 (lvAdd (nth a ds L0) (nth b ds L0))) (seq 0 a)) l = map h (flat_map (fun a => map (fun b => (a, b)) (seq 0 a)) l)) as E.
  { induction l as [|a l IH]; [reflexivity|]. cbn [flat_map]. rewrite map_app, IH. f_equal. rewrite map_map. reflexivity. }
  unfold pairMasses. rewrite E, map_length, pairs_length. split; [reflexivity|]. intros a b H.
  assert (forall n, (a < n)%nat -> nth (pairIndex a b) (flat_map (fun a => map (fun b => (a, b)) (seq 0 a)) (seq 0 n)) (0, 0)%nat = (a, b)
    /\ (pairIndex a b < length (flat_map (fun a => map (fun b => (a, b)) (seq 0 a)) (seq 0 n)))%nat) as K.
  { intros n Hn. replace n with (a + (1 + (n - S a)))%nat by lia. rewrite seq_app, flat_map_app. cbn [plus]. set (A := flat_map (fun a0 => map (fun b0 => (a0, b0)) (seq 0 a0)) (seq 0 a)).
    assert (length A = (a * (a - 1) / 2)%nat) as LA by apply pairs_length. cbn [seq flat_map]. unfold pairIndex. split.
    - rewrite app_nth2 by lia. rewrite LA. replace (a * (a - 1) / 2 + b - a * (a - 1) / 2)%nat with b by lia. rewrite app_nth1 by (rewrite map_length, seq_length; lia).
      rewrite (nth_indep _ _ ((fun b0 => (a, b0)) 0%nat)) by (rewrite map_length, seq_length; lia). rewrite (map_nth (fun b0 => (a, b0))), seq_nth by lia. reflexivity.
    - rewrite !app_length, map_length, seq_length. lia. }
  destruct (K (length ds) ltac:(lia)) as [K1 K2]. rewrite (nth_indep _ _ (h (0, 0)%nat)) by (rewrite map_length; exact K2). rewrite map_nth, K1. unfold h. cbn [fst snd]. unfold lvM2, inv2, lvAdd, plus4. cbn [lx ly lz lt]. ring.
Qed.
