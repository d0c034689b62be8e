(* C72, continued: the angles. *)
From Coq Require Import List ZArith Reals Bool Lia Lra Psatz.
From Verif Require Import ArrayModel CGBoxModel PhysModel PhysProps SumAccProofs LikSetProofs PhaseModel PhaseSpec PhaseProofs PhaseProofs2 PhaseProofs3 PhaseProofs4 PhaseProps.
Import ListNotations.
Open Scope R_scope.

(* cos(theta) and phi are uniform and use each random number once *)
Theorem C72_angles_uniform : forall ms g rnd pos, usedFor ms g ->
  exists g', pickAngles rnd pos g = Some (g', (pos + 2 * (length ms - 1))%nat)
    /\ gM g' = gM g /\ gQ g' = gQ g /\ gDau g' = gDau g
    /\ forall i, (1 <= i < length ms)%nat ->
       nth i (gCos g') 0 = 2 * rnd (pos + 2 * (i - 1))%nat - 1 /\ nth i (gPhi g') 0 = 2 * PI * rnd (pos + 2 * (i - 1) + 1)%nat.
Proof.
  intros ms g rnd pos HU. pose proof (usedFor_consistent ms g HU) as C. pose proof (co_n2 ms g C) as Hn. unfold pickAngles. rewrite (co_n ms g C).
  assert (forall k, (k < length ms)%nat -> exists c p, foldO (fun i s => let '(c, p, pos) := s in
      do c <- wr c i (2 * rnd pos - 1); do p <- wr p i (2 * PI * rnd (pos + 1)%nat); Some (c, p, (pos + 2)%nat)) (seq 1 k) (gCos g, gPhi g, pos) = Some (c, p, (pos + 2 * k)%nat)
    /\ length c = length ms /\ length p = length ms /\ forall i, (1 <= i <= k)%nat -> nth i c 0 = 2 * rnd (pos + 2 * (i - 1))%nat - 1 /\ nth i p 0 = 2 * PI * rnd (pos + 2 * (i - 1) + 1)%nat) as K.
  { induction k as [|k IH]; intros Hk.
    - exists (gCos g), (gPhi g). split; [cbn [seq foldO]; do 2 f_equal; lia|]. split; [apply C|]. split; [apply C|]. intros; lia.
    - destruct (IH ltac:(lia)) as (c & p & E & Lc & Lp & H). rewrite seq_S, foldO_app, E. cbn [bnd foldO]. change (1 + k)%nat with (S k).
      destruct (wr_nth c (S k) (2 * rnd (pos + 2 * k)%nat - 1) 0 ltac:(lia)) as (c' & Ec & Lc' & Nc). rewrite Ec. cbn [bnd].
      destruct (wr_nth p (S k) (2 * PI * rnd (pos + 2 * k + 1)%nat) 0 ltac:(lia)) as (p' & Ep & Lp' & Np). rewrite Ep. cbn [bnd].
      exists c', p'. split; [do 2 f_equal; lia|]. split; [lia|]. split; [lia|]. intros i Hi. rewrite Nc, Np.
      destruct (Nat.eqb_spec i (S k)) as [->|]; [replace (S k - 1)%nat with k by lia; now split|apply H; lia]. }
  destruct (K (length ms - 1)%nat ltac:(lia)) as (c & p & E & Lc & Lp & H). rewrite E. cbn [bnd fst snd].
  eexists. split; [reflexivity|]. split; [reflexivity|]. split; [reflexivity|]. split; [reflexivity|]. intros i Hi. apply H. lia.
Qed.

Lemma boost_zero p : boost (V3 0 0 0) p = Some p.
Proof.
  unfold boost. cbn [vx vy vz]. replace (0 * 0 + 0 * 0 + 0 * 0) with 0 by ring. rewrite osqrt_ok by lra. cbn [bnd].
  replace (1 - 0) with 1 by ring. rewrite sqrt_1, rdiv_ok by lra. cbn [bnd]. rewrite rltb_false by lra. destruct p as [a b c d]. cbn [lx ly lz lt]. f_equal. f_equal; field.
Qed.
Lemma forFirst_nth k f d d' i : forFirst k f d = Some d' -> (i < length d)%nat ->
  (k <= length d)%nat -> (if (i <? k)%nat then f (nth i d (Lv 0 0 0 0)) = Some (nth i d' (Lv 0 0 0 0)) else nth i d' (Lv 0 0 0 0) = nth i d (Lv 0 0 0 0)) /\ length d' = length d.
Proof.
  unfold forFirst. revert d'. induction k as [|k IH]; intros d' E Hi Hk.
  - cbn in E. injection E as <-. now split.
  - rewrite seq_S, foldO_app in E. apply bnd_some in E as (d1 & E1 & E). cbn [foldO] in E. apply bnd_some in E as (d2 & E2 & E). injection E as <-.
    destruct (IH d1 E1 Hi ltac:(lia)) as [N1 L1]. apply bnd_some in E2 as (p & Ep & E2). apply bnd_some in E2 as (p' & Ep' & E2). change (0 + k)%nat with k in *.
    destruct (wr_nth d1 k p' (Lv 0 0 0 0) ltac:(lia)) as (d3 & E3 & L3 & N3). rewrite E2 in E3. injection E3 as <-. split; [|lia]. rewrite N3.
    rewrite (rd_nth d1 k (Lv 0 0 0 0)) in Ep by lia. injection Ep as <-.
    destruct (Nat.eqb_spec i k) as [->|]; [|].
    + rewrite (proj2 (Nat.ltb_ge k k)) in N1 by lia. rewrite (proj2 (Nat.ltb_lt k (S k))) by lia. now rewrite <- N1.
    + destruct (Nat.ltb_spec i k), (Nat.ltb_spec i (S k)); try lia; exact N1.
Qed.

(* In the rest frame of the decaying system the last daughter flies in the direction of the angles
   (BLOCK) or opposite to it (RAUBOLD_LYNCH), with the break-up momentum *)
Theorem C72_direction : forall ms g M g', usedFor ms g -> M <> 0 -> calcEventKinematics (Lv 0 0 0 M) g = Some g' ->
  let n := length ms in
  let q := nth (n - 1) (gQ g) 0 in let c := nth (n - 1) (gCos g) 0 in let phi := nth (n - 1) (gPhi g) 0 in
  let sign := match gKT g with BLOCK => 1 | RAUBOLD_LYNCH => -1 end in
  let p := nth (n - 1) (gDau g') (Lv 0 0 0 0) in
  lx p = sign * q * sqrt (1 - c * c) * cos phi /\ ly p = sign * q * sqrt (1 - c * c) * sin phi /\ lz p = sign * q * c.
Proof.
  intros ms g M g' HU HM E n q c phi sign p. pose proof (usedFor_consistent ms g HU) as C. pose proof (co_n2 ms g C) as Hn. fold n in Hn.
  assert (boostVector (Lv 0 0 0 M) = Some (V3 0 0 0)) as EB.
  { unfold boostVector. cbn [lx ly lz lt]. rewrite !rdiv_ok by exact HM. cbn [bnd]. do 2 f_equal; field; exact HM. }
  unfold calcEventKinematics in E. rewrite (co_n ms g C) in E. fold n in E. rewrite (proj2 (Nat.ltb_ge n 2)) in E by lia.
  apply bnd_some in E as (d & E & Eg). injection Eg as <-. unfold p. cbn [withDau gDau]. clear p. unfold sign. clear sign.
  pose proof (co_c ms g C) as Lc. pose proof (co_p ms g C) as Lp. pose proof (co_q ms g C) as Lq. pose proof (co_d ms g C) as Ld. fold n in Lc, Lp, Lq, Ld.
  destruct (gKT g).
  - unfold eventBlock in E. rewrite (co_n ms g C) in E. fold n in E. apply bnd_some in E as (r & Er & E).
    replace (n - 1)%nat with (S (n - 2)) in Er by lia. rewrite seq_S, rev_app_distr in Er. cbn [rev app foldO] in Er. replace (1 + (n - 2))%nat with (n - 1)%nat in Er by lia.
    apply bnd_some in Er as (r1 & E1 & Er). cbv beta zeta in E1. cbn [fst snd] in E1.
    rewrite (rd_nth (gCos g) (n - 1) 0), (rd_nth (gPhi g) (n - 1) 0), (rd_nth (gQ g) (n - 1) 0) in E1 by lia. cbn [bnd] in E1. fold c phi q in E1.
    apply bnd_some in E1 as (m & Em & E1). apply bnd_some in E1 as (sT & Es & E1). apply bnd_some in E1 as (e & Ee & E1). rewrite EB in E1. cbn [bnd] in E1.
    rewrite boost_zero in E1. cbn [bnd] in E1. apply bnd_some in E1 as (d1 & Ed1 & E1). injection E1 as <-.
    assert (sT = sqrt (1 - c * c)) as ->. { unfold osqrt in Es. destruct (rltb _ 0); [discriminate|]. now injection Es as <-. }
    destruct (wr_nth (gDau g) (n - 1) (Lv (q * sqrt (1 - c * c) * cos phi) (q * sqrt (1 - c * c) * sin phi) (q * c) e) (Lv 0 0 0 0) ltac:(lia)) as (d2 & E2 & L2 & N2).
    rewrite Ed1 in E2. injection E2 as <-.
    assert (length (snd r) = n /\ nth (n - 1) (snd r) (Lv 0 0 0 0) = nth (n - 1) d1 (Lv 0 0 0 0)) as [Lr Nr].
    { apply (foldO_inv _ (fun r => length (snd r) = n /\ nth (n - 1) (snd r) (Lv 0 0 0 0) = nth (n - 1) d1 (Lv 0 0 0 0)) _) in Er; [exact Er| |cbn [snd]; split; [lia|reflexivity]].
      intros i a a' Hi [La Na] Ea. apply in_rev, in_seq in Hi. peel Ea. injection Ea as <-. cbn [snd].
      match goal with X : wr (snd a) i ?v = Some ?w |- _ => destruct (wr_nth (snd a) i v (Lv 0 0 0 0) ltac:(lia)) as (dz & Ez & Lz & Nz); rewrite X in Ez; injection Ez as <- end.
      split; [lia|]. rewrite Nz. destruct (Nat.eqb_spec (n - 1) i); [lia|exact Na]. }
    destruct (wr_nth (snd r) 0 (fst r) (Lv 0 0 0 0) ltac:(lia)) as (d4 & E4 & L4 & N4). rewrite E in E4. injection E4 as <-.
    rewrite N4. destruct (Nat.eqb_spec (n - 1) 0); [lia|]. rewrite Nr, N2, Nat.eqb_refl. cbn [lx ly lz]. repeat split; ring.
  - unfold eventRL in E. rewrite (co_n ms g C) in E. fold n in E. cbv zeta in E.
    apply bnd_some in E as (m0 & Em0 & E). apply bnd_some in E as (q1 & Eq1 & E). apply bnd_some in E as (e0 & Ee0 & E). apply bnd_some in E as (d0 & Ed0 & E).
    assert (seq 1 (n - 1) = seq 1 (n - 2) ++ [(n - 1)%nat]) as ES by (replace (n - 1)%nat with (S (n - 2)) at 1 by lia; rewrite seq_S; do 2 f_equal; lia).
    rewrite ES, foldO_app in E.
    apply bnd_some in E as (d1 & E1 & E). cbn [foldO] in E. apply bnd_some in E as (d2 & E2 & E). injection E as <-.
    assert (length d1 = n) as L1.
    { apply wr_len in Ed0. apply (foldO_inv _ (fun r => length r = n) _) in E1; [exact E1| |lia].
      intros i a a' _ La Ea. cbv beta in Ea. peel Ea.
      repeat match goal with X : wr _ _ _ = Some _ |- _ => apply wr_len in X end.
      match goal with X : forFirst _ _ _ = Some _ |- _ => apply forFirst_len in X end.
      destruct (i <? n - 1)%nat; peel Ea; apply forFirst_len in Ea; lia. }
    clear E1. cbv beta in E2. apply bnd_some in E2 as (m & Em & E2). rewrite (rd_nth (gQ g) (n - 1) 0) in E2 by lia. cbn [bnd] in E2. fold q in E2.
    apply bnd_some in E2 as (e & Ee & E2). apply bnd_some in E2 as (d3 & E3 & E2).
    rewrite (rd_nth (gCos g) (n - 1) 0), (rd_nth (gPhi g) (n - 1) 0) in E2 by lia. cbn [bnd] in E2. fold c phi in E2.
    apply bnd_some in E2 as (sT & Es & E2). apply bnd_some in E2 as (d4 & E4 & E2). rewrite (proj2 (Nat.ltb_ge (n - 1) (n - 1))) in E2 by lia. rewrite EB in E2. cbn [bnd] in E2.
    assert (sT = sqrt (1 - c * c)) as ->. { unfold osqrt in Es. destruct (rltb _ 0); [discriminate|]. now injection Es as <-. }
    destruct (wr_nth d1 (n - 1) (Lv 0 0 (- q) e) (Lv 0 0 0 0) ltac:(lia)) as (d5 & E5 & L5 & N5). rewrite E3 in E5. injection E5 as <-.
    destruct (forFirst_nth _ _ _ _ (n - 1) E4 ltac:(lia) ltac:(lia)) as [N4 L4]. rewrite (proj2 (Nat.ltb_lt _ _)) in N4 by lia. injection N4 as N4.
    destruct (forFirst_nth _ _ _ _ (n - 1) E2 ltac:(lia) ltac:(lia)) as [N2 L2]. rewrite (proj2 (Nat.ltb_lt _ _)) in N2 by lia. rewrite boost_zero in N2. injection N2 as N2.
    rewrite <- N2, <- N4, N5, Nat.eqb_refl. unfold rotPhi, rotTheta. cbn [lx ly lz lt]. repeat split; ring.
Qed.
Example C72_hyp_direction : exists g g', usedFor [1; 1; 1] g /\ gKT g = RAUBOLD_LYNCH /\ calcEventKinematics (Lv 0 0 0 4) g = Some g'.
Proof.
  destruct (setDecay_ok [1; 1; 1] (setKinematicsType RAUBOLD_LYNCH newGen) ltac:(cbn; lia)) as (g0 & E0 & _ & _ & K0).
  assert (usedFor [1; 1; 1] g0) as HU by (exists (setKinematicsType RAUBOLD_LYNCH newGen), g0, 0%nat, (fun _ => 0), [], 0%nat, 0%nat; repeat split; [exact E0|constructor]).
  destruct (C72_low_level [1; 1; 1] g0 (Lv 0 0 0 4) [1; 2; 4] [0; 0; 0] [0; 1; 2] HU) as (g1 & g2 & g3 & g4 & E1 & E2 & E3 & E4 & _).
  - repeat constructor; lra.
  - cbn; lra.
  - unfold hasMass; cbn; lra.
  - split; [reflexivity|]. split; [reflexivity|]. intros i Hi. cbn in Hi. destruct i as [|[|[|i]]]; try lia; cbn; lra.
  - cbn; lra.
  - reflexivity.
  - reflexivity.
  - intros i Hi. cbn in Hi. destruct i as [|[|[|i]]]; try lia; cbn; lra.
  - exists g3, g4. split; [|split; [|exact E4]].
    + exists (setKinematicsType RAUBOLD_LYNCH newGen), g0, 0%nat, (fun _ => 0), [CMasses [1; 2; 4]; CAngles [0; 0; 0] [0; 1; 2]; CBreakup], 0%nat, 0%nat.
      split; [exact E0|]. split; [repeat constructor|]. cbn [foldO doCall]. rewrite E1. cbn [bnd doCall]. rewrite E2. cbn [bnd doCall]. rewrite E3. reflexivity.
    + unfold setMasses in E1. destruct (negb _) in E1; [discriminate|]. injection E1 as <-. unfold setAngles in E2. destruct (negb _) in E2; [discriminate|]. injection E2 as <-.
      unfold calcBreakupMomenta in E3. apply bnd_some in E3 as (q & _ & E3). injection E3 as <-. exact K0.
Qed.
Print Assumptions C72_angles_uniform.
Print Assumptions C72_direction.
