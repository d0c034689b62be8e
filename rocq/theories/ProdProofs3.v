(* The event loop of the generator (C80). *)
From Coq Require Import List ZArith Reals Bool Lia Lra Psatz Sorting.Sorted Sorting.Permutation.
From Verif Require Import ArrayModel CGBoxModel PhysModel PhysProps PhaseModel PhaseSpec PhaseProofs PhaseProofs2 PhaseProofs3 PhaseProps FrameModel FrameSpec.
From Verif Require Import ProdModel ProdSpec ProdProofs ProdProofs2.
Import ListNotations.
Open Scope R_scope.

(* ---- what follows if a step of the phase-space generator succeeds ---- *)
Lemma foldO_all {A B} (f : B -> A -> option A) l : forall a b, foldO f l a = Some b -> forall x, In x l -> exists a1 a2, f x a1 = Some a2.
Proof.
  induction l as [|y l IH]; intros a b H x Hx; [contradiction|]. cbn [foldO] in H. destruct (f y a) as [a'|] eqn:E; [|discriminate].
  destruct Hx as [<-|Hx]; [eauto|]. exact (IH _ _ H x Hx).
Qed.
Lemma breakup_inv M m1 m2 q : breakupMomentum M m1 m2 = Some q -> m1 + m2 <= M /\ M <> 0.
Proof.
  unfold breakupMomentum, breakupMomentumSquared, rltb, rdiv. cbn [negb andb]. destruct (Rlt_dec M (m1 + m2)); [discriminate|].
  destruct (Req_EM_T (4 * M * M) 0) as [|N]; [discriminate|]. intros _. split; [lra|]. intros ->. apply N. ring.
Qed.
Lemma weight_inv ms g g' : consistent ms g -> Forall (fun m => 0 <= m) ms -> calcWeight g = Some g' ->
  let M := nth (length ms - 1) (gM g) 0 in 0 < M /\ sumR ms <= M /\ (sumR ms < M \/ 0 < nth 0 ms 0 + nth 1 ms 0).
Proof.
  intros C Hp H M. unfold calcWeight in H. destruct (gN g <? 2)%nat eqn:N2; [discriminate|]. apply bnd_some in H as (g1 & H & _).
  unfold calcBreakupMomenta in H. apply bnd_some in H as (q & H & _). rewrite (co_n ms g C), (co_m ms g C) in H. pose proof (co_n2 ms g C) as Hn.
  assert (forall i, (1 <= i < length ms)%nat -> nth (i - 1) (gM g) 0 + nth i ms 0 <= nth i (gM g) 0 /\ nth i (gM g) 0 <> 0) as K.
  { intros i Hi. destruct (foldO_all _ _ _ _ H i) as (a1 & a2 & E); [apply in_seq; lia|].
    rewrite (rd_nth (gM g) i 0) in E by (rewrite (co_M ms g C); lia). cbn [bnd] in E.
    rewrite (rd_nth (gM g) (i - 1) 0) in E by (rewrite (co_M ms g C); lia). cbn [bnd] in E.
    rewrite (rd_nth ms i 0) in E by lia. cbn [bnd] in E. apply bnd_some in E as (b & E & _). now apply breakup_inv in E. }
  assert (forall i, (i < length ms)%nat -> pre ms i <= nth i (gM g) 0 /\ (i <> 0%nat -> 0 < nth i (gM g) 0)) as L.
  { induction i as [|i IH]; intros Hi.
    - rewrite pre_0 by lia. rewrite (co_M0 ms g C). split; [lra|contradiction].
    - destruct (IH ltac:(lia)) as [I1 _]. destruct (K (S i) ltac:(lia)) as [K1 K2]. replace (S i - 1)%nat with i in K1 by lia.
      rewrite pre_S by lia. pose proof (pos_nth ms (S i) Hp) as P1. pose proof (pre_nonneg ms i Hp ltac:(lia)) as P2. split; [lra|]. intros _. lra. }
  destruct (L (length ms - 1)%nat ltac:(lia)) as [L1 L2]. rewrite pre_all in L1 by lia. fold M in L1, L2. specialize (L2 ltac:(lia)).
  split; [exact L2|]. split; [exact L1|]. destruct (Rlt_le_dec (sumR ms) M) as [S1|S1]; [now left|right].
  (* M = sum > 0: if the first two are massless then M[1] = 0 would be needed *)
  destruct (Rlt_le_dec 0 (nth 0 ms 0 + nth 1 ms 0)) as [S2|S2]; [exact S2|exfalso].
  pose proof (pos_nth ms 0 Hp) as P0. pose proof (pos_nth ms 1 Hp) as P1.
  assert (forall i j, (i <= j < length ms)%nat -> nth i (gM g) 0 + (pre ms j - pre ms i) <= nth j (gM g) 0) as G.
  { intros i j Hij. induction j as [|j IH]; [replace i with 0%nat by lia; lra|].
    destruct (Nat.eq_dec i (S j)) as [->|]; [lra|]. specialize (IH ltac:(lia)). destruct (K (S j) ltac:(lia)) as [K1 _].
    replace (S j - 1)%nat with j in K1 by lia. rewrite (pre_S ms j) by lia. lra. }
  specialize (G 1%nat (length ms - 1)%nat ltac:(lia)). fold M in G. rewrite pre_all in G by lia.
  destruct (L 1%nat ltac:(lia)) as [_ L3]. specialize (L3 ltac:(lia)). rewrite (pre_S ms 0), pre_0 in G by lia. lra.
Qed.
Lemma sorted_nodup l : Sorted Rle l -> noRepetition l = true -> NoDup l.
Proof.
  intros S N. apply Sorted_StronglySorted in S; [|intros a b c; lra].
  induction S as [|x l S IH H]; [constructor|]. assert (noRepetition l = true) as N'.
  { destruct l as [|y l]; [reflexivity|]. cbn [noRepetition] in N. now apply andb_prop in N as [_ N]. }
  constructor; [|now apply IH]. destruct l as [|y l]; [intros []|]. cbn [noRepetition] in N. apply andb_prop in N as [N _].
  assert (x <> y) as NE. { intros ->. unfold reqb in N. destruct (Req_EM_T y y); [discriminate|contradiction]. }
  inversion H as [|? ? H1 H2]; subst. intros [E|E]; [congruence|].
  inversion S as [|? ? S1 S2]; subst. rewrite Forall_forall in S2. specialize (S2 x E). lra.
Qed.
Lemma drawSorted_inv rnd k : forall fuel pos r pos', drawSorted fuel rnd pos k = Some (r, pos') -> someDistinct fuel rnd pos k.
Proof.
  induction fuel as [|fuel IH]; intros pos r pos' H; [discriminate|]. cbn [drawSorted] in H.
  destruct (noRepetition (sortR (map rnd (seq pos k)))) eqn:E.
  - exists 0%nat. split; [lia|]. rewrite Nat.mul_0_l, Nat.add_0_r. apply sorted_nodup in E; [|apply sortR_sorted].
    eapply Permutation_NoDup; [symmetry; apply sortR_perm|exact E].
  - destruct (IH _ _ _ H) as (j & Hj & Hd). exists (S j). split; [lia|]. replace (pos + S j * k)%nat with (pos + k + j * k)%nat by lia. exact Hd.
Qed.
Lemma pick_inv ms g fuel rnd M pos g' pos' : consistent ms g -> gWT g = S_U_CHUNG -> pickMasses fuel rnd M pos g = Some (g', pos') ->
  someDistinct fuel rnd pos (length ms - 2) /\ nth (length ms - 1) (gM g') 0 = M.
Proof.
  intros C T H. unfold pickMasses in H. rewrite (co_n ms g C) in H. destruct (length ms <? 2)%nat eqn:N2; [discriminate|].
  apply Nat.ltb_ge in N2. apply bnd_some in H as (M1 & E1 & H). rewrite T in H. apply bnd_some in H as ((r & p1) & Er & H).
  apply bnd_some in H as (s & Es & H). apply bnd_some in H as (M2 & E2 & H). injection H as <- <-. split; [exact (drawSorted_inv _ _ _ _ _ _ Er)|].
  cbn [withM gM fst snd].
  destruct (wr_nth (gM g) (length ms - 1) M 0 ltac:(rewrite (co_M ms g C); lia)) as (M1' & E1' & L1 & N1). assert (M1' = M1) as -> by congruence.
  pose proof (co_M ms g C) as LM. rewrite LM in L1.
  refine (proj2 (foldO_inv _ (fun v => length v = length ms /\ nth (length ms - 1) v 0 = M) _ _ _ _ _ E2)).
  - intros i v v' Hi [Lv' Nv] E. apply in_seq in Hi. cbv beta in E. apply bnd_some in E as (si & _ & E). apply bnd_some in E as (rr & _ & E).
    split; [rewrite (wr_len _ _ _ _ E); exact Lv'|].
    destruct (wr_nth v i (si + rr * (M - s)) 0 ltac:(lia)) as (v2 & E3 & _ & N3). cbn [fst] in E. assert (v2 = v') as -> by congruence.
    rewrite N3. destruct (Nat.eqb_spec (length ms - 1) i); [lia|exact Nv].
  - split; [exact L1|]. rewrite N1, Nat.eqb_refl. reflexivity.
Qed.

Lemma pick_types fuel rnd M pos g g' pos' : pickMasses fuel rnd M pos g = Some (g', pos') -> gWT g' = gWT g /\ gMaxW g' = gMaxW g.
Proof.
  unfold pickMasses. destruct (gN g <? 2)%nat; [discriminate|]. intros H. apply bnd_some in H as (M1 & E1 & H). destruct (gWT g) eqn:T.
  2: { apply bnd_some in H as (s & E & H). injection H as <- _. now rewrite <- T. }
  all: apply bnd_some in H as (rp & E & H); apply bnd_some in H as (s & E2 & H); apply bnd_some in H as (M2 & E3 & H); injection H as <- _; now rewrite <- T.
Qed.
Lemma weight_types g g' : calcWeight g = Some g' -> gWT g' = gWT g /\ gMaxW g' = gMaxW g /\ gM g' = gM g.
Proof.
  unfold calcWeight. destruct (gN g <? 2)%nat; [discriminate|]. intros H. apply bnd_some in H as (g1 & E1 & H).
  apply bnd_some in H as (w & E & H). injection H as <-. unfold calcBreakupMomenta in E1. apply bnd_some in E1 as (q & _ & E1). injection E1 as <-. now cbn.
Qed.
Lemma angles_types rnd pos g g' pos' : pickAngles rnd pos g = Some (g', pos') -> gWT g' = gWT g /\ gMaxW g' = gMaxW g /\ gM g' = gM g.
Proof. unfold pickAngles. intros H. apply bnd_some in H as (s & _ & H). injection H as <- _. now cbn. Qed.
Lemma kin_types X g g' : calcEventKinematics X g = Some g' -> gWT g' = gWT g /\ gMaxW g' = gMaxW g /\ gM g' = gM g.
Proof. unfold calcEventKinematics. destruct (gN g <? 2)%nat; [discriminate|]. intros H. apply bnd_some in H as (s & _ & H). injection H as <-. now cbn. Qed.

Lemma attempt_inv1 ms g fuel rnd sqrtS mt xMax xM X pos ok g' pos' : consistent ms g -> gWT g = S_U_CHUNG -> Forall (fun m => 0 <= m) ms ->
  attempt fuel rnd sqrtS mt xMax xM X pos g = Some (ok, g', pos') ->
  consistent ms g' /\ gWT g' = S_U_CHUNG /\ gMaxW g' = gMaxW g /\ 0 < xM /\ sumR ms <= xM.
Proof.
  intros C T Hp H. unfold attempt in H. apply bnd_some in H as ((g1 & p1) & E1 & H). apply bnd_some in H as (qM & Eq & H).
  apply bnd_some in H as (wM & _ & H). apply bnd_some in H as (q & _ & H). apply bnd_some in H as (w & _ & H).
  apply bnd_some in H as (g2 & E2 & H).
  pose proof (pickMasses_consistent ms fuel rnd xM pos g _ _ C E1) as C1. destruct (pick_types _ _ _ _ _ _ _ E1) as [T1 W1].
  destruct (pick_inv ms g fuel rnd xM pos g1 p1 C T E1) as [_ LM].
  destruct (weight_inv ms g1 g2 C1 Hp E2) as (M0 & SM & _). rewrite LM in M0, SM.
  pose proof (weight_consistent ms g1 g2 C1 E2) as C2. destruct (weight_types _ _ E2) as (T2 & W2 & _).
  destruct (igtb _ _) eqn:EI in H.
  - injection H as <- <- <-. split; [exact C2|]. split; [congruence|]. split; [congruence|]. split; [exact M0|exact SM].
  - apply bnd_some in H as ((g3 & p3) & E3 & H). apply bnd_some in H as (g4 & E4 & H). injection H as <- <- <-.
    destruct (angles_types _ _ _ _ _ E3) as (T3 & W3 & _). destruct (kin_types _ _ _ E4) as (T4 & W4 & _).
    split; [eapply kinematics_consistent; [|exact E4]; eapply pickAngles_consistent; [exact C2|exact E3]|].
    split; [congruence|]. split; [congruence|]. split; [exact M0|exact SM].
Qed.
Lemma attempt_inv2 ms g fuel rnd sqrtS mt xMax xM X pos g' pos' : consistent ms g -> gWT g = S_U_CHUNG -> Forall (fun m => 0 <= m) ms -> uniform rnd ->
  hasMass xM X -> 0 <= lt X -> attempt fuel rnd sqrtS mt xMax xM X pos g = Some (true, g', pos') ->
  isEvent ms (gM g') X (gDau g').
Proof.
  intros C T Hp U HX HX0 H. pose proof (attempt_inv1 _ _ _ _ _ _ _ _ _ _ _ _ _ C T Hp H) as (_ & _ & _ & M0 & _).
  assert (0 < lt X) as LX. { unfold hasMass in HX. destruct HX0 as [L|E]; [exact L|rewrite <- E in HX; nra]. }
  unfold attempt in H. apply bnd_some in H as ((g1 & p1) & E1 & H). apply bnd_some in H as (qM & Eq & H).
  apply bnd_some in H as (wM & _ & H). apply bnd_some in H as (q & _ & H). apply bnd_some in H as (w & _ & H).
  apply bnd_some in H as (g2 & E2 & H). destruct (igtb _ _) eqn:EI in H; [discriminate|].
  apply bnd_some in H as ((g3 & p3) & E3 & H). apply bnd_some in H as (g4 & E4 & H). injection H as <- _.
  pose proof (pickMasses_consistent ms fuel rnd xM pos g _ _ C E1) as C1.
  destruct (pick_inv ms g fuel rnd xM pos g1 p1 C T E1) as [SD LM].
  destruct (weight_inv ms g1 g2 C1 Hp E2) as (_ & SM & SS). rewrite LM in SM, SS.
  destruct (pick_ok ms g fuel rnd xM pos C Hp U (fun _ => SD) SM SS) as (Ms & p1' & E1' & HO).
  assert (withM Ms g = g1) as EG by congruence. assert (gM g1 = Ms) as EM by (rewrite <- EG; reflexivity).
  rewrite <- EM in HO.
  destruct (weight_ok ms g1 xM C1 Hp SM SS HO) as (w' & mx & qs & E2' & _ & _ & HQ).
  assert (withWeight (Fin w') mx (withQ qs g1) = g2) as EG2 by congruence.
  pose proof (weight_consistent ms g1 g2 C1 E2) as C2. destruct (weight_types _ _ E2) as (_ & _ & EM2).
  destruct (PhaseProps.finish ms g2 rnd (S p1) X xM C2 Hp U LX HX) as (c & p & d & p3' & E3' & E4' & HE).
  - rewrite EM2. exact HO.
  - rewrite <- EG2. cbn [withWeight withQ gM gQ]. exact HQ.
  - assert (withAngles c p g2 = g3) as EG3 by congruence. rewrite EG3 in E4'. assert (withDau d g3 = g4) as EG4 by congruence.
    rewrite <- EG4. rewrite <- EG3. cbn [withDau gDau gM withAngles]. exact HE.
Qed.
Lemma attempts_inv1 ms fuel rnd sqrtS mt xMax xM X : Forall (fun m => 0 <= m) ms -> forall tries g pos n g' pos', consistent ms g -> gWT g = S_U_CHUNG ->
  attempts tries fuel rnd sqrtS mt xMax xM X pos g = Some (n, g', pos') ->
  (1 <= n <= tries)%nat /\ consistent ms g' /\ gWT g' = S_U_CHUNG /\ gMaxW g' = gMaxW g /\ 0 < xM /\ sumR ms <= xM.
Proof.
  intros Hp. induction tries as [|tries IH]; intros g pos n g' pos' C T H; [discriminate|]. cbn [attempts] in H.
  apply bnd_some in H as (((ok & g1) & p1) & E1 & H). pose proof (attempt_inv1 _ _ _ _ _ _ _ _ _ _ _ _ _ C T Hp E1) as (C1 & T1 & W1 & M0 & SM).
  destruct ok.
  - injection H as <- <- <-. split; [lia|]. auto.
  - apply bnd_some in H as (((n2 & g2) & p2) & E2 & H). injection H as <- <- <-.
    destruct (IH _ _ _ _ _ C1 T1 E2) as (N & C2 & T2 & W2 & _). split; [lia|]. split; [exact C2|]. split; [exact T2|]. split; [congruence|]. now split.
Qed.
Lemma attempts_inv2 ms fuel rnd sqrtS mt xMax xM X : Forall (fun m => 0 <= m) ms -> uniform rnd -> hasMass xM X -> 0 <= lt X ->
  forall tries g pos n g' pos', consistent ms g -> gWT g = S_U_CHUNG ->
  attempts tries fuel rnd sqrtS mt xMax xM X pos g = Some (n, g', pos') -> isEvent ms (gM g') X (gDau g').
Proof.
  intros Hp U HX LX. induction tries as [|tries IH]; intros g pos n g' pos' C T H; [discriminate|]. cbn [attempts] in H.
  apply bnd_some in H as (((ok & g1) & p1) & E1 & H). pose proof (attempt_inv1 _ _ _ _ _ _ _ _ _ _ _ _ _ C T Hp E1) as (C1 & T1 & _).
  destruct ok.
  - injection H as <- <- <-. exact (attempt_inv2 _ _ _ _ _ _ _ _ _ _ _ _ C T Hp U HX LX E1).
  - apply bnd_some in H as (((n2 & g2) & p2) & E2 & H). injection H as <- <- <-. exact (IH _ _ _ _ _ C1 T1 E2).
Qed.
Lemma pickMassAndT_inv pick rnd mr w : forall tries pos m t pos', pickMassAndT tries pick rnd mr w pos = Some (m, t, pos') ->
  (exists p, pick rnd p = Some (true, m, t, pos')) /\ m + mr <= w /\ 0 <= t.
Proof.
  induction tries as [|tries IH]; intros pos m t pos' H; [discriminate|]. cbn [pickMassAndT] in H.
  apply bnd_some in H as ((((ok & m1) & t1) & p1) & E & H). destruct ok; cbn [negb] in H; [|discriminate].
  unfold rltb in H. destruct (Rlt_dec w (m1 + mr)); cbn [orb] in H; [exact (IH _ _ _ _ H)|]. destruct (Rlt_dec t1 0); [exact (IH _ _ _ _ H)|].
  injection H as <- <- <-. split; [eauto|]. split; lra.
Qed.
Lemma breakup_exists w m1 m2 : 0 <= m1 -> 0 <= m2 -> 0 < w -> m1 + m2 <= w -> exists q, isBreakup w m1 m2 q.
Proof.
  intros H1 H2 H3 H4. destruct (C57_breakup_momentum_conserves_energy w m1 m2 H1 H2 H3 H4) as (q & _ & Q & E & _).
  exists q. split; [exact Q|]. cbn [pow]. rewrite !Rmult_1_r. exact E.
Qed.
Lemma total_massive mb mt beam : isBeam mb beam -> 0 < mt -> let w := lvM (lvAdd beam (Lv 0 0 0 mt)) in
  massive w (plus4 beam (atRest mt)) /\ mb + mt <= w /\ lvM2 (lvAdd beam (Lv 0 0 0 mt)) = w * w.
Proof.
  intros (B0 & BM & BE & BP) MT w.
  assert (mb < lt beam) as LB. { unfold hasMass in BM. nra. }
  assert (lvM2 (lvAdd beam (Lv 0 0 0 mt)) = mb * mb + mt * mt + 2 * lt beam * mt) as E.
  { unfold lvM2, lvAdd. cbn [lx ly lz lt]. unfold hasMass in BM. lra. }
  assert (0 < mb * mb + mt * mt + 2 * lt beam * mt) as Pz by nra.
  assert (w = sqrt (lvM2 (lvAdd beam (Lv 0 0 0 mt)))) as Ew by (unfold w, lvM; cbv zeta; now rewrite rltb_false by lra).
  assert (0 < w) as W by (rewrite Ew; apply sqrt_lt_R0; lra).
  assert (w * w = lvM2 (lvAdd beam (Lv 0 0 0 mt))) as WW by (rewrite Ew; apply sqrt_sqrt; lra).
  split; [|split; [nra|now symmetry]]. split; [exact W|]. split; [unfold plus4, atRest; cbn [lt]; lra|].
  apply mass_mink. rewrite WW. unfold lvM2, mink, lvAdd, plus4, atRest. cbn [lx ly lz lt]. ring.
Qed.
Lemma cmKin_exists mb mt mx mr beam : isBeam mb beam -> 0 < mt -> 0 <= mx -> 0 <= mr -> let w := lvM (lvAdd beam (Lv 0 0 0 mt)) in mx + mr <= w ->
  exists p q, cmKin mb mt mx mr w p q beam.
Proof.
  intros B MT X0 R0 w H. destruct (total_massive mb mt beam B MT) as (W & WB & _). fold w in W, WB.
  destruct (breakup_exists w mx mr X0 R0 (proj1 W) H) as (q & Q). destruct (breakup_exists w mb mt (proj1 B) ltac:(lra) (proj1 W) WB) as (p & P).
  exists p, q. constructor; assumption.
Qed.
