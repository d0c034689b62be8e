(* Histories of calls and the slices in mass (C80). *)
From Coq Require Import List ZArith Reals Bool Lia Lra Psatz.
From Verif Require Import ArrayModel CGBoxModel PhysModel PhysProps PhaseModel PhaseSpec PhaseProofs PhaseProofs2 PhaseProofs3 PhaseProps FrameModel FrameSpec.
From Verif Require Import ProdModel ProdSpec ProdProofs ProdProofs2 ProdProofs3.
Import ListNotations.
Open Scope R_scope.

Definition nonneg (ms : list R) : Prop := Forall (fun m => 0 <= m) ms.
Definition ginv (d : dps) : Prop :=
  gWT (dGen d) = S_U_CHUNG /\ nonneg (dMasses d)
  /\ (consistent (dMasses d) (dGen d)
      \/ ((length (dMasses d) < 2)%nat /\ ((gN (dGen d) < 2)%nat \/ exists ms, consistent ms (dGen d) /\ nonneg ms))).
Lemma maxW_consistent ms w g : consistent ms g -> consistent ms (setMaxWeight w g).
Proof. intros C. destruct C; constructor; assumption. Qed.
Lemma estimate_types fuel rnd M k : forall pos g w w' g' pos', estimateMaxWeight fuel rnd M k pos g w = Some (w', g', pos') -> gWT g' = gWT g.
Proof.
  induction k as [|k IH]; intros pos g w w' g' pos' H; cbn [estimateMaxWeight] in H; [injection H as <- <- <-; reflexivity|].
  apply bnd_some in H as ((g1 & p1) & E1 & H). apply bnd_some in H as (g2 & E2 & H). rewrite (IH _ _ _ _ _ _ H).
  destruct (weight_types _ _ E2) as (T2 & _). destruct (pick_types _ _ _ _ _ _ _ E1) as (T1 & _). congruence.
Qed.
Lemma slices_inv ms fuel rnd nIter : forall edges g ws pos g' ws' pos', consistent ms g ->
  sliceWeights fuel rnd nIter edges (g, ws, pos) = Some (g', ws', pos') ->
  consistent ms g' /\ gWT g' = gWT g /\ exists l, ws' = ws ++ l /\ length l = length edges
    /\ forall i, (i < length edges)%nat -> exists g1 g2 p1 p2 x, consistent ms g1 /\ gWT g1 = gWT g
        /\ estimateMaxWeight fuel rnd (nth i edges 0) nIter p1 g1 (Fin 0) = Some (Fin x, g2, p2) /\ nth i l 0 = 1.01 * x.
Proof.
  induction edges as [|e edges IH]; intros g ws pos g' ws' pos' C H; unfold sliceWeights in H; cbn [foldO] in H.
  - injection H as <- <- <-. split; [exact C|]. split; [reflexivity|]. exists []. rewrite app_nil_r. split; [reflexivity|]. split; [reflexivity|].
    intros i Hi. cbn in Hi. lia.
  - destruct (estimateMaxWeight fuel rnd e nIter pos g (Fin 0)) as [((w & g1) & p1)|] eqn:E; cbn [bnd] in H; [|discriminate].
    destruct w as [x| |]; [|discriminate|discriminate].
    pose proof (estimate_consistent ms fuel rnd e nIter _ _ _ _ _ _ C E) as C1. pose proof (estimate_types _ _ _ _ _ _ _ _ _ _ E) as T1.
    destruct (IH _ _ _ _ _ _ (maxW_consistent ms (1.01 * x) g1 C1) H) as (C2 & T2 & l & -> & Ll & HL).
    split; [exact C2|]. split; [cbn in T2; congruence|]. exists (1.01 * x :: l). split; [cbn; now rewrite <- app_assoc|]. split; [cbn; now rewrite Ll|].
    intros i Hi. destruct i as [|i]; cbn [nth].
    + exists g, g1, pos, p1, x. split; [exact C|]. split; [reflexivity|]. split; [exact E|reflexivity].
    + cbn [length] in Hi. destruct (HL i ltac:(lia)) as (a & b & p & q & y & A1 & A2 & A3 & A4). exists a, b, p, q, y.
      split; [exact A1|]. split; [cbn in A2; congruence|]. split; assumption.
Qed.
Lemma build_inv fuel rnd nIter range pos d d' pos' : gWT (dGen d) = S_U_CHUNG -> nonneg (dMasses d) ->
  ((gN (dGen d) < 2)%nat \/ exists ms, consistent ms (dGen d) /\ nonneg ms) ->
  buildDaughterList fuel rnd nIter range pos d = Some (d', pos') -> ginv d'.
Proof.
  intros T NN O H. unfold buildDaughterList in H. destruct (1 <? length (dMasses d))%nat eqn:L.
  - apply Nat.ltb_lt in L. apply bnd_some in H as ((b & g) & E & H). destruct (setDecay_ok (dMasses d) (dGen d) ltac:(lia)) as (g' & E' & C & TW & _).
    assert (g' = g) as -> by congruence. apply bnd_some in H as ((x0 & x1) & _ & H). destruct (_ || _); [discriminate|].
    apply bnd_some in H as (((g2 & ws) & p2) & E2 & H). injection H as <- _.
    destruct (slices_inv _ _ _ _ _ _ _ _ _ _ _ C E2) as (C2 & T2 & _). split; [cbn; congruence|]. split; [exact NN|]. left. exact C2.
  - apply Nat.ltb_ge in L. injection H as <- <-. split; [exact T|]. split; [exact NN|]. right. split; [lia|exact O].
Qed.
Lemma ginv_old d : ginv d -> (gN (dGen d) < 2)%nat \/ exists ms, consistent ms (dGen d) /\ nonneg ms.
Proof. intros (_ & NN & [C|(_ & O)]); [right; eauto|exact O]. Qed.
Lemma attempts_n2 tries fuel rnd sqrtS mt xMax xM X pos g r : attempts tries fuel rnd sqrtS mt xMax xM X pos g = Some r -> (2 <= gN g)%nat.
Proof.
  destruct tries as [|tries]; [discriminate|]. cbn [attempts]. unfold attempt, pickMasses. destruct (gN g <? 2)%nat eqn:L; [discriminate|].
  intros _. now apply Nat.ltb_ge in L.
Qed.
(* what is known about an event that was generated *)
Lemma event_inv0 tries fuel rnd beamGen pick xMax mt mr pos d n d' pos' : ginv d ->
  event tries fuel rnd beamGen pick xMax mt mr pos d = Some (n, d', pos') ->
  ginv d' /\ consistent (dMasses d) (dGen d) /\ dMasses d' = dMasses d /\ dSlices d' = dSlices d /\ dWeights d' = dWeights d
  /\ exists p0 p1 p2 g w X, beamGen rnd pos = Some (true, dBeam d', p0)
     /\ pickMassAndT tries pick rnd mr (lvM (lvAdd (dBeam d') (Lv 0 0 0 mt))) p0 = Some (dXMass d', dTPrime d', p1)
     /\ xMax + mt <= lvM (lvAdd (dBeam d') (Lv 0 0 0 mt))
     /\ sliceWeight (dXMass d') (dSlices d) (dWeights d) = Some w /\ g = setMaxWeight w (dGen d)
     /\ calculateXSystemLab (dBeam d') mt (dXMass d') mr (lvM2 (lvAdd (dBeam d') (Lv 0 0 0 mt))) (dTPrime d') (rnd p1) = Some X
     /\ dRecoil d' = lvSub (lvAdd (dBeam d') (Lv 0 0 0 mt)) X
     /\ exists sqrtS, attempts tries fuel rnd sqrtS mt xMax (dXMass d') X p2 g = Some (n, dGen d', pos') /\ dMom d' = gDau (dGen d').
Proof.
  intros (T & NN & I) H. unfold event in H. apply bnd_some in H as (((ok & beam) & p0) & E0 & H). destruct ok; cbn [negb] in H; [|discriminate].
  destruct (rltb (lvM (lvAdd beam (Lv 0 0 0 mt))) (xMax + mt)) eqn:EM; [discriminate|].
  apply bnd_some in H as (((xM & tp) & p1) & E1 & H). apply bnd_some in H as (w & E2 & H). apply bnd_some in H as (sS & E3 & H).
  apply bnd_some in H as (X & E4 & H). apply bnd_some in H as (((n1 & g1) & p2) & E5 & H).
  destruct (length (gDau g1) =? length (dMasses d))%nat eqn:EL; cbn [negb] in H; [|discriminate]. injection H as <- <- <-.
  apply Nat.eqb_eq in EL. unfold rltb in EM. destruct (Rlt_dec _ (xMax + mt)) as [|NM]; [discriminate|].
  assert (consistent (dMasses d) (dGen d)) as C.
  { destruct I as [C|(L & [O|(ms & C & NM')])]; [exact C| |].
    - apply attempts_n2 in E5. cbn in E5. lia.
    - exfalso. destruct (attempts_inv1 ms fuel rnd sS mt xMax xM X NM' tries _ _ _ _ _ (maxW_consistent ms w _ C) T E5) as (_ & C' & _).
      pose proof (co_d ms g1 C'). pose proof (co_n2 ms g1 C'). lia. }
  destruct (attempts_inv1 _ fuel rnd sS mt xMax xM X NN tries _ _ _ _ _ (maxW_consistent _ w _ C) T E5) as (_ & C' & T' & _).
  split; [split; [exact T'|]; split; [exact NN|left; exact C']|]. split; [exact C|]. split; [reflexivity|]. split; [reflexivity|]. split; [reflexivity|].
  cbn [dBeam dXMass dTPrime dRecoil dGen dMom].
  exists p0, p1, (S p1), (setMaxWeight w (dGen d)), w, X. split; [exact E0|]. split; [exact E1|]. split; [lra|]. split; [exact E2|]. split; [reflexivity|].
  split; [exact E4|]. split; [reflexivity|]. exists sS. split; [exact E5|reflexivity].
Qed.
Lemma reached_inv d : reached d -> ginv d.
Proof.
  induction 1 as [|d fuel rnd nIter range ps pos d' pos' _ IH HP E|d fuel rnd nIter range q pos d' pos' _ IH HP E|d tries fuel rnd bg pick xMax mt mr pos n d' pos' _ IH E].
  - split; [reflexivity|]. split; [constructor|]. right. split; [cbn; lia|]. left. cbn. lia.
  - apply build_inv in E; cbn [dGen dMasses]; [exact E|apply IH| |now apply ginv_old].
    unfold nonneg. rewrite Forall_map. exact HP.
  - apply build_inv in E; cbn [dGen dMasses]; [exact E|apply IH| |now apply ginv_old].
    unfold nonneg. apply Forall_app. split; [apply IH|]. constructor; [exact HP|constructor].
  - apply (event_inv0 _ _ _ _ _ _ _ _ _ _ _ _ _ IH E).
Qed.

(* ---- slices ---- *)
Lemma sliceWeight_app m s1 s2 : forall w1 w2 w, sliceWeight m s1 w1 = Some w -> sliceWeight m (s1 ++ s2) (w1 ++ w2) = Some w.
Proof.
  induction s1 as [|e s1 IH]; intros [|x w1] w2 w H; cbn [sliceWeight] in H; try discriminate. cbn [app sliceWeight].
  destruct (rltb e m); [now apply IH|exact H].
Qed.
Lemma sliceWeight_find m : forall edges ws, length ws = length edges -> (exists i, (i < length edges)%nat /\ m <= nth i edges 0) ->
  exists i, (i < length edges)%nat /\ m <= nth i edges 0 /\ (forall j, (j < i)%nat -> nth j edges 0 < m) /\ sliceWeight m edges ws = Some (nth i ws 0).
Proof.
  induction edges as [|e edges IH]; intros [|w ws] L (i & Hi & Hm); cbn [length] in *; try lia. cbn [sliceWeight].
  destruct (Rlt_le_dec e m) as [Lt|Le].
  - rewrite rltb_true by exact Lt. destruct i as [|i]; [cbn [nth] in Hm; lra|]. cbn [nth] in Hm.
    destruct (IH ws ltac:(lia)) as (k & Hk & K1 & K2 & K3); [exists i; split; [lia|exact Hm]|].
    exists (S k). split; [lia|]. split; [exact K1|]. split; [|exact K3]. intros [|j] Hj; cbn [nth]; [exact Lt|apply K2; lia].
  - rewrite rltb_false by exact Le. exists 0%nat. split; [lia|]. split; [exact Le|]. split; [lia|reflexivity].
Qed.
Lemma edges_nth a b i : let n := if rltb (b - a) 0.5 then 1%nat else 10%nat in
  length (sliceEdges a b) = n /\ ((i < n)%nat -> nth i (sliceEdges a b) 0 = a + (b - a) / INR n * INR (S i)).
Proof.
  intros n. unfold sliceEdges. fold maxSlices in n. change 10%nat with maxSlices in n. fold n. cbv zeta. rewrite map_length, seq_length. split; [reflexivity|].
  intros Hi. rewrite (nth_indep _ 0 ((fun i => a + (b - a) / INR n * INR i) 0%nat)) by (rewrite map_length, seq_length; exact Hi).
  rewrite (map_nth (fun i => a + (b - a) / INR n * INR i)), seq_nth by exact Hi. reflexivity.
Qed.

(* ---- two-body decays have one weight ---- *)
Lemma two_step a b M fuel rnd pos g q : consistent [a; b] g -> gWT g = S_U_CHUNG -> breakupMomentum M a b = Some q -> 0 < M ->
  exists g1 g2, pickMasses (S fuel) rnd M pos g = Some (g1, (pos + 0)%nat) /\ calcWeight g1 = Some g2 /\ gW g2 = Fin (gNorm g * q / M)
    /\ consistent [a; b] g2 /\ gWT g2 = S_U_CHUNG /\ gNorm g2 = gNorm g.
Proof.
  intros C T EB HM. destruct C as [c1 c2 c3 c4 c5 c6 c7 c8 c9 c10 c11 c12 c13]. destruct g as [wt kt n m sm nm Ms cs ps qs ds w mo mw].
  cbn [gWT gN gm gmSum gNorm gM gCos gPhi gQ gDau gMaxObs] in *. subst wt n m.
  destruct sm as [|s0 [|s1 [|]]]; try discriminate. destruct Ms as [|M0 [|M1 [|]]]; try discriminate. destruct qs as [|q0 [|q1 [|]]]; try discriminate.
  cbn [nth] in c7. subst M0. pose proof (c5 0%nat ltac:(cbn; lia)) as S0. pose proof (c5 1%nat ltac:(cbn; lia)) as S1. cbn [nth] in S0, S1.
  eexists. eexists. split; [reflexivity|]. split.
  - unfold calcWeight, calcBreakupMomenta, withM. cbn [gN length Nat.ltb Nat.leb gM gm gQ Nat.sub seq foldO].
    cbn [rd nth_error bnd Nat.sub]. unfold rd. cbn [nth_error bnd]. rewrite EB. cbn [bnd wr]. unfold wr. cbn [length Nat.ltb Nat.leb firstn skipn app bnd].
    unfold rawWeight, withQ, momProd. cbn [gWT gN gQ gM gmSum gNorm length Nat.sub seq foldO]. unfold rd. cbn [nth_error bnd Nat.sub]. reflexivity.
  - cbn [withWeight withQ withM gW gWT gNorm]. cbn [idiv pow]. unfold reqb. destruct (Req_EM_T M 0) as [E|_]; [lra|].
    split; [f_equal; field; lra|]. split; [|split; reflexivity].
    assert (gMaxObs (Gen S_U_CHUNG kt (length [a;b]) [a;b] [s0;s1] nm [a;M1] cs ps [q0;q1] ds w mo mw) = mo) as _ by reflexivity.
    constructor; cbn [gN gm gmSum gM gCos gPhi gQ gDau gNorm gMaxObs]; try assumption; try reflexivity.
    apply imax_ok; apply c13.
Qed.
