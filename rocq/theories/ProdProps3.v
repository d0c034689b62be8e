(* C80: the maximal weights in slices of mass; examples. *)
From Coq Require Import List ZArith Reals Bool Lia Lra Psatz.
From Verif Require Import ArrayModel CGBoxModel PhysModel PhysProps LikSetProofs PhaseModel PhaseSpec PhaseProofs PhaseProofs2 PhaseProofs3 PhaseProps PhaseProps4 FrameModel FrameSpec.
From Verif Require Import ProdModel ProdSpec ProdProofs ProdProofs2 ProdProofs3 ProdProofs4 ProdProps ProdProps2.
Import ListNotations.
Open Scope R_scope.

Definition chain (ms : list R) (fuel : nat) (rnd : nat -> R) (g : gen) (pos : nat) : Prop :=
  exists g0 g1 calls pos0, setDecay ms g0 = Some (true, g1) /\ Forall (respects ms) calls /\ foldO (doCall fuel rnd) calls (g1, pos0) = Some (g, pos).
Lemma chain_used ms fuel rnd g pos : chain ms fuel rnd g pos -> usedFor ms g.
Proof. intros (g0 & g1 & calls & p0 & H). exists g0, g1, fuel, rnd, calls, p0, pos. exact H. Qed.
Lemma chain_call ms fuel rnd g pos c g' pos' : chain ms fuel rnd g pos -> respects ms c -> doCall fuel rnd c (g, pos) = Some (g', pos') -> chain ms fuel rnd g' pos'.
Proof.
  intros (g0 & g1 & calls & p0 & E & F & H) R E'. exists g0, g1, (calls ++ [c]), p0. split; [exact E|]. split; [apply Forall_app; split; [exact F|constructor; [exact R|constructor]]|].
  rewrite foldO_app, H. cbn [bnd foldO]. rewrite E'. reflexivity.
Qed.
Lemma slices_used ms fuel rnd nIter : forall edges g ws pos g' ws' pos', chain ms fuel rnd g pos ->
  sliceWeights fuel rnd nIter edges (g, ws, pos) = Some (g', ws', pos') ->
  chain ms fuel rnd g' pos' /\ exists l, ws' = ws ++ l /\ length l = length edges
    /\ forall i, (i < length edges)%nat -> exists g1 g2 p1 p2 x, usedFor ms g1 /\ gWT g1 = gWT g
        /\ estimateMaxWeight fuel rnd (nth i edges 0) nIter p1 g1 (Fin 0) = Some (Fin x, g2, p2) /\ nth i l 0 = 1.01 * x.
Proof.
  induction edges as [|e edges IH]; intros g ws pos g' ws' pos' C H; unfold sliceWeights in H; cbn [foldO] in H.
  - injection H as <- <- <-. split; [exact C|]. exists []. rewrite app_nil_r. split; [reflexivity|]. split; [reflexivity|]. intros i Hi. cbn in Hi. lia.
  - destruct (estimateMaxWeight fuel rnd e nIter pos g (Fin 0)) as [((w & g1) & p1)|] eqn:E; cbn [bnd] in H; [|discriminate].
    destruct w as [x|b|]; try discriminate.
    assert (chain ms fuel rnd g1 p1) as C1. { apply (chain_call ms fuel rnd g pos (CEstimate e nIter)); [exact C|exact I|]. cbn [doCall]. rewrite E. reflexivity. }
    assert (chain ms fuel rnd (setMaxWeight (1.01 * x) g1) p1) as C2 by (apply (chain_call ms fuel rnd g1 p1 (CMaxWeight (1.01 * x))); [exact C1|exact I|reflexivity]).
    destruct (IH _ _ _ _ _ _ C2 H) as (C3 & l & -> & L & K). split; [exact C3|]. exists (1.01 * x :: l). split; [rewrite <- app_assoc; reflexivity|]. split; [cbn [length]; lia|].
    intros [|i] Hi; cbn [nth].
    + exists g, g1, pos, p1, x. split; [exact (chain_used _ _ _ _ _ C)|]. split; [reflexivity|]. split; [exact E|reflexivity].
    + destruct (K i) as (h1 & h2 & q1 & q2 & y & A1 & A2 & A3 & A4); [cbn [length] in Hi; lia|]. exists h1, h2, q1, q2, y. split; [exact A1|]. split; [|split; assumption].
      rewrite A2. cbn [setMaxWeight gWT]. exact (estimate_types _ _ _ _ _ _ _ _ _ _ E).
Qed.
(* after the first setDecayProducts: the maximal weight used for a mass is 1.01 times the largest
   weight found, by nIter trials of the decay into these particles, at the upper end of the slice of
   the mass range (one slice, ten if the range is at least 0.5 wide) *)
Theorem C80_slices : forall fuel rnd nIter a b particles pos d d' pos' m,
  reached d -> dSlices d = [] -> dWeights d = [] -> (2 <= length particles)%nat ->
  setDecayProducts fuel rnd nIter (Some (a, b)) particles pos d = Some (d', pos') -> m <= b ->
  exists e g g' p p' x, isSliceEnd a b (if Rlt_dec (b - a) 0.5 then 1 else 10) m e
    /\ usedFor (map fst particles) g /\ gWT g = S_U_CHUNG
    /\ estimateMaxWeight fuel rnd e nIter p g (Fin 0) = Some (Fin x, g', p')
    /\ sliceWeight m (dSlices d') (dWeights d') = Some (1.01 * x).
Proof.
  intros fuel rnd nIter a b ps pos d d' pos' m HR S0 W0 Hn E Hm. pose proof (proj1 (reached_inv d HR)) as T.
  unfold setDecayProducts, buildDaughterList in E. cbn [dMasses dGen dSlices dWeights] in E. rewrite S0, W0 in E. cbn [app] in E.
  rewrite map_length in E. rewrite (proj2 (Nat.ltb_lt 1 (length ps))) in E by lia.
  destruct (setDecay_ok (map fst ps) (dGen d)) as (g & Eg & C & TW & _); [rewrite map_length; lia|]. rewrite Eg in E. cbn [bnd] in E.
  destruct (rltb b a || negb (rltb 0 b)) eqn:EC; [discriminate|]. apply orb_false_iff in EC as [EC _].
  apply bnd_some in E as (((g2 & ws) & p2) & E2 & E). injection E as <- <-. cbn [dSlices dWeights].
  assert (chain (map fst ps) fuel rnd g pos) as CH by (exists (dGen d), g, [], pos; split; [exact Eg|]; split; [constructor|reflexivity]).
  destruct (slices_used _ _ _ _ _ _ _ _ _ _ _ CH E2) as (_ & l & -> & L & K). cbn [app].
  assert (a <= b) as AB. { unfold rltb in EC. destruct (Rlt_dec b a); [discriminate|lra]. }
  pose proof (fun i => edges_nth a b i) as EN. cbv zeta in EN.
  set (n := if rltb (b - a) 0.5 then 1%nat else 10%nat) in EN.
  assert ((if Rlt_dec (b - a) 0.5 then 1%nat else 10%nat) = n) as -> by (unfold n, rltb; destruct (Rlt_dec (b - a) 0.5); reflexivity).
  assert (1 <= n)%nat as N1 by (unfold n; destruct (rltb (b - a) 0.5); repeat constructor). pose proof (proj1 (EN 0%nat)) as LE.
  destruct (sliceWeight_find m (sliceEdges a b) l L) as (i & Hi & I1 & I2 & I3).
  { exists (n - 1)%nat. rewrite LE. split; [lia|]. rewrite (proj2 (EN (n - 1)%nat)) by lia. replace (S (n - 1)) with n by lia.
    assert (INR n <> 0) by (apply not_0_INR; lia). replace ((b - a) / INR n * INR n) with (b - a) by (field; assumption). lra. }
  rewrite LE in Hi. destruct (K i) as (h1 & h2 & q1 & q2 & y & A1 & A2 & A3 & A4); [rewrite LE; exact Hi|].
  exists (nth i (sliceEdges a b) 0), h1, h2, q1, q2, y. split; [|split; [exact A1|]; split; [congruence|]; split; [exact A3|rewrite I3, A4; reflexivity]].
  split; [exact I1|]. exists (S i). split; [lia|]. split; [apply EN; exact Hi|]. intros j Hj. specialize (I2 (j - 1)%nat ltac:(lia)).
  rewrite (proj2 (EN (j - 1)%nat)) in I2 by lia. now replace (S (j - 1)) with j in I2 by lia.
Qed.

Lemma est_two a b M fuel rnd q : breakupMomentum M a b = Some q -> 0 < M -> forall k g pos v,
  consistent [a; b] g -> gWT g = S_U_CHUNG -> v <= gNorm g * q / M ->
  exists g', estimateMaxWeight (S fuel) rnd M k pos g (Fin v) = Some (Fin (if (k =? 0)%nat then v else gNorm g * q / M), g', pos).
Proof.
  intros EB HM. induction k as [|k IH]; intros g pos v C T Hv; [eexists; reflexivity|]. cbn [estimateMaxWeight].
  destruct (two_step a b M fuel rnd pos g q C T EB HM) as (g1 & g2 & E1 & E2 & EW & C2 & T2 & N2). rewrite E1. cbn [bnd]. rewrite E2. cbn [bnd]. rewrite EW.
  cbn [igtb]. rewrite Nat.add_0_r. assert ((if rltb (gNorm g * q / M) v then Fin v else Fin (gNorm g * q / M)) = Fin (gNorm g * q / M)) as ->.
  { rewrite rltb_false by exact Hv. reflexivity. }
  destruct (IH g2 pos (gNorm g * q / M) C2 T2) as (g' & E'); [rewrite N2; lra|]. rewrite E'. exists g'. do 4 f_equal. rewrite N2. destruct k; reflexivity.
Qed.
Definition nm2 : R := 1 / (4 * PI).
Lemma nm2_pos : 0 < nm2.
Proof. unfold nm2. pose proof PI_RGT_0. apply Rdiv_lt_0_compat; lra. Qed.
Lemma setDecay2 a b g : gWT g = S_U_CHUNG -> exists g', setDecay [a; b] g = Some (true, g') /\ consistent [a; b] g' /\ gWT g' = S_U_CHUNG /\ gNorm g' = nm2.
Proof.
  intros T. destruct (setDecay_ok [a; b] g ltac:(cbn; lia)) as (g' & E & C & T' & _). exists g'. split; [exact E|]. split; [exact C|]. split; [congruence|].
  unfold setDecay in E. cbn in E. injection E as <-. cbn [gNorm]. rewrite T. unfold normOf, nm2. cbn. pose proof PI_RGT_0. field. lra.
Qed.
Lemma sliceEdges15 : sliceEdges 1.2 1.5 = [1.5].
Proof. unfold sliceEdges. rewrite rltb_true by lra. cbn [seq map INR]. f_equal. field. Qed.
(* a further setDecayProducts or addDecayProduct does not change the maximal weights that are used
   for masses that had one: they remain those of the old decay; they can be below all weights of the
   new decay *)
Theorem C80_stale_weights_refuted :
  (forall fuel rnd nIter range particles pos d d' pos' m w,
     sliceWeight m (dSlices d) (dWeights d) = Some w ->
     setDecayProducts fuel rnd nIter range particles pos d = Some (d', pos') -> sliceWeight m (dSlices d') (dWeights d') = Some w)
  /\ (forall fuel rnd nIter range q pos d d' pos' m w,
     sliceWeight m (dSlices d) (dWeights d) = Some w ->
     addDecayProduct fuel rnd nIter range q pos d = Some (d', pos') -> sliceWeight m (dSlices d') (dWeights d') = Some w)
  /\ forall fuel rnd nIter pos lv0, exists d d' pos',
     setDecayProducts (S fuel) rnd (S nIter) (Some (1.2, 1.5)) [(0.6, lv0); (0.6, lv0)] pos newDps = Some (d, pos)
     /\ setDecayProducts (S fuel) rnd (S nIter) (Some (1.2, 1.5)) [(0, lv0); (0, lv0)] pos d = Some (d', pos')
     /\ exists w, sliceWeight 1.5 (dSlices d') (dWeights d') = Some w
        /\ forall fuel' rnd' pos1, exists g1 g2 x pos2, pickMasses (S fuel') rnd' 1.5 pos1 (setMaxWeight w (dGen d')) = Some (g1, pos2)
             /\ calcWeight g1 = Some g2 /\ gW g2 = Fin x /\ gMaxW g2 < x.
Proof.
  assert (forall fuel rnd nIter range pos d d' pos' m w, sliceWeight m (dSlices d) (dWeights d) = Some w ->
    buildDaughterList fuel rnd nIter range pos d = Some (d', pos') -> sliceWeight m (dSlices d') (dWeights d') = Some w) as B.
  { intros fuel rnd nIter range pos d d' pos' m w H E. unfold buildDaughterList in E. destruct (1 <? length (dMasses d))%nat eqn:L.
    - apply Nat.ltb_lt in L. apply bnd_some in E as ((bb & g) & Eg & E). destruct (setDecay_ok (dMasses d) (dGen d) ltac:(lia)) as (g' & E' & C & _).
      assert (g' = g) as -> by congruence. apply bnd_some in E as ((x0 & x1) & _ & E). destruct (_ || _); [discriminate|].
      apply bnd_some in E as (((g2 & ws) & p2) & E2 & E). injection E as <- _. cbn [dSlices dWeights].
      destruct (slices_inv _ _ _ _ _ _ _ _ _ _ _ C E2) as (_ & _ & l & -> & _). now apply sliceWeight_app.
    - injection E as <- <-. exact H. }
  split; [|split].
  - intros fuel rnd nIter range ps pos d d' pos' m w H E. eapply B; [|exact E]. exact H.
  - intros fuel rnd nIter range ps pos d d' pos' m w H E. eapply B; [|exact E]. exact H.
  - intros fuel rnd nIter pos lv0. pose proof nm2_pos as NP.
    assert (breakupMomentum 1.5 0.6 0.6 = Some 0.45) as B1.
    { apply breakup_is; try lra. split; [lra|]. replace (0.6 ^ 2 + 0.45 ^ 2) with (0.75 * 0.75) by lra. rewrite sqrt_square by lra. lra. }
    assert (breakupMomentum 1.5 0 0 = Some 0.75) as B2.
    { apply breakup_is; try lra. split; [lra|]. replace (0 ^ 2 + 0.75 ^ 2) with (0.75 * 0.75) by lra. rewrite sqrt_square by lra. lra. }
    set (d0 := newDps). assert (gWT (dGen d0) = S_U_CHUNG) as T0 by reflexivity.
    unfold setDecayProducts, buildDaughterList. cbn [dMasses map fst snd length Nat.ltb Nat.leb dGen dSlices dWeights].
    destruct (setDecay2 0.6 0.6 (dGen d0) T0) as (g1 & E1 & C1 & T1 & N1).
    destruct (est_two 0.6 0.6 1.5 fuel rnd 0.45 B1 ltac:(lra) (S nIter) g1 pos 0 C1 T1) as (g2 & E2); [rewrite N1; apply Rmult_le_pos; nra|].
    cbn [Nat.eqb] in E2. rewrite N1 in E2. set (w1 := nm2 * 0.45 / 1.5) in E2.
    pose proof (estimate_types _ _ _ _ _ _ _ _ _ _ E2) as T2. rewrite T1 in T2.
    set (D1 := Dps [0.6; 0.6] [lv0; lv0] (setMaxWeight (1.01 * w1) g2) [1.5] [1.01 * w1] (dBeam d0) (dRecoil d0) (dXMass d0) (dTPrime d0)).
    destruct (setDecay2 0 0 (dGen D1) T2) as (g3 & E3 & C3 & T3 & N3).
    destruct (est_two 0 0 1.5 fuel rnd 0.75 B2 ltac:(lra) (S nIter) g3 pos 0 C3 T3) as (g4 & E4); [rewrite N3; apply Rmult_le_pos; nra|].
    cbn [Nat.eqb] in E4. rewrite N3 in E4. set (w2 := nm2 * 0.75 / 1.5) in E4.
    assert (sliceWeights (S fuel) rnd (S nIter) [1.5] (g3, [1.01 * w1], pos) = Some (setMaxWeight (1.01 * w2) g4, [1.01 * w1; 1.01 * w2], pos)) as EA.
    { unfold sliceWeights. cbn [foldO]. rewrite E4. reflexivity. }
    assert (consistent [0; 0] (setMaxWeight (1.01 * w2) g4) /\ gNorm (setMaxWeight (1.01 * w2) g4) = nm2 /\ gWT (setMaxWeight (1.01 * w2) g4) = S_U_CHUNG) as (C4 & N4 & T4).
    { destruct (slices_inv _ _ _ _ _ _ _ _ _ _ _ C3 EA) as (C4 & T4 & _). split; [exact C4|]. split; [|congruence].
      clear - E4 C3 T3 N3 B2. revert E4. cbn [setMaxWeight gNorm]. intros E4.
      assert (forall k g pos v w g' pos', consistent [0;0] g -> gWT g = S_U_CHUNG -> estimateMaxWeight (S fuel) rnd 1.5 k pos g v = Some (w, g', pos') -> gNorm g' = gNorm g) as K.
      { induction k as [|k IH]; intros g p v w g' p' C T H; cbn [estimateMaxWeight] in H; [injection H as <- <- <-; reflexivity|].
        destruct (two_step 0 0 1.5 fuel rnd p g 0.75 C T B2 ltac:(lra)) as (h1 & h2 & H1 & H2 & _ & C' & T' & N'). rewrite H1 in H. cbn [bnd] in H. rewrite H2 in H. cbn [bnd] in H.
        rewrite (IH _ _ _ _ _ _ C' T' H). exact N'. }
      rewrite (K _ _ _ _ _ _ _ C3 T3 E4). exact N3. }
    destruct (est_two 0 0 1.5 fuel rnd 0.75 B2 ltac:(lra) (S nIter) (setMaxWeight (1.01 * w2) g4) pos 0 C4 T4) as (g5 & E5); [rewrite N4; apply Rmult_le_pos; nra|].
    cbn [Nat.eqb] in E5. rewrite N4 in E5. fold w2 in E5.
    assert (sliceWeights (S fuel) rnd (S nIter) [1.5; 1.5] (g3, [1.01 * w1], pos) = Some (setMaxWeight (1.01 * w2) g5, [1.01 * w1; 1.01 * w2; 1.01 * w2], pos)) as EB.
    { unfold sliceWeights. cbn [foldO]. rewrite E4. cbn [bnd]. rewrite E5. reflexivity. }
    destruct (slices_inv _ _ _ _ _ _ _ _ _ _ _ C3 EB) as (C5 & T5 & _).
    exists D1, (Dps [0; 0] [lv0; lv0] (setMaxWeight (1.01 * w2) g5) [1.5; 1.5] [1.01 * w1; 1.01 * w2; 1.01 * w2] (dBeam d0) (dRecoil d0) (dXMass d0) (dTPrime d0)), pos.
    split; [|split].
    + rewrite E1. cbn [bnd]. rewrite rltb_false, rltb_true by lra. cbn [orb negb]. rewrite sliceEdges15. cbn [app d0 newDps dSlices dWeights].
      unfold sliceWeights. cbn [foldO]. rewrite E2. cbn [bnd app setMaxWeight gMaxW]. reflexivity.
    + rewrite E3. cbn [bnd].
      rewrite rltb_false, rltb_true by lra. cbn [orb negb]. rewrite sliceEdges15. change (dSlices D1 ++ [1.5]) with [1.5; 1.5]. change (dWeights D1) with [1.01 * w1]. rewrite EB. reflexivity.
    + exists (1.01 * w1). cbn [dSlices dWeights sliceWeight dGen]. rewrite rltb_false by lra. split; [reflexivity|]. intros fuel' rnd' pos1.
      set (G := setMaxWeight (1.01 * w1) (setMaxWeight (1.01 * w2) g5)).
      assert (consistent [0; 0] G) as CG by (apply maxW_consistent; exact C5).
      assert (gWT G = S_U_CHUNG) as TG by (unfold G; cbn [setMaxWeight gWT] in *; congruence).
      destruct (two_step 0 0 1.5 fuel' rnd' pos1 G 0.75 CG TG B2 ltac:(lra)) as (h1 & h2 & H1 & H2 & HW & _ & _ & HN).
      exists h1, h2, (gNorm G * 0.75 / 1.5), (pos1 + 0)%nat. split; [exact H1|]. split; [exact H2|]. split; [exact HW|].
      destruct (weight_types _ _ H2) as (_ & M2 & _). destruct (pick_types _ _ _ _ _ _ _ H1) as (_ & M1). rewrite M2, M1. unfold G. cbn [setMaxWeight gMaxW gNorm].
      assert (gNorm g5 = nm2) as ->; [|unfold w1; lra].
      clear - E5 C4 T4 N4 B2.
      assert (forall k g pos v w g' pos', consistent [0;0] g -> gWT g = S_U_CHUNG -> estimateMaxWeight (S fuel) rnd 1.5 k pos g v = Some (w, g', pos') -> gNorm g' = gNorm g) as K.
      { induction k as [|k IH]; intros g p v w g' p' C T H; cbn [estimateMaxWeight] in H; [injection H as <- <- <-; reflexivity|].
        destruct (two_step 0 0 1.5 fuel rnd p g 0.75 C T B2 ltac:(lra)) as (h1 & h2 & H1 & H2 & _ & C' & T' & N'). rewrite H1 in H. cbn [bnd] in H. rewrite H2 in H. cbn [bnd] in H.
        rewrite (IH _ _ _ _ _ _ C' T' H). exact N'. }
      rewrite (K _ _ _ _ _ _ _ C4 T4 E5). exact N4.
Qed.

(* ---- examples ---- *)
(* a massless beam on a target of mass 1; the total mass is 2.5 *)
Definition exBeam : lv := Lv 0 0 2.625 2.625.
Lemma exBeam_ok : isBeam 0 exBeam /\ hasMass 2.5 (plus4 exBeam (atRest 1)) /\ isBreakup 2.5 0 1 1.05 /\ isBreakup 2.5 1.5 0 0.8 /\ isBreakup 2.5 1.5 1 0.
Proof.
  split; [|split; [|split; [|split]]].
  - split; [lra|]. split; [unfold hasMass, exBeam; cbn [lx ly lz lt]; lra|]. unfold exBeam; cbn [lx ly lz lt]. lra.
  - unfold hasMass, exBeam, plus4, atRest; cbn [lx ly lz lt]. lra.
  - split; [lra|]. replace (0 ^ 2 + 1.05 ^ 2) with (1.05 * 1.05) by lra. replace (1 ^ 2 + 1.05 ^ 2) with (1.45 * 1.45) by lra. rewrite !sqrt_square by lra. lra.
  - split; [lra|]. replace (0 ^ 2 + 0.8 ^ 2) with (0.8 * 0.8) by lra. replace (1.5 ^ 2 + 0.8 ^ 2) with (1.7 * 1.7) by lra. rewrite !sqrt_square by lra. lra.
  - split; [lra|]. replace (1.5 ^ 2 + 0 ^ 2) with (1.5 * 1.5) by lra. replace (1 ^ 2 + 0 ^ 2) with (1 * 1) by lra. rewrite !sqrt_square by lra. lra.
Qed.
Example C80_tprime_example : exists X, possible exBeam (atRest 1) 1.5 0 X /\ isTPrime exBeam (atRest 1) 1.5 0 X 1 /\ tPrimeOf exBeam (atRest 1) X = Some 1 /\ lx X <> 0.
Proof.
  destruct exBeam_ok as (B & W & P & Q & _).
  destruct (C80_outgoing_system 0 1 1.5 0 2.5 1.05 0.8 exBeam 1 1 B ltac:(lra) ltac:(lra) ltac:(lra) ltac:(lra) W ltac:(lra) P Q ltac:(lra) ltac:(left; lra)) as (X & E & PX & IT & ET & AX).
  exists X. split; [exact PX|]. split; [exact IT|]. split; [exact ET|]. destruct AX as (pT & P0 & Xx & Xy); [reflexivity|reflexivity|unfold exBeam; cbn [lz]; lra|].
  replace (2 * PI * 1) with (2 * PI) in Xx, Xy by ring. rewrite cos_2PI in Xx. rewrite sin_2PI in Xy. intros X0. assert (ly X = 0) as Y0 by lra.
  (* X would go along the beam: t' would be 0 or maximal *)
  destruct PX as (HX & EX & HR & ER). unfold hasMass, minus4, plus4, atRest, exBeam in HX, HR, ER. cbn [lx ly lz lt] in HX, HR, ER. rewrite X0, Y0 in HX, HR.
  destruct IT as (ALL & (Y & PY & EY)).
  assert (forall Z, possible exBeam (atRest 1) 1.5 0 Z -> lx Z = 0 -> ly Z = 0 -> (lt Z = 2.625 * 1.7 / 2.5 + 1.7 / 2.5 + 2.625 * 0.8 / 2.5 \/ lt Z = 3.625 * 1.7 / 2.5 - 2.625 * 0.8 / 2.5)) as K.
  { intros Z (HZ & EZ & HRZ & ERZ) Zx Zy. unfold hasMass, minus4, plus4, atRest, exBeam in HZ, HRZ, ERZ. cbn [lx ly lz lt] in HZ, HRZ, ERZ. rewrite Zx, Zy in HZ, HRZ.
    assert (3.625 * lt Z - 2.625 * lz Z = 4.25) as L by lra. assert (lz Z = (3.625 * lt Z - 4.25) / 2.625) as EZZ by lra. rewrite EZZ in HZ.
    assert ((lt Z - 3.305) * (lt Z - 1.625) = 0) as M by lra. apply Rmult_integral in M as [M|M]; [left|right]; lra. }
  assert (possible exBeam (atRest 1) 1.5 0 X) as PX by (unfold possible, hasMass, minus4, plus4, atRest, exBeam; cbn [lx ly lz lt]; rewrite X0, Y0; lra).
  assert (transfer exBeam X = 2.25 - 5.25 * lt X + 5.25 * lz X) as TX by (unfold transfer, inv2, minus4, exBeam; cbn [lx ly lz lt]; rewrite X0, Y0; lra).
  assert (3.625 * lt X - 2.625 * lz X = 4.25) as LX by lra. 
  (* the possible system with largest transfer *)
  set (Z := Lv 0 0 2.945 3.305). assert (possible exBeam (atRest 1) 1.5 0 Z) as PZ by (unfold possible, hasMass, minus4, plus4, atRest, exBeam, Z; cbn [lx ly lz lt]; lra).
  pose proof (ALL Z PZ) as AZ. assert (transfer exBeam Z = 0.36) as TZ by (unfold transfer, inv2, minus4, exBeam, Z; cbn [lx ly lz lt]; lra).
  assert (transfer exBeam Y <= 0.36) as TY.
  { destruct PY as (HY & EYY & HRY & ERY). unfold hasMass, minus4, plus4, atRest, exBeam in HY, HRY, ERY. cbn [lx ly lz lt] in HY, HRY, ERY.
    assert (3.625 * lt Y - 2.625 * lz Y = 4.25) as L by lra. unfold transfer, inv2, minus4, exBeam. cbn [lx ly lz lt].
    assert (lz Y = (3.625 * lt Y - 4.25) / 2.625) as EZZ by lra. rewrite EZZ in *. assert ((lt Y - 3.305) * (lt Y - 1.625) <= 0) by nra. nra. }
  destruct (K X PX X0 Y0) as [L|L]; lra.
Qed.

Example C80_above_maximum_example : calculateXSystemLab exBeam 1 1.5 0 (lvM2 (lvAdd exBeam (atRest 1))) 3.4 0.5 = None.
Proof.
  destruct exBeam_ok as (B & W & P & Q & _).
  apply (C80_tprime_above_maximum_refuted 0 1 1.5 0 2.5 1.05 0.8 exBeam 3.4 0.5 B ltac:(lra) ltac:(lra) ltac:(lra) ltac:(lra) W ltac:(lra) P Q ltac:(lra)).
Qed.
(* the generator after the first setDecayProducts, for two particles of mass 0.6 *)
Lemma exSet : exists d w, setDecayProducts 1 half 1 (Some (1.2, 1.5)) [(0.6, Lv 0 0 0 0); (0.6, Lv 0 0 0 0)] 0 newDps = Some (d, 0%nat)
  /\ usedFor [0.6; 0.6] (dGen d) /\ gWT (dGen d) = S_U_CHUNG /\ sliceWeight 1.5 (dSlices d) (dWeights d) = Some w /\ reached d /\ dMasses d = [0.6; 0.6].
Proof.
  destruct C80_stale_weights_refuted as (_ & _ & H). destruct (H 0%nat half 0%nat 0%nat (Lv 0 0 0 0)) as (d & _ & _ & E & _). clear H.
  exists d. assert (Forall (fun q : R * lv => 0 <= fst q) [(0.6, Lv 0 0 0 0); (0.6, Lv 0 0 0 0)]) as F by (repeat constructor; cbn [fst]; lra).
  pose proof (RSet _ _ _ _ _ _ _ _ _ RNew F E) as HR.
  destruct (C80_slices _ _ _ _ _ [(0.6, Lv 0 0 0 0); (0.6, Lv 0 0 0 0)] _ _ _ _ 1.5 RNew eq_refl eq_refl (le_n 2) E ltac:(lra)) as (e & g & g' & p & p' & x & _ & _ & _ & _ & SW).
  exists (1.01 * x). split; [exact E|]. assert (usedFor [0.6; 0.6] (dGen d) /\ dMasses d = [0.6; 0.6]) as [U M].
  { unfold setDecayProducts, buildDaughterList in E. cbn [dMasses map fst snd length Nat.ltb Nat.leb dGen dSlices dWeights] in E.
    destruct (setDecay_ok [0.6; 0.6] (dGen newDps) ltac:(cbn; lia)) as (g1 & E1 & _). rewrite E1 in E. cbn [bnd] in E. rewrite rltb_false, rltb_true in E by lra. cbn [orb negb] in E.
    apply bnd_some in E as (((g2 & ws) & p2) & E2 & E). injection E as <- _. cbn [dGen dMasses]. split; [|reflexivity].
    assert (chain [0.6; 0.6] 1 half g1 0) as CH by (exists (dGen newDps), g1, [], 0%nat; split; [exact E1|]; split; [constructor|reflexivity]).
    exact (chain_used _ _ _ _ _ (proj1 (slices_used _ _ _ _ _ _ _ _ _ _ _ CH E2))). }
  split; [exact U|]. split; [exact (proj1 (reached_inv d HR))|]. split; [exact SW|]. split; [exact HR|exact M].
Qed.
Example C80_event_example : exists d n d' pos', reached d /\ uniform half
  /\ event 1 1 half (fun _ p => Some (true, exBeam, p)) (fun _ p => Some (true, 1.5, 1, p)) 1.5 1 0 0 d = Some (n, d', pos').
Proof.
  destruct exBeam_ok as (B & W & P & Q & Q0). destruct exSet as (d & w & _ & U & T & SW & HR & EM).
  assert (uniform half) as UH by (intros i; unfold half; lra).
  destruct (C80_outgoing_system 0 1 1.5 0 2.5 1.05 0.8 exBeam 1 (half 0) B ltac:(lra) ltac:(lra) ltac:(lra) ltac:(lra) W ltac:(lra) P Q ltac:(lra) ltac:(left; lra)) as (X & E & PX & _).
  assert (usedFor [0.6; 0.6] (setMaxWeight w (dGen d))) as U'.
  { destruct U as (g0 & g1 & fuel & rnd & calls & p & p' & A1 & A2 & A3). exists g0, g1, fuel, rnd, (calls ++ [CMaxWeight w]), p, p'. split; [exact A1|].
    split; [apply Forall_app; split; [exact A2|repeat constructor]|]. rewrite foldO_app, A3. reflexivity. }
  assert (canDecay [0.6; 0.6] X 1.5) as CD.
  { destruct PX as (HX & LX & _). split; [cbn; lia|]. split; [repeat constructor; lra|]. split.
    - unfold hasMass in HX. destruct LX as [L|L]; [exact L|rewrite <- L in HX; nra].
    - split; [lra|]. split; [exact HX|]. cbn [sumR fold_right nth]. lra. }
  destruct (C80_attempt [0.6; 0.6] (setMaxWeight w (dGen d)) 1 half 2.5 1 1.5 1.5 X 1 0 0 U' T CD UH) as (ok & g' & pos' & wt & r & EA & _ & _ & _ & _ & _ & OK & HE & _); try lra; try exact Q0.
  { exists 0%nat. split; [lia|]. cbn. constructor. }
  specialize (OK eq_refl). subst ok. specialize (HE eq_refl). exists d. eexists. eexists. eexists. split; [exact HR|]. split; [exact UH|].
  unfold event. cbn [bnd negb]. assert (lvM (lvAdd exBeam (Lv 0 0 0 1)) = 2.5) as EW by (apply lvM_ok; [lra|exact W]). rewrite EW.
  rewrite rltb_false by lra. cbn [pickMassAndT bnd negb]. rewrite !rltb_false by lra. cbn [orb bnd]. rewrite SW. cbn [bnd].
  assert (lvM2 (lvAdd exBeam (Lv 0 0 0 1)) = 2.5 * 2.5) as EW2 by (unfold lvM2, lvAdd, exBeam; cbn [lx ly lz lt]; lra).
  change (Lv 0 0 0 1) with (atRest 1) in *. rewrite E. rewrite EW2. unfold osqrt. rewrite rltb_false by lra. cbn [bnd]. rewrite sqrt_square by lra.
  cbn [attempts]. rewrite EA. cbn [bnd]. rewrite EM. rewrite (proj1 HE). cbn [length Nat.eqb negb]. reflexivity.
Qed.
(* decays are rejected and accepted *)
Example C80_attempt_example : exists ms g, usedFor ms g /\ gWT g = S_U_CHUNG /\ canDecay ms (Lv 0 0 0 1.5) 1.5 /\ uniform half /\ someDistinct 1 half 0 (length ms - 2)
  /\ 0 < gMaxW g /\ isBreakup 2.5 1.5 0 0.8.
Proof.
  destruct exBeam_ok as (_ & _ & _ & Q & _). destruct exSet as (d & w & _ & U & T & _).
  assert (usedFor [0.6; 0.6] (setMaxWeight 1 (dGen d))) as U'.
  { destruct U as (g0 & g1 & fuel & rnd & calls & p & p' & A1 & A2 & A3). exists g0, g1, fuel, rnd, (calls ++ [CMaxWeight 1]), p, p'. split; [exact A1|].
    split; [apply Forall_app; split; [exact A2|repeat constructor]|]. rewrite foldO_app, A3. reflexivity. }
  exists [0.6; 0.6], (setMaxWeight 1 (dGen d)). split; [exact U'|]. split; [exact T|]. split.
  - split; [cbn; lia|]. split; [repeat constructor; lra|]. cbn [lt]. split; [lra|]. split; [lra|]. split; [unfold hasMass; cbn [lx ly lz lt]; lra|]. cbn [sumR fold_right nth]. lra.
  - split; [intros i; unfold half; lra|]. split; [exists 0%nat; split; [lia|]; cbn; constructor|]. split; [cbn [setMaxWeight gMaxW]; lra|exact Q].
Qed.
Example C80_below_threshold_example : exists d, reached d /\ forall (rnd : nat -> R) pos ok m t pos', Some (true, 1, 0, S pos) = Some (ok, m, t, pos') -> m < sumR (dMasses d).
Proof.
  destruct exSet as (d & w & _ & _ & _ & _ & HR & EM). exists d. split; [exact HR|]. intros rnd pos ok m t pos' E. rewrite EM.
  assert (m = 1) as -> by congruence. cbn [sumR fold_right]. lra.
Qed.
(* beams in several directions *)
Example C80_azimuth_example : isBeam 0 exBeam /\ isBeam 0 (Lv 3 0 4 5) /\ isBeam 12 (Lv 0 3 (-4) 13) /\ isBeam 0 (Lv 0 0 (-2) 2)
  /\ exists X, calculateXSystemLab exBeam 1 1.5 0 (lvM2 (lvAdd exBeam (atRest 1))) 1 0.25 = Some X.
Proof.
  destruct exBeam_ok as (B & W & P & Q & _). split; [exact B|]. split; [|split; [|split]].
  1-3: unfold isBeam, hasMass; cbn [lx ly lz lt]; lra.
  destruct (C80_outgoing_system 0 1 1.5 0 2.5 1.05 0.8 exBeam 1 0.25 B ltac:(lra) ltac:(lra) ltac:(lra) ltac:(lra) W ltac:(lra) P Q ltac:(lra) ltac:(left; lra)) as (X & E & _).
  exists X. exact E.
Qed.
