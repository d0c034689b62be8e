(* C72: generated phase-space events. *)
From Coq Require Import List ZArith Reals Bool Lia Lra Psatz Permutation Sorted.
From Verif Require Import ArrayModel CGBoxModel PhysModel PhysProps SumAccProofs LikSetProofs PhaseModel PhaseSpec PhaseProofs PhaseProofs2 PhaseProofs3.
Import ListNotations.
Open Scope R_scope.

Lemma lvM_ok P M : 0 <= M -> hasMass M P -> lvM P = M.
Proof.
  intros H0 H. unfold hasMass in H. unfold lvM. assert (lvM2 P = M * M) as -> by (unfold lvM2; nra).
  cbv zeta. rewrite rltb_false by nra. now apply sqrt_square.
Qed.
Lemma hasMass_dot' P M : hasMass M P -> dot P P = M * M.
Proof. unfold hasMass, dot. intros H. nra. Qed.
Lemma weight_ok ms g M : consistent ms g -> Forall (fun m => 0 <= m) ms -> sumR ms <= M -> (sumR ms < M \/ 0 < nth 0 ms 0 + nth 1 ms 0) ->
  massesOK ms (gM g) M ->
  exists w mx qs, calcWeight g = Some (withWeight (Fin w) mx (withQ qs g)) /\ 0 <= w /\ (gWT g = GENBOD -> w <= 1) /\ momenta ms (gM g) qs.
Proof.
  intros C Hp HM Hs HO. unfold calcWeight. rewrite (co_n ms g C). rewrite (proj2 (Nat.ltb_ge _ 2)) by apply C.
  destruct (breakup_ok ms g C Hp (proj1 HO)) as (qs & E & HQ); [intros i Hi; now apply HO|]. rewrite E. cbn [bnd].
  destruct (rawWeight_ok ms (withQ qs g) (breakup_consistent ms g _ C E) Hp M HM HO HQ) as (w & Ew & W). rewrite Ew. cbn [bnd].
  destruct W as [->|(x & -> & X0 & X1)].
  - eexists 0, _, qs. split; [reflexivity|]. split; [lra|]. split; [lra|exact HQ].
  - eexists x, _, qs. split; [reflexivity|]. split; [exact X0|]. split; [exact X1|exact HQ].
Qed.
Lemma pick_ok ms g fuel rnd M pos : consistent ms g -> Forall (fun m => 0 <= m) ms -> uniform rnd ->
  (gWT g <> NUPHAZ -> someDistinct fuel rnd pos (length ms - 2)) -> sumR ms <= M -> (sumR ms < M \/ 0 < nth 0 ms 0 + nth 1 ms 0) ->
  exists Ms pos', pickMasses fuel rnd M pos g = Some (withM Ms g, pos') /\ massesOK ms Ms M.
Proof.
  intros C Hp U Hd HM Hs. assert (gWT g = NUPHAZ \/ gWT g <> NUPHAZ) as [E|E] by (destruct (gWT g); (now left) || (right; discriminate)).
  - now apply pickNuphaz_ok.
  - apply pickDefault_ok; auto.
Qed.
Lemma finish ms g rnd pos P M : consistent ms g -> Forall (fun m => 0 <= m) ms -> uniform rnd -> 0 < lt P -> hasMass M P ->
  massesOK ms (gM g) M -> momenta ms (gM g) (gQ g) ->
  exists c p d pos', pickAngles rnd pos g = Some (withAngles c p g, pos')
    /\ calcEventKinematics P (withAngles c p g) = Some (withDau d (withAngles c p g)) /\ isEvent ms (gM g) P d.
Proof.
  intros C Hp U HP HM HO HQ. destruct (pickAngles_ok ms g rnd pos C U) as (c & p & pos' & E & Lc & Lp & Hc).
  pose proof (pickAngles_consistent ms rnd pos g _ _ C E) as C'.
  destruct (eventKinematics_ok (withAngles c p g) ms P) as (d & Ed & Hd); cbn [withAngles gN gm gM gCos gPhi gQ gDau]; try (rewrite (co_n ms g C)); try apply C; try assumption.
  - reflexivity.
  - intros i Hi. now apply HO.
  - intros i Hi. apply HQ. exact Hi.
  - rewrite (proj1 (proj2 HO)). now apply hasMass_dot'.
  - exists c, p, d, pos'. split; [exact E|]. split; [exact Ed|exact Hd].
Qed.
Lemma sum_rd ms g : consistent ms g -> rd (gmSum g) (length ms - 1) = Some (sumR ms).
Proof. intros C. pose proof (co_n2 ms g C). rewrite (rd_nth _ _ 0) by (rewrite (co_sl ms g C); lia). now rewrite (co_s ms g C), pre_all by lia. Qed.

(* generateDecay always ends and produces an event *)
Theorem C72_generate_decay : forall ms g fuel rnd P M pos,
  usedFor ms g -> canDecay ms P M -> uniform rnd -> (gWT g <> NUPHAZ -> someDistinct fuel rnd pos (length ms - 2)) ->
  exists w g' pos', generateDecay fuel rnd P pos g = Some (Fin w, g', pos')
    /\ 0 <= w /\ (gWT g = GENBOD -> w <= 1) /\ gW g' = Fin w
    /\ allowedMasses ms (gM g') /\ nth (length ms - 1) (gM g') 0 = M
    /\ isEvent ms (gM g') P (gDau g').
Proof.
  intros ms g fuel rnd P M pos HU (Hn & Hp & HP & H0 & HM & HS & Hs) U Hd. pose proof (usedFor_consistent ms g HU) as C.
  unfold generateDecay. rewrite (lvM_ok P M H0 HM). cbv zeta. rewrite (co_n ms g C). rewrite (proj2 (Nat.ltb_ge _ 2)) by lia.
  rewrite (sum_rd ms g C). cbn [bnd]. rewrite rltb_false by lra.
  destruct (pick_ok ms g fuel rnd M pos C Hp U Hd HS Hs) as (Ms & p1 & E1 & HO). rewrite E1. cbn [bnd].
  pose proof (pickMasses_consistent ms fuel rnd M pos g _ _ C E1) as C1.
  destruct (weight_ok ms (withM Ms g) M C1 Hp HS Hs HO) as (w & mx & qs & E2 & W0 & W1 & HQ). rewrite E2. cbn [bnd].
  pose proof (weight_consistent ms _ _ C1 E2) as C2.
  destruct (finish ms _ rnd p1 P M C2 Hp U HP HM HO HQ) as (c & p & d & p2 & E3 & E4 & HE). rewrite E3. cbn [bnd]. rewrite E4. cbn [bnd].
  exists w. eexists _, _. split; [reflexivity|]. split; [exact W0|]. split; [exact W1|]. split; [reflexivity|]. split; [apply HO|]. split; [apply HO|exact HE].
Qed.

(* when the system is too light, or there are fewer than two daughters, nothing happens *)
Theorem C72_below_threshold : forall fuel rnd P M mw pos,
  (forall ms g, usedFor ms g -> 0 <= M -> hasMass M P -> M < sumR ms ->
     generateDecay fuel rnd P pos g = Some (Fin 0, g, pos) /\ generateDecayAccepted fuel rnd P mw pos g = Some (false, g, pos))
  /\ (forall ms g, (length ms < 2)%nat -> exists g', setDecay ms g = Some (false, g')
     /\ generateDecay fuel rnd P pos g' = Some (Fin 0, g', pos) /\ generateDecayAccepted fuel rnd P mw pos g' = Some (false, g', pos)).
Proof.
  intros fuel rnd P M mw pos. split.
  - intros ms g HU H0 HM HS. pose proof (usedFor_consistent ms g HU) as C. pose proof (co_n2 ms g C).
    unfold generateDecay, generateDecayAccepted. rewrite (lvM_ok P M H0 HM). cbv zeta. rewrite (co_n ms g C). rewrite (proj2 (Nat.ltb_ge _ 2)) by lia.
    rewrite (sum_rd ms g C). cbn [bnd]. rewrite rltb_true by lra. split; reflexivity.
  - intros ms g Hn. exists (withN (length ms) g). unfold setDecay. rewrite (proj2 (Nat.ltb_lt _ 2)) by lia. split; [reflexivity|].
    unfold generateDecay, generateDecayAccepted. cbn [withN gN]. cbv zeta. rewrite (proj2 (Nat.ltb_lt _ 2)) by lia. split; reflexivity.
Qed.

(* generateDecayAccepted always ends.  It draws masses and a weight w; the event is kept with FLAT
   weights, or if a random number is smaller than w divided by the maximum weight; a kept event is
   correct, otherwise the daughters are unchanged *)
Theorem C72_generate_accepted : forall ms g fuel rnd P M mw pos,
  usedFor ms g -> canDecay ms P M -> uniform rnd -> (gWT g <> NUPHAZ -> someDistinct fuel rnd pos (length ms - 2)) ->
  exists ok g' pos' w r, generateDecayAccepted fuel rnd P mw pos g = Some (ok, g', pos')
    /\ gW g' = Fin w /\ 0 <= w /\ (gWT g = GENBOD -> w <= 1)
    /\ allowedMasses ms (gM g') /\ nth (length ms - 1) (gM g') 0 = M
    /\ (let mx := if rltb 0 mw then mw else gMaxW g in
        ok = true <-> gWT g = FLAT \/ (0 < mx /\ rnd r * mx < w))
    /\ (ok = true -> isEvent ms (gM g') P (gDau g'))
    /\ (ok = false -> gDau g' = gDau g /\ gCos g' = gCos g /\ gPhi g' = gPhi g).
Proof.
  intros ms g fuel rnd P M mw pos HU (Hn & Hp & HP & H0 & HM & HS & Hs) U Hd. pose proof (usedFor_consistent ms g HU) as C.
  unfold generateDecayAccepted. rewrite (lvM_ok P M H0 HM). cbv zeta. rewrite (co_n ms g C). rewrite (proj2 (Nat.ltb_ge _ 2)) by lia.
  rewrite (sum_rd ms g C). cbn [bnd]. rewrite rltb_false by lra.
  destruct (pick_ok ms g fuel rnd M pos C Hp U Hd HS Hs) as (Ms & p1 & E1 & HO). rewrite E1. cbn [bnd].
  pose proof (pickMasses_consistent ms fuel rnd M pos g _ _ C E1) as C1.
  destruct (weight_ok ms (withM Ms g) M C1 Hp HS Hs HO) as (w & mx & qs & E2 & W0 & W1 & HQ). rewrite E2. cbn [bnd].
  pose proof (weight_consistent ms _ _ C1 E2) as C2.
  set (g2 := withWeight (Fin w) mx (withQ qs (withM Ms g))) in *.
  set (m := if rltb 0 mw then mw else gMaxW g).
  destruct (eventAccepted rnd mw p1 g2) as [ok p2] eqn:EA.
  assert (ok = true <-> gWT g = FLAT \/ (0 < m /\ rnd p1 * m < w)) as HA.
  { unfold eventAccepted, g2 in EA. cbn [withWeight withQ withM gWT gMaxW gW] in EA. fold m in EA. cbv zeta in EA.
    assert (forall b, (if rltb 0 m then (igtb (idiv (Fin w) (Fin m)) (Fin (rnd p1)), (p1 + 1)%nat) else (false, p1)) = (b, p2) ->
      b = true <-> 0 < m /\ rnd p1 * m < w) as K.
    { intros b. destruct (Rlt_le_dec 0 m) as [L|L]; [rewrite rltb_true by exact L|rewrite rltb_false by lra; intros Eb; injection Eb as <- _; split; [discriminate|lra]].
      cbn [idiv]. rewrite reqb_false by lra. cbn [igtb]. intros Eb. injection Eb as <- _.
      destruct (Rlt_le_dec (rnd p1) (w / m)) as [L2|L2].
      - rewrite rltb_true by exact L2. split; [intros _; split; [exact L|]|reflexivity].
        apply (Rmult_lt_compat_r m) in L2; [|exact L]. unfold Rdiv in L2. rewrite Rmult_assoc, Rinv_l in L2 by lra. lra.
      - rewrite rltb_false by exact L2. split; [discriminate|]. intros [_ K]. exfalso.
        apply (Rmult_le_compat_r m) in L2; [|lra]. unfold Rdiv in L2. rewrite Rmult_assoc, Rinv_l in L2 by lra. lra. }
    destruct (gWT g); try (rewrite (K ok EA); split; [now right|intros [X|X]; [discriminate|exact X]]).
    injection EA as <- _. split; [now left|reflexivity]. }
  destruct ok; cbn [negb].
  - destruct (finish ms g2 rnd p2 P M C2 Hp U HP HM HO HQ) as (c & p & d & p3 & E3 & E4 & HE). rewrite E3. cbn [bnd]. rewrite E4. cbn [bnd].
    eexists true, _, _, w, p1. split; [reflexivity|]. split; [reflexivity|]. split; [exact W0|]. split; [exact W1|]. split; [apply HO|]. split; [apply HO|].
    split; [exact HA|]. split; [intros _; exact HE|discriminate].
  - eexists false, _, _, w, p1. split; [reflexivity|]. split; [reflexivity|]. split; [exact W0|]. split; [exact W1|]. split; [apply HO|]. split; [apply HO|].
    split; [exact HA|]. split; [discriminate|]. intros _. repeat split; reflexivity.
Qed.

(* the functions for users who choose masses and angles themselves *)
Theorem C72_low_level : forall ms g P Ms cs ps,
  usedFor ms g -> Forall (fun m => 0 <= m) ms -> 0 < lt P -> hasMass (nth (length ms - 1) Ms 0) P ->
  allowedMasses ms Ms -> 0 < nth 1 Ms 0 -> length cs = length ms -> length ps = length ms ->
  (forall i, (1 <= i < length ms)%nat -> -1 <= nth i cs 0 <= 1) ->
  exists g1 g2 g3 g4, setMasses Ms g = Some g1 /\ setAngles cs ps g1 = Some g2 /\ calcBreakupMomenta g2 = Some g3
    /\ calcEventKinematics P g3 = Some g4 /\ gM g4 = Ms /\ isEvent ms Ms P (gDau g4).
Proof.
  intros ms g P Ms cs ps HU Hp HP HM HA H1 Lc Lp Hc. pose proof (usedFor_consistent ms g HU) as C. pose proof (co_n2 ms g C) as Hn.
  destruct HA as (LA & A0 & A).
  assert (forall i, (1 <= i < length ms)%nat -> 0 < nth i Ms 0) as Mpos.
  { induction i as [|i IH]; intros Hi; [lia|]. destruct (Nat.eq_dec i 0) as [->|]; [exact H1|].
    specialize (IH ltac:(lia)). specialize (A (S i) Hi). replace (S i - 1)%nat with i in A by lia. pose proof (pos_nth ms (S i) Hp). lra. }
  exists (withM Ms g), (withAngles cs ps (withM Ms g)).
  assert (consistent ms (withAngles cs ps (withM Ms g))) as C2 by (destruct C; split; try assumption).
  destruct (breakup_ok ms _ C2 Hp (conj LA (conj A0 A)) Mpos) as (qs & E & LQ & HQ).
  set (g3 := withQ qs (withAngles cs ps (withM Ms g))) in *. pose proof (breakup_consistent ms _ _ C2 E) as C3.
  destruct (eventKinematics_ok g3 ms P) as (d & Ed & Hd); try (rewrite (co_n ms g3 C3)); try apply C3; try assumption.
  - reflexivity.
  - intros i Hi. apply HQ. exact Hi.
  - now apply hasMass_dot'.
  - exists g3, (withDau d g3). unfold setMasses, setAngles. cbn [withM gN]. rewrite (co_n ms g C), LA, Lc, Lp, Nat.eqb_refl. cbn [negb].
    split; [reflexivity|]. split; [reflexivity|]. split; [exact E|]. split; [exact Ed|]. split; [reflexivity|exact Hd].
Qed.

(* the observed maximum is an upper bound of the weights calculated since it was last reset *)
Definition ile (a b : ieee) : Prop := igtb a b = false.
Theorem C72_max_weight_observed : forall ms g g', usedFor ms g -> calcWeight g = Some g' ->
  gW g' <> NaN /\ ile (gW g') (gMaxObs g') /\ ile (gMaxObs g) (gMaxObs g') /\ gMaxObs g' <> NaN
  /\ (gMaxObs g' = gMaxObs g \/ gMaxObs g' = gW g').
Proof.
  intros ms g g' HU E. pose proof (usedFor_consistent ms g HU) as C. destruct (co_mx ms g C) as [N1 N2].
  unfold calcWeight in E. destruct (gN g <? 2)%nat; [discriminate|].
  apply bnd_some in E as (g1 & E1 & E). apply bnd_some in E as (w & Ew & E). injection E as <-. cbn [withWeight gW gMaxObs].
  assert (gMaxObs g1 = gMaxObs g) as EM. { unfold calcBreakupMomenta in E1. apply bnd_some in E1 as (q & _ & E1). now injection E1 as <-. }
  rewrite EM. unfold ile. clear - N1 N2.
  assert (forall x, rltb x x = false) as RR by (intros; apply rltb_false; lra).
  destruct (gMaxObs g) as [m|[]|]; try contradiction; try discriminate; destruct w as [x|[]|]; cbn [igtb negb andb] in *;
    try (split; [discriminate|]; split; [first [reflexivity|exact N2|apply RR]|]; split; [first [reflexivity|exact N2|apply RR]|]; split; [discriminate|first [now left|now right]]).
  destruct (Rlt_le_dec m x) as [L|L]; [rewrite (rltb_true m x) by exact L|rewrite (rltb_false m x) by exact L]; cbn [igtb].
  - split; [discriminate|]. split; [apply RR|]. split; [apply rltb_false; lra|]. split; [discriminate|now right].
  - split; [discriminate|]. split; [now apply rltb_false|]. split; [apply RR|]. split; [discriminate|now left].
Qed.
