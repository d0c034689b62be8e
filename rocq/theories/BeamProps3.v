(* C81, continued: order of the entries, errors. *)
From Coq Require Import String List ZArith Reals Bool Lia Lra Psatz.
From Verif Require Import ArrayModel CGBoxModel PhysModel PhaseModel PhaseSpec PhaseProofs PhaseProofs2 LikSetProofs ProdModel ProdSpec ProdProofs2 ProdProofs3 BeamModel BeamSpec BeamProofs BeamProps BeamProps2.
Import ListNotations.
Open Scope R_scope.

Lemma momEvent_reads eig fuel s tg bp pos t b ok b' pos' : loaded t false b -> momentumFile t -> tRows t <> [] -> bSeq b = true -> bScale b = 0 -> uniform (uni s) -> 0 <= bpMass bp ->
  beamEvent eig fuel s tg bp pos b = Some (ok, b', pos') ->
  exists e, nth_error (tRows t) (startEntry t b) = Some e /\ isMomentum (bpMass bp) (rPx e) (rPy e) (rPz e) (bBeam b')
    /\ bCur b' = (Z.of_nat (startEntry t b) + 1)%Z /\ bSeq b' = true /\ bScale b' = 0.
Proof.
  intros L MF NE SQ SC U M0 E. pose proof (loaded_inv t false b L) as LI. destruct (mom_mode t false b LI MF) as [EM ES].
  destruct (loadNext_ok t false b s pos LI U NE ltac:(congruence)) as (i & e & b1 & (NX & NS & _) & NT & EL & (F & F1 & F2 & F3 & _) & RV & CU).
  pose proof (proj1 RV (proj2 (hasBranch_iff t _) MF)) as (VX & VY & VZ & VPx & VPy & VPz & VS).
  unfold beamEvent in E. rewrite EM in E. unfold eventFromMomenta in E. rewrite EL in E. cbn [bnd] in E.
  apply bnd_some in E as ((z & k) & EZ & E). apply bnd_some in E as (dx & EX & E). apply bnd_some in E as (dy & EY & E).
  rewrite F3, SC in E. assert (reqb 0 0 = true) as RQ by (unfold reqb; destruct (Req_EM_T 0 0); [reflexivity|contradiction]). rewrite RQ, andb_false_r in E. injection E as _ <- _.
  rewrite SQ in CU. assert (startEntry t b = i) as SE.
  { unfold startEntry. destruct LI as (C0 & _). destruct (NS SQ) as [H|[H1 H2]].
    - destruct (_ <=? _)%Z eqn:G; [apply Z.leb_le in G; lia|lia].
    - destruct (_ <=? _)%Z eqn:G; [congruence|apply Z.leb_gt in G; lia]. }
  rewrite SE. exists e. split; [exact NT|]. cbn [withEvent bBeam bCur bSeq bScale]. split; [rewrite VPx, VPy, VPz; now apply setXYZM_ok|]. split; [exact CU|]. split; congruence.
Qed.
(* Reading in sequence, the j-th event after any calls has the momentum of entry (start + j) modulo the
   number of entries, whatever the random numbers: each entry is used once in as many events as there are
   entries. *)
Theorem C81_sequential eig fuel s tg bp t : forall l pos b j bj,
  loaded t false b -> momentumFile t -> tRows t <> [] -> bSeq b = true -> bScale b = 0 -> uniform (uni s) -> 0 <= bpMass bp ->
  eventsB eig fuel s tg bp pos b l -> nth_error l j = Some bj ->
  (startEntry t b < length (tRows t))%nat /\
  exists e, nth_error (tRows t) ((startEntry t b + j) mod length (tRows t)) = Some e /\ isMomentum (bpMass bp) (rPx e) (rPy e) (rPz e) (bBeam bj).
Proof.
  induction l as [|b1 l IH]; intros pos b j bj L MF NE SQ SC U M0 EV N; [destruct j; discriminate|].
  inversion EV as [|p0 b0 b0' pos' l' E EV' X1 X2 X3]; subst.
  destruct (momEvent_reads _ _ _ _ _ _ _ _ _ _ _ L MF NE SQ SC U M0 E) as (e & NT & IM & CU & S1 & SC1).
  assert (startEntry t b < length (tRows t))%nat as LT. { apply nth_error_Some. congruence. } split; [exact LT|].
  destruct j as [|j].
  - injection N as <-. rewrite Nat.add_0_r, Nat.mod_small by exact LT. exists e. split; [exact NT|exact IM].
  - pose proof (LStep t false b b1 L (SEvent b eig fuel s tg bp pos true b1 pos' U E)) as L1.
    destruct (IH _ _ _ _ L1 MF NE S1 SC1 U M0 EV' N) as (LT1 & e1 & NT1 & IM1). exists e1. split; [|exact IM1]. rewrite <- NT1. f_equal.
    unfold startEntry at 2. rewrite CU. destruct (_ <=? _)%Z eqn:G.
    + apply Z.leb_le in G. replace (startEntry t b + S j)%nat with (j + 1 * length (tRows t))%nat by lia. rewrite Nat.mod_add by lia. reflexivity.
    + f_equal. lia.
Qed.
Example C81_sequential_case : exists t b s, loaded t false b /\ momentumFile t /\ length (tRows t) = 2%nat /\ bSeq b = true /\ bScale b = 0 /\ uniform (uni s)
  /\ forall eig tg bp, 0 <= tLength tg -> exists b1 b2 b3, eventsB eig 1 s tg bp 0 b [b1; b2; b3].
Proof.
  set (rows := [exRow 1 190; exRow (-1) 191]). destruct (exLoad rows) as (b0 & _ & L0 & S0 & T0 & _). set (b := setScale 0 (setSeq true b0)). set (s := Rng (fun _ => 1) (fun _ => 0)).
  assert (loaded (exTree rows) false b) as L. { refine (LStep _ _ _ _ (LStep _ _ _ _ L0 (SSeq _ _)) (SScale _ _)). }
  assert (uniform (uni s)) as U by (intros i; cbn; lra).
  exists (exTree rows), b, s. split; [exact L|]. split; [cbn; tauto|]. split; [reflexivity|]. split; [reflexivity|]. split; [reflexivity|]. split; [exact U|].
  intros eig tg bp TL.
  assert (forall pos c, loaded (exTree rows) false c -> bSeq c = true -> bTakeZ c = false -> exists c' pos', beamEvent eig 1 s tg bp pos c = Some (true, c', pos') /\ bSeq c' = true /\ bTakeZ c' = false) as ST.
  { intros pos c LC SQ TZ. pose proof (loaded_inv _ false c LC) as LI. destruct (mom_mode _ false c LI ltac:(cbn; tauto)) as [EM ES].
    destruct (loadNext_ok _ false c s pos LI U ltac:(discriminate) ltac:(congruence)) as (i & e & c1 & (NX & NS & _) & NT & EL & (F & F1 & F2 & F3 & _) & RV & CU).
    pose proof (proj1 RV eq_refl) as (VX & VY & VZ & VPx & VPy & VPz & VS).
    unfold beamEvent. rewrite EM. unfold eventFromMomenta. rewrite EL, SQ. cbn [bnd].
    assert (vertexZ 1 s tg pos c1 = Some ((vz (tPos tg) - tLength tg * 0.5) + expo s (tIntLength tg) pos, S pos)) as ->.
    { unfold vertexZ. rewrite F2, TZ. cbn [drawZ]. rewrite rltb_false; [reflexivity|]. unfold expo. cbn [uni s]. rewrite ln_1. lra. }
    cbn [bnd]. assert (rPz (bVals c1) <> 0) as PN.
    { rewrite VPz. destruct i as [|[|i]]; cbn in NT; [injection NT as <-; cbn; lra|injection NT as <-; cbn; lra|destruct i; discriminate]. }
    rewrite !(rdiv_ne _ _ PN). cbn [bnd]. destruct (_ && _); (eexists _, _; split; [reflexivity|]; cbn [withEvent bSeq bTakeZ]; split; congruence). }
  destruct (ST 0%nat b L eq_refl T0) as (b1 & p1 & E1 & S1 & T1). pose proof (LStep _ _ _ _ L (SEvent _ _ _ _ _ _ _ _ _ _ U E1)) as L1.
  destruct (ST p1 b1 L1 S1 T1) as (b2 & p2 & E2 & S2 & T2). pose proof (LStep _ _ _ _ L1 (SEvent _ _ _ _ _ _ _ _ _ _ U E2)) as L2.
  destruct (ST p2 b2 L2 S2 T2) as (b3 & p3 & E3 & S3 & T3). exists b1, b2, b3. econstructor; [exact E1|]. econstructor; [exact E2|]. econstructor; [exact E3|]. constructor.
Qed.

(* A random starting position is one of the entries, each with an interval of the same length of the
   random number, also for the random number 1; the rest of the object is kept. *)
Theorem C81_randomized_start t corr b s pos : loaded t corr b -> tRows t <> [] -> uniform (uni s) ->
  exists b', randomizeStart s pos b = Some (b', S pos) /\ loaded t corr b' /\ (startEntry t b' < length (tRows t))%nat /\ bSeq b' = bSeq b
    /\ INR (startEntry t b') <= INR (length (tRows t)) * (1 - uni s pos) < INR (startEntry t b') + 1.
Proof.
  intros L NE U. pose proof (loaded_inv t corr b L) as (C & T & _). assert (exists b', randomizeStart s pos b = Some (b', S pos)) as (b' & E).
  { unfold randomizeStart. rewrite T. cbn [bnd]. eexists. reflexivity. }
  exists b'. split; [exact E|]. split; [exact (LStep _ _ _ _ L (SRand _ _ _ _ _ U E))|]. unfold randomizeStart in E. rewrite T in E. cbn [bnd] in E. injection E as <-.
  pose proof (U pos) as U0. assert (0 < length (tRows t))%nat as N0 by (destruct (tRows t); [congruence|cbn; lia]). apply lt_0_INR in N0.
  unfold startEntry. cbn [withCur bCur bSeq]. set (x := - uniformIn _ _ _). assert (x = INR (length (tRows t)) * (1 - uni s pos)) as EX by (unfold x, uniformIn; ring).
  assert (0 <= x < INR (length (tRows t))) as X by (rewrite EX; nra). destruct (toLong_ok x (proj1 X)) as [L0 L1].
  assert (toLong x < Z.of_nat (length (tRows t)))%Z as HC. { apply lt_IZR. rewrite <- INR_IZR_INZ. lra. }
  replace (_ <=? _)%Z with false by (symmetry; apply Z.leb_gt; exact HC). split; [lia|]. split; [reflexivity|]. rewrite INR_IZR_INZ, Z2Nat.id by lia. rewrite <- EX. exact L1.
Qed.
Example C81_randomized_start_case : exists t b, loaded t false b /\ tRows t <> [].
Proof. destruct (exLoad [exRow 1 190; exRow (-1) 191]) as (b & _ & L & _). exists (exTree [exRow 1 190; exRow (-1) 191]), b. split; [exact L|discriminate]. Qed.

(* Reading at random, the random number 1 - which the comment in the code says is possible, while 0 is
   not - selects no entry: the event is made from the values of the event before, here from the initial
   zeros, which gives a vertex that is not a number, although the call reports success. *)
Theorem C81_random_number_one_refuted : exists t b e, loaded t false b /\ momentumFile t /\ tRows t = [e] /\ rPz e <> 0 /\ check b = true /\ bSeq b = false
  /\ forall s eig fuel tg bp pos, uniform (uni s) -> uni s pos = 1 -> beamEvent eig fuel s tg bp pos b = None.
Proof.
  set (e := exRow 1 190). destruct (exLoad [e]) as (b & _ & L & S0 & T0 & _ & C0 & Z0 & M0 & TT & CK). exists (exTree [e]), b, e.
  split; [exact L|]. split; [cbn; tauto|]. split; [reflexivity|]. split; [cbn; lra|]. split; [exact CK|]. split; [exact S0|].
  intros s eig fuel tg bp pos U U1. unfold beamEvent. rewrite M0. unfold eventFromMomenta, loadNext. rewrite TT. cbn [bnd]. rewrite S0. cbn [tRows exTree length].
  assert (toLong (uniformIn 0 (INR 1) (uni s pos)) = 1%Z) as ->.
  { rewrite U1. unfold uniformIn. cbn [INR]. replace (0 + (1 - 0) * 1) with 1 by lra. destruct (toLong_ok 1 ltac:(lra)) as [_ [A B]]. apply le_IZR in A.
    assert (toLong 1 + 1 > 1)%Z by (apply Z.lt_gt, lt_IZR; rewrite plus_IZR; lra). lia. }
  unfold getEntry. change (1 <? 0)%Z with false. cbn [orb withCur bBound bVals]. change (nth_error (tRows (exTree [e])) (Z.to_nat 1)) with (@None row).
  destruct (negb (bBound b)); cbn [bnd]; destruct (vertexZ fuel s tg (S (S pos)) (withCur 1 b)) as [[z p]|]; try reflexivity; cbn [bnd withCur bVals];
    rewrite Z0; unfold rdiv, reqb; destruct (Req_EM_T 0 0); try contradiction; reflexivity.
Qed.
(* A beam file without entries is accepted, and then each event is made from zeros. *)
Theorem C81_empty_file_refuted : exists t b, loaded t false b /\ tRows t = [] /\ check b = true
  /\ forall s eig fuel tg bp pos, uniform (uni s) -> beamEvent eig fuel s tg bp pos b = None.
Proof.
  destruct (exLoad []) as (b & _ & L & S0 & T0 & _ & C0 & Z0 & M0 & TT & CK). exists (exTree []), b. split; [exact L|]. split; [reflexivity|]. split; [exact CK|].
  intros s eig fuel tg bp pos U. unfold beamEvent. rewrite M0. unfold eventFromMomenta, loadNext. rewrite TT. cbn [bnd]. rewrite S0. cbn [tRows exTree length].
  match goal with |- context [getEntry ?t ?i ?c] => assert (getEntry t i c = c) as -> end.
  { unfold getEntry. destruct (_ || _); [reflexivity|]. destruct (Z.to_nat _); reflexivity. }
  cbn [bnd]. match goal with |- context [vertexZ ?f ?s ?tg ?p ?c] => destruct (vertexZ f s tg p c) as [[z p']|] end; [|reflexivity]. cbn [bnd withCur bVals].
  rewrite Z0. unfold rdiv, reqb. destruct (Req_EM_T 0 0); [reflexivity|contradiction].
Qed.

(* What loading a file requires and what it reports. *)
Theorem C81_load f b : reachedB b ->
  match f with
  | NoFile | NoTree => exists b', loadBeamFile f b = Some (false, b') /\ bMode b' = bMode b
  | WithTree t =>
      (momentumFile t -> (forall n, In n momBranches -> In n (tBranches t)) ->
        exists b', loadBeamFile f b = Some (check b', b') /\ bTree b' = Some t
          /\ (bPdfM b = 0 -> bMode b' = FromMomenta /\ check b' = true) /\ (bPdfM b <> 0 -> bMode b' = FromMomentaCorrect /\ (check b' = true <-> bPdfS b <> 0 /\ bRes b <> 0)))
      /\ (~ momentumFile t -> (forall n, In n incBranches -> In n (tBranches t)) ->
        exists b', loadBeamFile f b = Some (check b', b') /\ bTree b' = Some t /\ bMode b' = FromInclinations /\ (check b' = true <-> bPdfM b = 0))
      /\ (~ momentumFile t -> ~ In "beam_dXdZ"%string (tBranches t) -> exists b', loadBeamFile f b = Some (false, b'))
  end.
Proof.
  intros _. destruct f as [| |t]; [eexists; split; reflexivity|eexists; split; reflexivity|].
  assert (forall l, (forall n, In n l -> In n (tBranches t)) -> hasAll t l = true) as HA.
  { intros l H. unfold hasAll. apply forallb_forall. intros n I1. now apply hasBranch_iff, H. }
  unfold loadBeamFile. split; [|split].
  - intros MF HB. apply hasBranch_iff in MF. rewrite MF. unfold loadMomenta. fold momBranches. rewrite (HA _ HB). cbn [negb]. eexists. split; [reflexivity|]. split; [reflexivity|].
    cbn [withTree bPdfM]. unfold check. cbn [withMode bTree bMode bPdfM bPdfS bRes withTree orb negb]. unfold reqb. split.
    + intros ->. destruct (Req_EM_T 0 0); [|contradiction]. split; reflexivity.
    + intros P. destruct (Req_EM_T (bPdfM b) 0); [contradiction|]. split; [reflexivity|]. cbn [negb]. destruct (Req_EM_T (bPdfS b) 0); destruct (Req_EM_T (bRes b) 0); cbn; split; try discriminate; tauto.
  - intros MF HB. assert (hasBranch t "beam_momentum_x" = false) as -> by (destruct (hasBranch t _) eqn:G; [exfalso; apply MF; now apply hasBranch_iff|reflexivity]).
    assert (hasBranch t "beam_dXdZ" = true) as -> by (apply hasBranch_iff, HB; cbn; tauto). unfold loadInclinations. fold incBranches. rewrite (HA _ HB). cbn [negb].
    eexists. split; [reflexivity|]. split; [reflexivity|]. split; [reflexivity|]. unfold check. cbn [withMode bTree bMode bPdfM withTree orb negb]. unfold reqb.
    destruct (Req_EM_T (bPdfM b) 0); cbn; split; try discriminate; try tauto.
  - intros MF HB. assert (hasBranch t "beam_momentum_x" = false) as -> by (destruct (hasBranch t _) eqn:G; [exfalso; apply MF; now apply hasBranch_iff|reflexivity]).
    assert (hasBranch t "beam_dXdZ" = false) as -> by (destruct (hasBranch t _) eqn:G; [exfalso; apply HB; now apply hasBranch_iff|reflexivity]). eexists. reflexivity.
Qed.
Example C81_load_case : reachedB newBvg /\ (forall n, In n momBranches -> In n (tBranches (exTree []))) /\ momentumFile (exTree []) /\ ~ momentumFile (Tree incBranches [])
  /\ (forall n, In n incBranches -> In n (tBranches (Tree incBranches []))).
Proof. split; [constructor|]. split; [auto|]. split; [cbn; tauto|]. split; [|auto]. cbn. intros H. repeat (destruct H as [H|H]; [discriminate|]). exact H. Qed.
(* A file in which a required branch is missing is not reported: the tree is deleted a second time after
   the file that owns it. *)
Theorem C81_missing_branch_refuted : forall t b n, momentumFile t -> In n momBranches -> ~ In n (tBranches t) -> loadBeamFile (WithTree t) b = None.
Proof.
  intros t b n MF I1 NI. unfold loadBeamFile. apply hasBranch_iff in MF. rewrite MF. unfold loadMomenta. fold momBranches.
  replace (hasAll t momBranches) with false; [reflexivity|]. symmetry. apply not_true_is_false. intros H. unfold hasAll in H. rewrite forallb_forall in H. apply NI. now apply hasBranch_iff, H.
Qed.
Example C81_missing_branch_case : exists t n, momentumFile t /\ In n momBranches /\ ~ In n (tBranches t).
Proof. exists (Tree ["beam_momentum_x"%string] []), "beam_momentum_z"%string. split; [cbn; tauto|]. split; [cbn; tauto|]. cbn. intros [H|[]]. discriminate. Qed.
(* A correction of the resolution that is set after the file was loaded is not applied: the event still
   has the momentum of the entry; only check() tells. *)
Theorem C81_late_correction_refuted : exists t b b' s, loaded t false b /\ b' = setCorrection 1 1 190 b /\ loaded t false b' /\ check b' = false /\ uniform (uni s)
  /\ forall eig tg bp, 0 <= tLength tg -> 0 < tIntLength tg -> 0 <= bpMass bp -> exists b'' pos', beamEvent eig 1 s tg bp 0 b' = Some (true, b'', pos') /\ isMomentum (bpMass bp) 1 0 100 (bBeam b'').
Proof.
  set (e := exRow 1 100). destruct (exLoad [e]) as (b0 & _ & L0 & S0 & T0 & _ & C0 & Z0 & M0 & TT & CK).
  set (b := setSeq true b0). assert (loaded (exTree [e]) false b) as L by exact (LStep _ _ _ _ L0 (SSeq _ _)).
  set (s := Rng (fun _ => 1) (fun _ => 0)). assert (uniform (uni s)) as U by (intros i; cbn; lra).
  exists (exTree [e]), b, (setCorrection 1 1 190 b), s. split; [exact L|]. split; [reflexivity|]. assert (loaded (exTree [e]) false (setCorrection 1 1 190 b)) as L' by exact (LStep _ _ _ _ L (SCorr _ _ _ _)).
  split; [exact L'|]. split. { unfold check. cbn [setCorrection setSeq b bTree bMode bPdfM]. rewrite TT, M0. cbn. unfold reqb. destruct (Req_EM_T 190 0); [lra|reflexivity]. }
  split; [exact U|]. intros eig tg bp TL IL MB.
  destruct (C81_from_momenta eig 1 s tg bp 0 _ _ L') as (i & e' & b'' & k & pos' & (NX & _) & NT & E & _ & H & _).
  - cbn; tauto.
  - discriminate.
  - repeat constructor. cbn. lra.
  - exact U.
  - cbn. discriminate.
  - intros _. split; [exact IL|]. split; [exact TL|]. exists 0%nat. split; [lia|]. cbn [uni s]. rewrite <- exp_0.
    assert (- tLength tg / tIntLength tg <= 0) as Q. { unfold Rdiv. rewrite Ropp_mult_distr_l_reverse. pose proof (Rmult_le_pos _ _ TL (Rlt_le _ _ (Rinv_0_lt_compat _ IL))). lra. }
    destruct Q as [Q|Q]; [left; now apply exp_increasing|rewrite Q; lra].
  - exact MB.
  - cbn in NX. assert (i = 0%nat) by lia. subst i. injection NT as <-. exists b'', pos'. split; [exact E|]. refine (proj2 (proj2 (H _))). left. intros HS. specialize (HS "vertex_x_position_sigma"%string ltac:(cbn; tauto)).
    cbn in HS. repeat (destruct HS as [HS|HS]; [discriminate|]). exact HS.
Qed.
