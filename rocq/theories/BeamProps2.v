(* C81, continued: correction of the momentum resolution, inclinations, order of the entries, errors. *)
From Coq Require Import String List ZArith Reals Bool Lia Lra Psatz.
From Verif Require Import ArrayModel CGBoxModel PhysModel PhaseModel PhaseSpec PhaseProofs PhaseProofs2 LikSetProofs ProdModel ProdSpec ProdProofs2 ProdProofs3 BeamModel BeamSpec BeamProofs BeamProps.
Import ListNotations.
Open Scope R_scope.

Lemma product_ok a r mu s : r <> 0 -> s <> 0 -> let W := 1 / sqrt (1 / (r * r) + 1 / (s * s)) in isProduct a r mu s (W * W * (a / (r * r) + mu / (s * s))) W.
Proof.
  intros R0 S0. cbv zeta. set (q := 1 / (r * r) + 1 / (s * s)). assert (0 < r * r) by nra. assert (0 < s * s) by nra.
  assert (0 < q) as Q. { unfold q. apply Rplus_lt_0_compat; apply Rdiv_lt_0_compat; lra. }
  pose proof (sqrt_lt_R0 q Q) as SQ. assert (0 < 1 / sqrt q) as W0 by (apply Rdiv_lt_0_compat; lra). set (W := 1 / sqrt q) in *.
  assert (W * W = 1 / q) as WW. { unfold W. replace (1 / sqrt q * (1 / sqrt q)) with (1 / (sqrt q * sqrt q)) by (field; lra). rewrite sqrt_sqrt by lra. reflexivity. }
  split; [exact W0|]. rewrite WW. set (M := 1 / q * _). exists (a ^ 2 / r ^ 2 + mu ^ 2 / s ^ 2 - q * M ^ 2). intros p.
  replace (W ^ 2) with (1 / q) by (rewrite <- WW; ring). unfold M.
  replace ((p - 1 / q * (a / (r * r) + mu / (s * s))) ^ 2 / (1 / q)) with (q * p ^ 2 - 2 * p * (a / (r * r) + mu / (s * s)) + q * (1 / q * (a / (r * r) + mu / (s * s))) ^ 2) by (field; repeat split; lra).
  unfold q at 1. field. split; lra.
Qed.

(* With the correction of the momentum resolution the direction is that of the entry, and the momentum is
   drawn from the product of the resolution around the momentum of the entry and of the distribution of
   the beam momentum. *)
Theorem C81_correct eig fuel s tg bp pos t b :
  loaded t true b -> momentumFile t -> tRows t <> [] -> Forall (fun e => 0 < rPz e) (tRows t) -> bRes b <> 0 -> bPdfS b <> 0 ->
  uniform (uni s) -> (bSeq b = false -> uni s pos < 1) -> (bTakeZ b = false -> someInside fuel s tg (afterEntry b pos)) -> 0 <= bpMass bp ->
  exists i e b' k M W, nextEntry t b (uni s pos) i /\ nth_error (tRows t) i = Some e
    /\ beamEvent eig fuel s tg bp pos b = Some (true, b', S k)
    /\ isVertexZ s tg b (afterEntry b pos) k (zOf t e) (vz (bVertex b'))
    /\ onLine (rX e) (rY e) (zOf t e) (rPx e) (rPy e) (rPz e) (bVertex b')
    /\ (let p := sqrt (rPx e ^ 2 + rPy e ^ 2 + rPz e ^ 2) in
        isProduct p (bRes b) (bPdfM b) (bPdfS b) M W
        /\ let f := (M + W * nor s k) / p in isMomentum (bpMass bp) (f * rPx e) (f * rPy e) (f * rPz e) (bBeam b')).
Proof.
  intros L MF NE PZ R0 S0 U UL SI M0. pose proof (loaded_inv t true b L) as LI. destruct (mom_mode t true b LI MF) as [EM ES].
  destruct (loadNext_ok t true b s pos LI U NE UL) as (i & e & b1 & NX & NT & EL & (F & F1 & F2 & F3 & F4 & F5 & F6) & RV & _).
  pose proof (proj1 RV (proj2 (hasBranch_iff t _) MF)) as (VX & VY & VZ & VPx & VPy & VPz & VS).
  unfold beamEvent. rewrite EM. unfold eventCorrect. rewrite EL. cbn [bnd].
  destruct (vertexZ_ok s tg b1 fuel (afterEntry b pos) U) as (z & k & EZ & IZ). { rewrite F2. exact SI. }
  fold (afterEntry b pos). rewrite EZ. cbn [bnd].
  assert (0 < rPz e) as P0. { rewrite Forall_forall in PZ. apply PZ. exact (nth_error_In _ _ NT). }
  assert (rPz (bVals b1) <> 0) as P1 by (rewrite VPz; lra).
  rewrite !(rdiv_ne _ (rPz (bVals b1)) P1). cbn [bnd withVals bRes bPdfS bPdfM]. rewrite F4, F5, F6.
  assert (bRes b * bRes b <> 0) as RR by nra. assert (bPdfS b * bPdfS b <> 0) as SS by nra.
  rewrite !(rdiv_ne _ _ RR), !(rdiv_ne _ _ SS). cbn [bnd]. rewrite VX, VY, VZ, VPx, VPy, VPz.
  set (p := sqrt (rPx e * rPx e + rPy e * rPy e + rPz e * rPz e)).
  assert (sqrt (rPx e ^ 2 + rPy e ^ 2 + rPz e ^ 2) = p) as EP by (unfold p; f_equal; ring).
  pose proof (product_ok p (bRes b) (bPdfM b) (bPdfS b) R0 S0) as PO. cbv zeta in PO.
  set (W := 1 / sqrt _) in *. set (M := W * W * _) in *.
  eexists i, e, _, k, M, W. split; [exact NX|]. split; [exact NT|]. split; [reflexivity|]. cbn [withEvent bVertex bBeam vz].
  split. { unfold isVertexZ in IZ |- *. rewrite F2, VZ in IZ. exact IZ. }
  split. { exists ((z - zOf t e) / rPz e). cbn [vx vy vz]. repeat split; field; lra. }
  cbv zeta. rewrite EP. split; [exact PO|].
  assert (0 < p) as PP by (apply sqrt_lt_R0; nra). assert (p ^ 2 = rPx e ^ 2 + rPy e ^ 2 + rPz e ^ 2) as P2 by (unfold p; rewrite sq2 by nra; ring).
  assert (sqrt (rPx e / rPz e * (rPx e / rPz e) + rPy e / rPz e * (rPy e / rPz e) + 1) = p / rPz e) as EN.
  { replace (rPx e / rPz e * (rPx e / rPz e) + rPy e / rPz e * (rPy e / rPz e) + 1) with ((p / rPz e) ^ 2).
    - replace ((p / rPz e) ^ 2) with ((p / rPz e) * (p / rPz e)) by ring. apply sqrt_square. apply Rlt_le, Rdiv_lt_0_compat; assumption.
    - replace ((p / rPz e) ^ 2) with (p ^ 2 / rPz e ^ 2) by (field; lra). rewrite P2. field. lra. }
  rewrite EN. fold (gaus s M W k). set (T := gaus s M W k).
  replace (T * (rPx e / rPz e) / (p / rPz e)) with (T / p * rPx e) by (field; lra). replace (T * (rPy e / rPz e) / (p / rPz e)) with (T / p * rPy e) by (field; lra).
  replace (T / (p / rPz e)) with (T / p * rPz e) by (field; lra). apply setXYZM_ok. exact M0.
Qed.

(* ---- files with entries, for the examples ---- *)
Definition corrObj (pm : R) (q : bool) : bvg := setSeq q (setCorrection 1 1 pm newBvg).
Lemma corrObj_reached pm q : reachedB (corrObj pm q).
Proof. refine (RBStep _ _ (RBStep _ _ RBNew (SCorr _ _ _ _)) (SSeq _ _)). Qed.
Lemma corrLoad rows pm : pm <> 0 -> exists b, loaded (exTree rows) true b /\ bSeq b = true /\ bTakeZ b = false /\ bRes b = 1 /\ bPdfS b = 1 /\ bPdfM b = pm /\ bCur b = 0%Z /\ bVals b = zeroRow
  /\ bMode b = FromMomentaCorrect /\ bTree b = Some (exTree rows) /\ bBound b = true /\ bHasZ b = false /\ bSig b = false.
Proof.
  intros P0. set (b1 := withMode FromMomentaCorrect false false (withZ 0 zeroRow) (withTree (Some (exTree rows)) false (corrObj pm true))).
  assert (check b1 = true) as C.
  { unfold check, b1. cbn. unfold reqb. destruct (Req_EM_T pm 0); [contradiction|]. destruct (Req_EM_T 1 0); [lra|reflexivity]. }
  assert (loadBeamFile (WithTree (exTree rows)) (corrObj pm true) = Some (true, b1)) as E.
  { unfold loadBeamFile. change (hasBranch (exTree rows) "beam_momentum_x") with true. cbv iota. unfold loadMomenta.
    match goal with |- context [hasAll ?t ?l] => change (hasAll t l) with true end. cbn [negb].
    change (hasBranch (exTree rows) "vertex_z_position") with false. cbv iota.
    match goal with |- context [hasAll ?t ?l] => change (hasAll t l) with false end.
    assert (reqb (bPdfM (withTree (Some (exTree rows)) false (corrObj pm true))) 0 = false) as ->. { cbn. unfold reqb. destruct (Req_EM_T pm 0); [contradiction|reflexivity]. }
    change (bVals (withTree (Some (exTree rows)) false (corrObj pm true))) with zeroRow. fold b1. rewrite C. reflexivity. }
  exists b1. split; [|repeat split]. refine (LLoad _ _ _ _ (corrObj_reached pm true) _ E). cbn. split; [intros _; exact P0|reflexivity].
Qed.
Example C81_correct_case : exists t b, loaded t true b /\ momentumFile t /\ tRows t <> [] /\ Forall (fun e => 0 < rPz e) (tRows t) /\ bRes b <> 0 /\ bPdfS b <> 0 /\ bSeq b = true.
Proof.
  destruct (corrLoad [exRow 1 190; exRow (-1) 191] 190 ltac:(lra)) as (b & L & S1 & _ & R1 & P1 & _). exists (exTree [exRow 1 190; exRow (-1) 191]), b.
  split; [exact L|]. split; [cbn; tauto|]. split; [discriminate|]. split; [repeat constructor; cbn; lra|]. split; [lra|]. split; [lra|exact S1].
Qed.
(* The direction is not kept for an entry whose momentum points against the z-axis: the beam of the event
   flies the opposite way. *)
Theorem C81_correct_backward_refuted : exists t b s e, loaded t true b /\ momentumFile t /\ tRows t = [e] /\ rPx e = 0 /\ rPy e = 0 /\ rPz e < 0 /\ bRes b <> 0 /\ bPdfS b <> 0 /\ bSeq b = true /\ uniform (uni s)
  /\ forall eig tg bp, 0 <= tLength tg -> exists b' pos', beamEvent eig 1 s tg bp 0 b = Some (true, b', pos') /\ lx (bBeam b') = 0 /\ 0 < lz (bBeam b').
Proof.
  set (e := exRow 0 (-2)). destruct (corrLoad [e] 2 ltac:(lra)) as (b & L & S1 & T1 & R1 & P1 & PM & C0 & V0 & MB & TB & BB & HZ & HS).
  set (s := Rng (fun _ => 1) (fun _ => 0)). exists (exTree [e]), b, s, e.
  assert (uniform (uni s)) as U by (intros i; cbn; lra).
  split; [exact L|]. split; [cbn; tauto|]. split; [reflexivity|]. split; [reflexivity|]. split; [reflexivity|]. split; [cbn; lra|]. split; [lra|]. split; [lra|]. split; [exact S1|]. split; [exact U|].
  intros eig tg bp T0.
  destruct (loadNext_ok (exTree [e]) true b s 0 (loaded_inv _ _ _ L) U ltac:(discriminate) ltac:(congruence)) as (i & e' & b1 & (NX & _) & NT & EL & (F & F1 & F2 & F3 & F4 & F5 & F6) & RV & _).
  cbn in NX. assert (i = 0%nat) by lia. subst i. cbn in NT. injection NT as <-.
  pose proof (proj1 RV eq_refl) as (VX & VY & VZ & VPx & VPy & VPz & VS).
  unfold beamEvent. rewrite MB. unfold eventCorrect. rewrite EL, S1. cbn [bnd].
  assert (exists z, vertexZ 1 s tg 0 b1 = Some (z, 1%nat)) as (z & EZ).
  { unfold vertexZ. rewrite F2, T1. cbn [drawZ]. rewrite rltb_false; [eexists; reflexivity|]. unfold expo. cbn [uni s]. rewrite ln_1. lra. }
  rewrite EZ. cbn [bnd]. assert (rPz (bVals b1) <> 0) as PN by (rewrite VPz; cbn; lra).
  rewrite !(rdiv_ne _ (rPz (bVals b1)) PN). cbn [bnd withVals bRes bPdfS bPdfM]. rewrite F4, F5, F6, R1, P1, PM. rewrite !(rdiv_ne _ (1 * 1)) by lra. cbn [bnd].
  eexists _, _. split; [reflexivity|]. cbn [withEvent bBeam setXYZM lx lz]. rewrite VPx, VPy, VPz. unfold gaus. cbn [nor s rPx rPy rPz e exRow].
  replace (0 * 0 + 0 * 0 + -2 * -2) with (2 * 2) by lra. rewrite (sqrt_square 2) by lra.
  set (W := 1 / sqrt _). assert (0 < W) as W0. { apply Rdiv_lt_0_compat; [lra|]. apply sqrt_lt_R0. lra. }
  set (n := sqrt _). assert (0 < n) as N0 by (apply sqrt_lt_R0; nra). split; [unfold Rdiv; ring|]. apply Rdiv_lt_0_compat; [|exact N0]. nra.
Qed.

(* ---- file with inclinations ---- *)
Lemma sumTo4 f : sumTo 4 f = f 0%nat + f 1%nat + f 2%nat + f 3%nat.
Proof. unfold sumTo. cbn. ring. Qed.
Lemma mvg_ok eig s mean cov f pos : isEigen 4 cov (fst (eig cov)) (snd (eig cov)) ->
  exists A smp, multivariateGauss eig s 4 mean 4 cov f pos = Some (smp, (pos + 4)%nat)
    /\ (forall i j, (i < 4)%nat -> (j < 4)%nat -> sumTo 4 (fun k => A i k * A j k) = f ^ 2 * cov i j)
    /\ (forall i, (i < 4)%nat -> smp i = mean i + sumTo 4 (fun k => A i k * nor s (pos + k))).
Proof.
  intros [E0 E1]. unfold multivariateGauss. destruct (eig cov) as [vals vecs]. cbn [fst snd] in *. rewrite Nat.eqb_refl. cbn [negb].
  replace (forallb _ (seq 0 4)) with true.
  2:{ symmetry. apply forallb_forall. intros i I1. apply in_seq in I1. rewrite rltb_false; [reflexivity|]. apply E0. lia. }
  cbn [negb]. exists (fun i k => vecs i k * (f * sqrt (vals k))). eexists. split; [reflexivity|]. split.
  - intros i j Hi Hj. rewrite (E1 i j Hi Hj), !sumTo4. rewrite <- (sqrt_sqrt (vals 0%nat)) at 3 by (apply E0; lia). rewrite <- (sqrt_sqrt (vals 1%nat)) at 3 by (apply E0; lia).
    rewrite <- (sqrt_sqrt (vals 2%nat)) at 3 by (apply E0; lia). rewrite <- (sqrt_sqrt (vals 3%nat)) at 3 by (apply E0; lia). ring.
  - intros i Hi. rewrite !sumTo4. unfold gaus. ring.
Qed.

(* With a file of inclinations the line of flight is given by position and slopes of the entry.  If the
   scaling factor is not zero, the four numbers x, y, dx/dz and dy/dz are moved by A times four normal
   numbers, where A A^T is the covariance matrix of the entry times the square of the factor, and the
   momentum by the scaled uncertainty times another one. *)
Theorem C81_inclinations eig fuel s tg bp pos t b :
  loaded t false b -> ~ momentumFile t -> tRows t <> [] ->
  (bScale b <> 0 -> Forall (fun e => rCovN e = 4%nat /\ isEigen 4 (rCov e) (fst (eig (rCov e))) (snd (eig (rCov e)))) (tRows t)) ->
  uniform (uni s) -> (bSeq b = false -> uni s pos < 1) -> (bTakeZ b = false -> someInside fuel s tg (afterEntry b pos)) -> 0 <= bpMass bp ->
  exists i e b' k pos' x y dx dy p, nextEntry t b (uni s pos) i /\ nth_error (tRows t) i = Some e
    /\ beamEvent eig fuel s tg bp pos b = Some (true, b', pos')
    /\ isVertexZ s tg b (afterEntry b pos) k (rZ e) (vz (bVertex b'))
    /\ onLine x y (rZ e) dx dy 1 (bVertex b')
    /\ lx (bBeam b') = dx * lz (bBeam b') /\ ly (bBeam b') = dy * lz (bBeam b') /\ lx (bBeam b') ^ 2 + ly (bBeam b') ^ 2 + lz (bBeam b') ^ 2 = p ^ 2 /\ 0 <= p * lz (bBeam b')
    /\ hasMass (bpMass bp) (bBeam b') /\ 0 <= lt (bBeam b')
    /\ (bScale b = 0 -> pos' = k /\ x = rX e /\ y = rY e /\ dx = rDx e /\ dy = rDy e /\ p = rP e)
    /\ (bScale b <> 0 -> pos' = (k + 5)%nat /\ p = rP e + bScale b * rPs e * nor s (k + 4)
        /\ exists A, (forall i j, (i < 4)%nat -> (j < 4)%nat -> sumTo 4 (fun k => A i k * A j k) = bScale b ^ 2 * rCov e i j)
           /\ x = rX e + sumTo 4 (fun j => A 0%nat j * nor s (k + j)) /\ y = rY e + sumTo 4 (fun j => A 1%nat j * nor s (k + j))
           /\ dx = rDx e + sumTo 4 (fun j => A 2%nat j * nor s (k + j)) /\ dy = rDy e + sumTo 4 (fun j => A 3%nat j * nor s (k + j))).
Proof.
  intros L MF NE HE U UL SI M0. pose proof (loaded_inv t false b L) as LI. destruct (inc_mode t false b LI MF) as (EM & ES & _).
  destruct (loadNext_ok t false b s pos LI U NE UL) as (i & e & b1 & NX & NT & EL & (F & F1 & F2 & F3 & F4 & F5 & F6) & RV & _).
  assert (hasBranch t "beam_momentum_x" = false) as MX. { destruct (hasBranch t _) eqn:G; [|reflexivity]. exfalso. apply MF. now apply hasBranch_iff. }
  pose proof (proj2 RV MX) as (VX & VY & VZ & VDx & VDy & VP & VPs & VN & VC).
  unfold beamEvent. rewrite EM. unfold eventFromInclinations. rewrite EL. cbn [bnd].
  destruct (vertexZ_ok s tg b1 fuel (afterEntry b pos) U) as (z & k & EZ & IZ). { rewrite F2. exact SI. }
  fold (afterEntry b pos). rewrite EZ. cbn [bnd]. assert (bSig b1 = true) as ES1 by (destruct F as (_ & _ & _ & _ & F'); congruence). rewrite ES1, F3. cbn [andb].
  rewrite VX, VY, VZ, VDx, VDy, VP, VPs, VN, VC.
  assert (isVertexZ s tg b (afterEntry b pos) k (rZ e) z) as IZ'. { unfold isVertexZ in IZ |- *. rewrite F2, VZ in IZ. exact IZ. }
  assert (forall p dx dy, let P := setXYZM (p * dx / sqrt (dx * dx + dy * dy + 1)) (p * dy / sqrt (dx * dx + dy * dy + 1)) (p / sqrt (dx * dx + dy * dy + 1)) (bpMass bp) in
    lx P = dx * lz P /\ ly P = dy * lz P /\ lx P ^ 2 + ly P ^ 2 + lz P ^ 2 = p ^ 2 /\ 0 <= p * lz P /\ hasMass (bpMass bp) P /\ 0 <= lt P) as HP.
  { intros p dx dy. cbv zeta. replace (dx * dx + dy * dy + 1) with (1 + dx * dx + dy * dy) by ring. destruct (slopes_ok p dx dy) as (N & N2 & P2). set (n := sqrt _) in *.
    destruct (setXYZM_ok (bpMass bp) (p * dx / n) (p * dy / n) (p / n) M0) as (Ex & Ey & Ez & HM & HT).
    rewrite Ex, Ey, Ez. split; [field; lra|]. split; [field; lra|]. split; [rewrite <- P2; field; lra|]. split; [|split; assumption].
    replace (p * (p / n)) with (p * p / n) by (field; lra). apply Rmult_le_pos; [nra|]. left. now apply Rinv_0_lt_compat. }
  destruct (Req_EM_T (bScale b) 0) as [Z|Z].
  - assert (reqb (bScale b) 0 = true) as -> by (unfold reqb; destruct (Req_EM_T (bScale b) 0); [reflexivity|contradiction]). cbn [negb bnd nth].
    eexists i, e, _, k, _, (rX e), (rY e), (rDx e), (rDy e), (rP e). split; [exact NX|]. split; [exact NT|]. split; [reflexivity|]. cbn [withEvent bVertex bBeam].
    split; [exact IZ'|]. split; [exists (z - rZ e); cbn [vx vy vz]; repeat split; ring|].
    destruct (HP (rP e) (rDx e) (rDy e)) as (H1 & H2 & H3 & H4 & H5 & H6). split; [exact H1|]. split; [exact H2|]. split; [exact H3|]. split; [exact H4|]. split; [exact H5|]. split; [exact H6|].
    split; [intros _; repeat split|contradiction].
  - assert (reqb (bScale b) 0 = false) as -> by (unfold reqb; destruct (Req_EM_T (bScale b) 0); [contradiction|reflexivity]). cbn [negb].
    specialize (HE Z). rewrite Forall_forall in HE. destruct (HE e (nth_error_In _ _ NT)) as [N4 EG]. rewrite N4.
    destruct (mvg_ok eig s (fun i => nth i [rX e; rY e; rDx e; rDy e] 0) (rCov e) (bScale b) k EG) as (A & smp & -> & HA & HS). cbn [bnd].
    eexists i, e, _, k, _, (smp 0%nat), (smp 1%nat), (smp 2%nat), (smp 3%nat), _. split; [exact NX|]. split; [exact NT|]. split; [reflexivity|]. cbn [withEvent bVertex bBeam].
    split; [exact IZ'|]. split; [exists (z - rZ e); cbn [vx vy vz]; repeat split; ring|].
    destruct (HP (gaus s (rP e) (bScale b * rPs e) (k + 4)) (smp 2%nat) (smp 3%nat)) as (H1 & H2 & H3 & H4 & H5 & H6).
    split; [exact H1|]. split; [exact H2|]. split; [exact H3|]. split; [exact H4|]. split; [exact H5|]. split; [exact H6|]. split; [contradiction|]. intros _. split; [lia|]. split; [reflexivity|].
    exists A. split; [exact HA|]. rewrite !HS by lia. cbn [nth]. repeat split.
Qed.
(* a file with inclinations *)
Definition incBranches : list string := ["vertex_x_position"; "vertex_y_position"; "vertex_z_position"; "beam_dXdZ"; "beam_dYdZ"; "beam_momentum"; "vertex_XYdXdY_cov"; "beam_momentum_sigma"]%string.
Definition incRow : row := Row 1 2 3 0 0 0 0.01 0.02 190 0 0 0 0 0 1 4 (fun i j => if (i =? j)%nat then 4 else 0).
Example C81_inclinations_case : exists t b eig, loaded t false b /\ ~ momentumFile t /\ tRows t <> [] /\ bScale b <> 0 /\
  Forall (fun e => rCovN e = 4%nat /\ isEigen 4 (rCov e) (fst (eig (rCov e))) (snd (eig (rCov e)))) (tRows t).
Proof.
  set (t := Tree incBranches [incRow]). set (b1 := withMode FromInclinations true true zeroRow (withTree (Some t) false newBvg)).
  assert (check b1 = true) as C. { unfold check, b1. cbn. unfold reqb. destruct (Req_EM_T 0 0); [reflexivity|contradiction]. }
  assert (loadBeamFile (WithTree t) newBvg = Some (true, b1)) as E.
  { unfold loadBeamFile. change (hasBranch t "beam_momentum_x") with false. cbv iota. change (hasBranch t "beam_dXdZ") with true. cbv iota. unfold loadInclinations.
    match goal with |- context [hasAll ?t ?l] => change (hasAll t l) with true end. cbn [negb]. change (bVals (withTree (Some t) false newBvg)) with zeroRow. fold b1. rewrite C. reflexivity. }
  exists t, b1, (fun _ => (fun _ => 4, fun i j => if (i =? j)%nat then 1 else 0)). split; [|split; [|split; [discriminate|split; [cbn; lra|]]]].
  - refine (LLoad _ _ _ _ RBNew _ E). cbn. split; [discriminate|]. intros H. now contradiction H.
  - cbn. intros H. repeat (destruct H as [H|H]; [discriminate|]). exact H.
  - constructor; [|constructor]. split; [reflexivity|]. split; [intros; cbn; lra|]. intros i j Hi Hj. rewrite sumTo4. cbn [rCov incRow fst snd].
    destruct i as [|[|[|[|i]]]]; destruct j as [|[|[|[|j]]]]; try lia; cbn [Nat.eqb]; ring.
Qed.
