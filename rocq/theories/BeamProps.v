(* C81: vertices and beam particles of generated events. *)
From Coq Require Import String List ZArith Reals Bool Lia Lra Psatz.
From Verif Require Import ArrayModel CGBoxModel PhysModel PhaseModel PhaseSpec PhaseProofs PhaseProofs2 LikSetProofs ProdModel ProdSpec ProdProofs2 ProdProofs3 BeamModel BeamSpec BeamProofs.
Import ListNotations.
Open Scope R_scope.

Lemma osqrt_nn x : 0 <= x -> osqrt x = Some (sqrt x).
Proof. intros H. unfold osqrt. now rewrite rltb_false by exact H. Qed.
Lemma sq2 x : 0 <= x -> sqrt x ^ 2 = x.
Proof. intros H. replace (sqrt x ^ 2) with (sqrt x * sqrt x) by ring. now apply sqrt_sqrt. Qed.
Lemma hasBranch_iff t n : hasBranch t n = true <-> In n (tBranches t).
Proof.
  unfold hasBranch. rewrite existsb_exists. split.
  - intros (x & I1 & E). apply String.eqb_eq in E. now subst.
  - intros I1. exists n. split; [exact I1|apply String.eqb_refl].
Qed.
Lemma hasSigmas_iff t : hasAll t sigmaBranches = true <-> hasSigmas t.
Proof.
  unfold hasAll, hasSigmas. rewrite forallb_forall. split; intros H n I1; [now apply hasBranch_iff, H|now apply hasBranch_iff, H].
Qed.

(* momentum with the slopes dx, dy and the absolute value |p| *)
Lemma slopes_ok p dx dy : let n := sqrt (1 + dx * dx + dy * dy) in
  0 < n /\ n ^ 2 = 1 + dx * dx + dy * dy /\ (dx * (p / n)) ^ 2 + (dy * (p / n)) ^ 2 + (p / n) ^ 2 = p ^ 2.
Proof.
  cbv zeta. set (n := sqrt _). assert (0 < n) as N by (apply sqrt_lt_R0; nra). assert (n ^ 2 = 1 + dx * dx + dy * dy) as N2 by (apply sq2; nra).
  split; [exact N|]. split; [exact N2|].
  replace ((dx * (p / n)) ^ 2 + (dy * (p / n)) ^ 2 + (p / n) ^ 2) with (p ^ 2 * (1 + dx * dx + dy * dy) / n ^ 2) by (field; lra).
  rewrite <- N2. field. lra.
Qed.

(* Without beam file the vertex is in the target: its depth is exponentially distributed, and cut at the
   end of the target, its position across the beam uniform (squared radius and azimuth are proportional
   to uniform numbers); the absolute value of the beam momentum and its slopes are Gaussian, and the beam
   particle is on its mass shell.  Each random number is used once. *)
Theorem C81_simple eig fuel s tg bp pos b :
  bMode b = Simple -> bTakeZ b = false -> uniform (uni s) -> someInside fuel s tg pos -> 0 <= tRadius tg -> 0 <= bpMass bp ->
  exists b' k, beamEvent eig fuel s tg bp pos b = Some (true, b', (k + 5)%nat)
    /\ insideZ tg (vz (bVertex b')) /\ drawnZ s tg pos k (vz (bVertex b')) /\ insideR tg (bVertex b')
    /\ (exists r, 0 <= r /\ r ^ 2 = tRadius tg ^ 2 * uni s k
         /\ vx (bVertex b') = vx (tPos tg) + r * cos (2 * PI * uni s (k + 1)) /\ vy (bVertex b') = vy (tPos tg) + r * sin (2 * PI * uni s (k + 1)))
    /\ (let p := bpMom bp + bpMomSigma bp * nor s (k + 2) in
        lx (bBeam b') ^ 2 + ly (bBeam b') ^ 2 + lz (bBeam b') ^ 2 = p ^ 2 /\ (0 < p -> 0 < lz (bBeam b'))
        /\ lx (bBeam b') = (bpDx bp + bpDxSigma bp * nor s (k + 3)) * lz (bBeam b')
        /\ ly (bBeam b') = (bpDy bp + bpDySigma bp * nor s (k + 4)) * lz (bBeam b')
        /\ hasMass (bpMass bp) (bBeam b') /\ (p <> 0 -> isBeam (bpMass bp) (bBeam b'))).
Proof.
  intros M TZ U HI R0 M0. unfold beamEvent. rewrite M. unfold eventSimple.
  destruct (vertexZ_ok s tg b fuel pos U ltac:(intros _; exact HI)) as (z & k & EZ & _ & VZ). destruct (VZ TZ) as [IZ DZ]. rewrite EZ. cbn [bnd].
  pose proof (U k) as U0. assert (0 <= uniformIn 0 (tRadius tg * tRadius tg) (uni s k)) as Q by (unfold uniformIn; nra).
  rewrite (osqrt_nn _ Q). cbn [bnd]. eexists _, k. split; [reflexivity|]. cbn [withEvent bVertex bBeam vx vy vz lx ly lz lt].
  set (p := gaus s (bpMom bp) _ _). set (dx := gaus s (bpDx bp) _ _). set (dy := gaus s (bpDy bp) _ _). set (r := sqrt (uniformIn _ _ _)). set (phi := uniformIn 0 (2 * PI) _).
  destruct (slopes_ok p dx dy) as (N & N2 & P2). set (n := sqrt (1 + dx * dx + dy * dy)) in *.
  assert (r ^ 2 = tRadius tg ^ 2 * uni s k) as R2 by (unfold r; rewrite (sq2 _ Q); unfold uniformIn; ring).
  pose proof (sin2_cos2 phi) as SC. unfold Rsqr in SC.
  split; [exact IZ|]. split; [exact DZ|]. split.
  { unfold insideR. cbn [vx vy]. replace ((vx (tPos tg) + r * cos phi - vx (tPos tg)) ^ 2 + (vy (tPos tg) + r * sin phi - vy (tPos tg)) ^ 2) with (r ^ 2 * (sin phi * sin phi + cos phi * cos phi)) by ring.
    rewrite SC, R2. nra. }
  split. { exists r. split; [apply sqrt_pos|]. split; [exact R2|]. replace (2 * PI * uni s (k + 1)) with phi by (unfold phi, uniformIn; ring). split; reflexivity. }
  fold (gaus s (bpMom bp) (bpMomSigma bp) (k + 2)). fold p. cbv zeta. split; [exact P2|]. split; [intros P0; now apply Rdiv_lt_0_compat|]. split; [reflexivity|]. split; [reflexivity|].
  assert (hasMass (bpMass bp) (Lv (dx * (p / n)) (dy * (p / n)) (p / n) (sqrt (p * p + bpMass bp * bpMass bp)))) as HM.
  { unfold hasMass. cbn [lx ly lz lt]. rewrite sq2 by nra. rewrite <- (Rplus_0_r (bpMass bp ^ 2)). replace 0 with (p ^ 2 - p ^ 2) by ring. rewrite <- P2 at 2. ring. }
  split; [exact HM|]. intros PN. split; [exact M0|]. split; [exact HM|]. cbn [lx ly lz lt]. assert (0 < p * p) by nra. split; [apply sqrt_lt_R0; nra|]. rewrite P2. nra.
Qed.
Example C81_simple_case : let s := Rng (fun _ => 1) (fun _ => 0) in let tg := Tgt (V3 0 0 0) 40 2 100 in let bp := BeamPar 1 190 1 0 1 0 1 in
  bMode newBvg = Simple /\ bTakeZ newBvg = false /\ uniform (uni s) /\ someInside 5 s tg 0 /\ 0 <= tRadius tg /\ 0 <= bpMass bp.
Proof.
  cbv zeta. split; [reflexivity|]. split; [reflexivity|]. split; [intros i; cbn; lra|]. split; [|cbn; lra]. split; [cbn; lra|]. split; [cbn; lra|]. exists 0%nat. split; [lia|].
  cbn [uni tLength tIntLength]. rewrite <- exp_0. left. apply exp_increasing. lra.
Qed.

(* ---- file with momenta ---- *)
Lemma mom_mode t corr b : linv t corr b -> momentumFile t -> bMode b = (if corr then FromMomentaCorrect else FromMomenta) /\ bSig b = hasAll t sigmaBranches.
Proof.
  intros (_ & _ & _ & K) MF. destruct K as [(K1 & K2 & K3 & K4 & K5)|(K1 & _)]; [now split|]. apply hasBranch_iff in MF. congruence.
Qed.
Lemma inc_mode t corr b : linv t corr b -> ~ momentumFile t -> bMode b = FromInclinations /\ bSig b = true /\ corr = false.
Proof.
  intros (_ & _ & _ & K) MF. destruct K as [(K1 & _)|(K1 & K2 & K3 & K4)]; [apply hasBranch_iff in K1; contradiction|]. now split.
Qed.
Lemma rdiv_ne x y : y <> 0 -> rdiv x y = Some (x / y).
Proof. intros H. unfold rdiv, reqb. destruct (Req_EM_T y 0); [contradiction|reflexivity]. Qed.

(* With a file of momenta the event follows one entry of it: the vertex is on the line through the
   position of the entry along its momentum, at a depth drawn in the target or, on request, at the
   position of the entry, and the beam particle has the momentum of the entry.  If the file gives
   uncertainties and their scaling factor is not zero, position and momentum are moved by the scaled
   uncertainties times one normal number each. *)
Theorem C81_from_momenta eig fuel s tg bp pos t b :
  loaded t false b -> momentumFile t -> tRows t <> [] -> Forall (fun e => rPz e <> 0) (tRows t) ->
  uniform (uni s) -> (bSeq b = false -> uni s pos < 1) -> (bTakeZ b = false -> someInside fuel s tg (afterEntry b pos)) -> 0 <= bpMass bp ->
  exists i e b' k pos', nextEntry t b (uni s pos) i /\ nth_error (tRows t) i = Some e
    /\ beamEvent eig fuel s tg bp pos b = Some (true, b', pos')
    /\ isVertexZ s tg b (afterEntry b pos) k (zOf t e) (vz (bVertex b'))
    /\ (~ hasSigmas t \/ bScale b = 0 ->
        pos' = k /\ onLine (rX e) (rY e) (zOf t e) (rPx e) (rPy e) (rPz e) (bVertex b') /\ isMomentum (bpMass bp) (rPx e) (rPy e) (rPz e) (bBeam b'))
    /\ (hasSigmas t -> bScale b <> 0 ->
        pos' = (k + 5)%nat
        /\ onLine (rX e + bScale b * rXs e * nor s k) (rY e + bScale b * rYs e * nor s (k + 1)) (zOf t e) (rPx e) (rPy e) (rPz e) (bVertex b')
        /\ isMomentum (bpMass bp) (rPx e + bScale b * rPxs e * nor s (k + 2)) (rPy e + bScale b * rPys e * nor s (k + 3)) (rPz e + bScale b * rPzs e * nor s (k + 4)) (bBeam b')).
Proof.
  intros L MF NE PZ U UL SI M0. pose proof (loaded_inv t false b L) as LI. destruct (mom_mode t false b LI MF) as [EM ES].
  destruct (loadNext_ok t false b s pos LI U NE UL) as (i & e & b1 & NX & NT & EL & (F & F1 & F2 & F3 & _) & RV & _).
  pose proof (proj1 RV (proj2 (hasBranch_iff t _) MF)) as (VX & VY & VZ & VPx & VPy & VPz & VS).
  unfold beamEvent. rewrite EM. unfold eventFromMomenta. rewrite EL. cbn [bnd].
  destruct (vertexZ_ok s tg b1 fuel (afterEntry b pos) U) as (z & k & EZ & IZ). { rewrite F2. exact SI. }
  fold (afterEntry b pos). rewrite EZ. cbn [bnd].
  assert (rPz e <> 0) as P0. { rewrite Forall_forall in PZ. apply PZ. exact (nth_error_In _ _ NT). }
  rewrite !rdiv_ne by (rewrite VPz; exact P0). cbn [bnd]. rewrite VX, VY, VZ, VPx, VPy, VPz, F3. destruct F as (_ & _ & _ & _ & F5). rewrite F5, ES.
  assert (forall x y, onLine x y (zOf t e) (rPx e) (rPy e) (rPz e) (V3 (x + rPx e / rPz e * (z - zOf t e)) (y + rPy e / rPz e * (z - zOf t e)) z)) as OL.
  { intros x y. exists ((z - zOf t e) / rPz e). cbn [vx vy vz]. repeat split; field; exact P0. }
  assert (isVertexZ s tg b (afterEntry b pos) k (zOf t e) z) as IZ'. { unfold isVertexZ in IZ |- *. rewrite F2, VZ in IZ. exact IZ. }
  destruct (hasAll t sigmaBranches && negb (reqb (bScale b) 0)) eqn:EB.
  - apply andb_prop in EB as [HS HF]. destruct (VS HS) as (S1 & S2 & S3 & S4 & S5). rewrite S1, S2, S3, S4, S5.
    assert (bScale b <> 0) as SN. { intros Z. rewrite Z in HF. unfold reqb in HF. destruct (Req_EM_T 0 0); [discriminate|contradiction]. }
    eexists i, e, _, k, _. split; [exact NX|]. split; [exact NT|]. split; [reflexivity|]. split; [exact IZ'|].
    split; [intros [H|H]; [exfalso; apply H; now apply hasSigmas_iff|contradiction]|]. intros _ _. split; [reflexivity|]. cbn [withEvent bVertex bBeam]. split; [|apply setXYZM_ok; exact M0].
    unfold gaus. replace (rX e + rPx e / rPz e * (z - zOf t e) + bScale b * rXs e * nor s k) with (rX e + bScale b * rXs e * nor s k + rPx e / rPz e * (z - zOf t e)) by ring.
    replace (rY e + rPy e / rPz e * (z - zOf t e) + bScale b * rYs e * nor s (k + 1)) with (rY e + bScale b * rYs e * nor s (k + 1) + rPy e / rPz e * (z - zOf t e)) by ring. apply OL.
  - eexists i, e, _, k, _. split; [exact NX|]. split; [exact NT|]. split; [reflexivity|]. split; [exact IZ'|]. split; [|].
    + intros _. split; [reflexivity|]. split; [apply OL|apply setXYZM_ok; exact M0].
    + intros HS SN. exfalso. apply hasSigmas_iff in HS. rewrite HS in EB. unfold reqb in EB. destruct (Req_EM_T (bScale b) 0); [contradiction|discriminate].
Qed.

(* a file with two entries *)
Definition exRow (px pz : R) : row := Row 1 2 3 px 0 pz 0 0 0 0 0 0 0 0 0 0 (fun _ _ => 0).
Definition momBranches : list string := ["vertex_x_position"; "vertex_y_position"; "beam_momentum_x"; "beam_momentum_y"; "beam_momentum_z"]%string.
Definition exTree (rows : list row) : tree := Tree momBranches rows.
Lemma exLoad rows : exists b, loadBeamFile (WithTree (exTree rows)) newBvg = Some (true, b) /\ loaded (exTree rows) false b /\ bSeq b = false /\ bTakeZ b = false /\ bScale b = 1 /\ bCur b = 0%Z
  /\ rPz (bVals b) = 0 /\ bMode b = FromMomenta /\ bTree b = Some (exTree rows) /\ check b = true.
Proof.
  assert (check (withMode FromMomenta false false (withZ 0 zeroRow) (withTree (Some (exTree rows)) false newBvg)) = true) as C.
  { unfold check. cbn [withMode bTree bMode bPdfM withTree newBvg orb negb]. unfold reqb. destruct (Req_EM_T 0 0); [reflexivity|contradiction]. }
  assert (loadBeamFile (WithTree (exTree rows)) newBvg = Some (true, withMode FromMomenta false false (withZ 0 zeroRow) (withTree (Some (exTree rows)) false newBvg))) as E.
  { unfold loadBeamFile. change (hasBranch (exTree rows) "beam_momentum_x") with true. cbv iota. unfold loadMomenta.
    match goal with |- context [hasAll ?t ?l] => change (hasAll t l) with true end. cbn [negb].
    change (hasBranch (exTree rows) "vertex_z_position") with false. cbv iota.
    match goal with |- context [hasAll ?t ?l] => change (hasAll t l) with false end.
    assert (reqb (bPdfM (withTree (Some (exTree rows)) false newBvg)) 0 = true) as ->. { cbn. unfold reqb. destruct (Req_EM_T 0 0); [reflexivity|contradiction]. }
    change (bVals (withTree (Some (exTree rows)) false newBvg)) with zeroRow. rewrite C. reflexivity. }
  eexists. split; [exact E|]. split; [|repeat split; exact C]. refine (LLoad _ _ _ _ RBNew _ E). cbn. split; [discriminate|]. intros H. now contradiction H.
Qed.
Example C81_from_momenta_case : exists t b, loaded t false b /\ momentumFile t /\ tRows t <> [] /\ Forall (fun e => rPz e <> 0) (tRows t)
  /\ let s := Rng (fun _ => 0.99) (fun _ => 0) in let tg := Tgt (V3 0 0 0) 40 2 100 in uniform (uni s) /\ (bSeq b = false -> uni s 0 < 1)
  /\ (bTakeZ b = false -> someInside 5 s tg (afterEntry b 0)).
Proof.
  destruct (exLoad [exRow 1 190; exRow (-1) 191]) as (b & _ & L & S1 & T1 & _). exists (exTree [exRow 1 190; exRow (-1) 191]), b. split; [exact L|]. split; [cbn; tauto|]. split; [discriminate|].
  split; [repeat constructor; cbn; lra|]. cbv zeta. split; [intros i; cbn; lra|]. split; [intros _; cbn; lra|]. intros _. split; [cbn; lra|]. split; [cbn; lra|]. exists 0%nat. split; [lia|]. cbn [uni tLength tIntLength].
  assert (1 + 40 / 100 < exp (40 / 100)) as X by (apply exp_ineq1; lra). replace (- (40) / 100) with (- (40 / 100)) by lra. rewrite exp_Ropp.
  apply Rlt_le. apply (Rmult_lt_reg_l (exp (40 / 100))); [apply exp_pos|]. rewrite Rinv_r by (pose proof (exp_pos (40 / 100)); lra). lra.
Qed.
