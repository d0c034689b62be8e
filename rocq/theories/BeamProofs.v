(* Proofs for C81. *)
From Coq Require Import String List ZArith Reals Bool Lia Lra Psatz.
From Verif Require Import ArrayModel CGBoxModel PhysModel PhaseModel PhaseSpec PhaseProofs PhaseProofs2 LikSetProofs ProdModel ProdSpec ProdProofs2 ProdProofs3 BeamModel BeamSpec.
Import ListNotations.
Open Scope R_scope.

Lemma toLong_ok x : 0 <= x -> (0 <= toLong x)%Z /\ IZR (toLong x) <= x < IZR (toLong x) + 1.
Proof.
  intros H. unfold toLong. rewrite rltb_false by exact H. destruct (base_Int_part x) as [A B]. split; [|lra].
  apply Znot_gt_le. intros G. assert (Int_part x <= -1)%Z as L by lia. apply IZR_le in L. lra.
Qed.

(* ---- position along the target ---- *)
Lemma expo_le s tau pos d : 0 < tau -> 0 < uni s pos -> expo s tau pos <= d <-> exp (- d / tau) <= uni s pos.
Proof.
  intros T U. unfold expo. set (u := uni s pos) in *. split; intros H.
  - rewrite <- (exp_ln u U).
    destruct (Rle_lt_or_eq_dec (- d / tau) (ln u)) as [L|L].
    + apply (Rmult_le_reg_r tau); [exact T|]. unfold Rdiv. rewrite Rmult_assoc, Rinv_l by lra. lra.
    + left. now apply exp_increasing.
    + rewrite L. lra.
  - rewrite <- (exp_ln u U) in H. assert (- d / tau <= ln u) as L.
    { destruct (Rle_lt_dec (- d / tau) (ln u)) as [L|L]; [exact L|]. apply exp_increasing in L. lra. }
    apply (Rmult_le_compat_r tau) in L; [|lra]. unfold Rdiv in L. rewrite Rmult_assoc, Rinv_l in L by lra. lra.
Qed.
Lemma drawZ_ok s tg : uniform (uni s) -> forall fuel pos, someInside fuel s tg pos ->
  exists z pos', drawZ fuel s tg pos = Some (z, pos') /\ (pos < pos' <= pos + fuel)%nat /\ 0 <= z <= tLength tg /\ drawnZ s tg pos pos' (vz (tPos tg) - tLength tg / 2 + z).
Proof.
  intros U. induction fuel as [|fuel IH]; intros pos (L0 & T0 & j & Hj & H); [lia|]. cbn [drawZ].
  pose proof (U pos) as U0. pose proof (expo_le s (tIntLength tg) pos (tLength tg) L0 ltac:(lra)) as K.
  destruct (Rlt_le_dec (tLength tg) (expo s (tIntLength tg) pos)) as [G|G].
  - rewrite rltb_true by exact G. assert (uni s pos < exp (- tLength tg / tIntLength tg)) as G'.
    { apply Rnot_le_lt. intros N. apply K in N. lra. }
    destruct j as [|j]; [rewrite Nat.add_0_r in H; lra|].
    destruct (IH (S pos)) as (z & p' & E & P & Z & i & Hi & A & B & C).
    { split; [exact L0|]. split; [exact T0|]. exists j. split; [lia|]. now replace (S pos + j)%nat with (pos + S j)%nat by lia. }
    exists z, p'. split; [exact E|]. split; [lia|]. split; [exact Z|]. exists (S i). replace (pos + S i)%nat with (S pos + i)%nat by lia.
    split; [lia|]. split; [exact A|]. split; [|exact C]. intros [|k] Hk; [now rewrite Nat.add_0_r|].
    replace (pos + S k)%nat with (S pos + k)%nat by lia. apply B. lia.
  - rewrite rltb_false by exact G. eexists _, _. split; [reflexivity|]. split; [lia|]. split.
    { split; [|exact G]. unfold expo. assert (ln (uni s pos) <= 0); [|nra]. rewrite <- ln_1. destruct (proj2 U0) as [U1|U1]; [left; apply ln_increasing; lra|rewrite U1; lra]. }
    exists 0%nat. rewrite Nat.add_0_r. split; [lia|]. split; [now apply K|]. split; [lia|].
    intros d. rewrite <- (expo_le s (tIntLength tg) pos d L0 ltac:(lra)). split; intros; lra.
Qed.
Lemma vertexZ_ok s tg b fuel pos : uniform (uni s) -> (bTakeZ b = false -> someInside fuel s tg pos) ->
  exists z pos', vertexZ fuel s tg pos b = Some (z, pos') /\ isVertexZ s tg b pos pos' (rZ (bVals b)) z.
Proof.
  intros U H. unfold vertexZ, isVertexZ. destruct (bTakeZ b).
  { eexists _, _. split; [reflexivity|]. split; [|discriminate]. intros _. split; reflexivity. }
  destruct (drawZ_ok s tg U fuel pos (H eq_refl)) as (z & p' & E & _ & Z & D). rewrite E. cbn [bnd]. eexists _, _. split; [reflexivity|]. split; [discriminate|]. intros _.
  replace (vz (tPos tg) - tLength tg * 0.5 + z) with (vz (tPos tg) - tLength tg / 2 + z) by lra. split; [unfold insideZ; lra|exact D].
Qed.

(* ---- invariants ---- *)
Definition frame (b b' : bvg) : Prop :=
  bTree b' = bTree b /\ bBound b' = bBound b /\ bMode b' = bMode b /\ bHasZ b' = bHasZ b /\ bSig b' = bSig b.
Definition keepsZ (b b' : bvg) : Prop := bMode b = FromMomenta \/ bMode b = FromMomentaCorrect -> bHasZ b = false -> rZ (bVals b') = rZ (bVals b).
Lemma getEntry_frame t i b : let b' := getEntry t i b in frame b b' /\ keepsZ b b' /\ bCur b' = bCur b /\ bSeq b' = bSeq b /\ bTakeZ b' = bTakeZ b /\ bScale b' = bScale b
  /\ bRes b' = bRes b /\ bPdfS b' = bPdfS b /\ bPdfM b' = bPdfM b.
Proof.
  unfold getEntry. destruct (_ || _); [repeat split|]. destruct (nth_error _ _); [|repeat split]. cbn. repeat split.
  intros [M|M] Z; cbn [withVals bVals]; rewrite M, Z; reflexivity.
Qed.
Lemma loadNext_frame s pos b b' pos' : uniform (uni s) -> (0 <= bCur b)%Z -> loadNext s pos b = Some (b', pos') ->
  frame b b' /\ keepsZ b b' /\ (0 <= bCur b')%Z /\ bSeq b' = bSeq b /\ bTakeZ b' = bTakeZ b /\ bScale b' = bScale b.
Proof.
  intros U C H. unfold loadNext in H. apply bnd_some in H as (t & ET & H). destruct (bSeq b) eqn:ES.
  - set (cur := if _ : bool then 0%Z else _) in H. assert (0 <= cur)%Z as C' by (unfold cur; destruct (_ >=? _)%Z; lia).
    set (b0 := withCur (cur + 1) b) in H. destruct (getEntry_frame t cur b0) as (F & K & Cu & S' & T' & Sc & _). injection H as <- _.
    split; [exact F|]. split; [exact K|]. split; [rewrite Cu; cbn; lia|]. split; [rewrite S'; exact ES|]. split; [exact T'|exact Sc].
  - set (cur := toLong _) in H. assert (0 <= cur)%Z as C'.
    { apply toLong_ok. unfold uniformIn. pose proof (U pos). pose proof (pos_INR (length (tRows t))). nra. }
    set (b0 := withCur cur b) in H. destruct (getEntry_frame t cur b0) as (F & K & Cu & S' & T' & Sc & _). injection H as <- _.
    split; [exact F|]. split; [exact K|]. split; [rewrite Cu; cbn; lia|]. split; [rewrite S'; exact ES|]. split; [exact T'|exact Sc].
Qed.
Lemma event_frame eig fuel s tg bp pos b ok b' pos' : uniform (uni s) -> (0 <= bCur b)%Z -> beamEvent eig fuel s tg bp pos b = Some (ok, b', pos') ->
  frame b b' /\ keepsZ b b' /\ (0 <= bCur b')%Z.
Proof.
  intros U C H. unfold beamEvent in H. destruct (bMode b) eqn:EM.
  - unfold eventSimple in H. apply bnd_some in H as ((z & p1) & E1 & H). apply bnd_some in H as (r & E2 & H). injection H as <- <- <-. split; [repeat split|]. split; [intros _ _; reflexivity|exact C].
  - unfold eventFromMomenta in H. apply bnd_some in H as ((b1 & p0) & E0 & H). destruct (loadNext_frame _ _ _ _ _ U C E0) as (F & K & C1 & _).
    apply bnd_some in H as ((z & p1) & E1 & H). apply bnd_some in H as (dx & E2 & H). apply bnd_some in H as (dy & E3 & H). destruct (_ && _); injection H as <- <- <-; (split; [exact F|]; split; [exact K|exact C1]).
  - unfold eventFromInclinations in H. apply bnd_some in H as ((b1 & p0) & E0 & H). destruct (loadNext_frame _ _ _ _ _ U C E0) as (F & K & C1 & _).
    apply bnd_some in H as ((z & p1) & E1 & H). apply bnd_some in H as ((sm & p2) & E2 & H). injection H as <- <- <-. split; [exact F|]; split; [exact K|exact C1].
  - unfold eventCorrect in H. apply bnd_some in H as ((b1 & p0) & E0 & H). destruct (loadNext_frame _ _ _ _ _ U C E0) as (F & K & C1 & _).
    apply bnd_some in H as ((z & p1) & E1 & H). apply bnd_some in H as (dx & E2 & H). apply bnd_some in H as (dy & E3 & H).
    apply bnd_some in H as (x4 & E4 & H). apply bnd_some in H as (x5 & E5 & H). apply bnd_some in H as (x6 & E6 & H). apply bnd_some in H as (x7 & E7 & H).
    injection H as <- <- <-. split; [exact F|]; split; [exact K|exact C1].
Qed.
Lemma step_frame b b' : bstep b b' -> (0 <= bCur b)%Z -> frame b b' /\ keepsZ b b' /\ (0 <= bCur b')%Z.
Proof.
  intros H C. destruct H as [b q|b f|b q b' E|b r ps pm|b s pos b' pos' U E|b eig fuel s tg bp pos ok b' pos' U E].
  - repeat split. exact C.
  - repeat split. exact C.
  - unfold setTakeZ in E. destruct (_ && _); [discriminate|]. injection E as <-. repeat split. exact C.
  - repeat split. exact C.
  - unfold randomizeStart in E. apply bnd_some in E as (t & ET & E). injection E as <- _. repeat split. cbn [withCur bCur]. apply toLong_ok. unfold uniformIn.
    pose proof (U pos). pose proof (pos_INR (length (tRows t))). nra.
  - exact (event_frame _ _ _ _ _ _ _ _ _ _ U C E).
Qed.
Lemma load_cur f b ok b' : loadBeamFile f b = Some (ok, b') -> bCur b' = bCur b.
Proof.
  unfold loadBeamFile, loadMomenta, loadInclinations. destruct f as [| |t]; [intros H; injection H as _ <-; reflexivity|intros H; injection H as _ <-; reflexivity|].
  destruct (hasBranch t "beam_momentum_x"); [destruct (negb _); [discriminate|]; intros H; injection H as _ <-; reflexivity|].
  destruct (hasBranch t "beam_dXdZ"); [destruct (negb _); [discriminate|]; intros H; injection H as _ <-; reflexivity|]. intros H; injection H as _ <-; reflexivity.
Qed.
Lemma reachedB_cur b : reachedB b -> (0 <= bCur b)%Z.
Proof.
  induction 1 as [|b f ok b' _ IH E|b b' _ IH E]; [cbn; lia|rewrite (load_cur _ _ _ _ E); exact IH|]. apply (step_frame b b' E IH).
Qed.
Definition linv (t : tree) (corr : bool) (b : bvg) : Prop :=
  (0 <= bCur b)%Z /\ bTree b = Some t /\ bBound b = true
  /\ ((hasBranch t "beam_momentum_x" = true /\ bMode b = (if corr then FromMomentaCorrect else FromMomenta) /\ bHasZ b = hasBranch t "vertex_z_position"
       /\ bSig b = hasAll t sigmaBranches /\ (bHasZ b = false -> rZ (bVals b) = 0))
      \/ (hasBranch t "beam_momentum_x" = false /\ bMode b = FromInclinations /\ bSig b = true /\ corr = false)).
Lemma loaded_inv t corr b : loaded t corr b -> linv t corr b.
Proof.
  induction 1 as [b0 b HR HC E|b b' _ IH E].
  - pose proof (reachedB_cur b0 HR) as C. unfold linv. rewrite (load_cur _ _ _ _ E). split; [exact C|]. unfold loadBeamFile in E. destruct (hasBranch t "beam_momentum_x") eqn:M1.
    + unfold loadMomenta in E. destruct (negb _); [discriminate|].
      assert (reqb (bPdfM (withTree (Some t) false b0)) 0 = negb corr) as EC.
      { cbn [withTree bPdfM]. unfold reqb. destruct (Req_EM_T (bPdfM b0) 0) as [Z|Z]; destruct corr; try reflexivity; [exfalso; exact (proj1 HC eq_refl Z)|]. discriminate (proj2 HC Z). }
      rewrite EC in E. injection E as _ <-. cbn [withMode bTree bBound bMode bHasZ bSig bVals withTree]. split; [reflexivity|]. split; [reflexivity|]. left.
      split; [reflexivity|]. split; [destruct corr; reflexivity|]. split; [reflexivity|]. split; [reflexivity|]. intros ->. reflexivity.
    + destruct (hasBranch t "beam_dXdZ"); [|discriminate]. unfold loadInclinations in E. destruct (negb _); [discriminate|]. injection E as EC <-.
      cbn [withMode bTree bBound bMode bHasZ bSig bVals withTree]. split; [reflexivity|]. split; [reflexivity|]. right. split; [reflexivity|]. split; [reflexivity|]. split; [reflexivity|].
      destruct corr; [|reflexivity]. exfalso. destruct HC as [HC _]. specialize (HC eq_refl). unfold check in EC. cbn [withMode bTree bMode bPdfM withTree negb orb] in EC.
      unfold reqb in EC. destruct (Req_EM_T (bPdfM b0) 0); [contradiction|discriminate].
  - destruct IH as (C & T & B & K). destruct (step_frame b b' E C) as ((F1 & F2 & F3 & F4 & F5) & Z & C'). split; [exact C'|]. split; [congruence|]. split; [congruence|].
    destruct K as [(K1 & K2 & K3 & K4 & K5)|(K1 & K2 & K3 & K4)]; [left|right; split; [exact K1|]; split; [congruence|]; split; [congruence|exact K4]].
    split; [exact K1|]. split; [congruence|]. split; [congruence|]. split; [congruence|]. intros HZ. rewrite F4 in HZ. rewrite Z; [now apply K5| |exact HZ].
    rewrite K2. destruct corr; [now right|now left].
Qed.

(* ---- the next entry ---- *)
Definition others (b b' : bvg) : Prop :=
  frame b b' /\ bSeq b' = bSeq b /\ bTakeZ b' = bTakeZ b /\ bScale b' = bScale b /\ bRes b' = bRes b /\ bPdfS b' = bPdfS b /\ bPdfM b' = bPdfM b.
Definition momVals (t : tree) (e v : row) : Prop :=
  rX v = rX e /\ rY v = rY e /\ rZ v = zOf t e /\ rPx v = rPx e /\ rPy v = rPy e /\ rPz v = rPz e
  /\ (hasAll t sigmaBranches = true -> rXs v = rXs e /\ rYs v = rYs e /\ rPxs v = rPxs e /\ rPys v = rPys e /\ rPzs v = rPzs e).
Definition incVals (e v : row) : Prop :=
  rX v = rX e /\ rY v = rY e /\ rZ v = rZ e /\ rDx v = rDx e /\ rDy v = rDy e /\ rP v = rP e /\ rPs v = rPs e /\ rCovN v = rCovN e /\ rCov v = rCov e.
Definition readVals (t : tree) (e v : row) : Prop :=
  (hasBranch t "beam_momentum_x" = true -> momVals t e v) /\ (hasBranch t "beam_momentum_x" = false -> incVals e v).
Lemma getEntry_ok t corr b i e : linv t corr b -> nth_error (tRows t) i = Some e -> readVals t e (bVals (getEntry t (Z.of_nat i) b)).
Proof.
  intros (C & T & B & K) E. unfold getEntry. rewrite B. replace (Z.of_nat i <? 0)%Z with false by (symmetry; apply Z.ltb_ge; lia). cbn [orb negb].
  rewrite Nat2Z.id, E. cbn [withVals bVals]. destruct K as [(K1 & K2 & K3 & K4 & K5)|(K1 & K2 & K3 & K4)].
  - split; [|congruence]. intros _. assert (forall m, m = (if corr then FromMomentaCorrect else FromMomenta) -> momVals t e
      (match m with
           | Simple => bVals b
           | FromMomenta | FromMomentaCorrect =>
               Row (rX e) (rY e) (if bHasZ b then rZ e else rZ (bVals b)) (rPx e) (rPy e) (rPz e) (rDx (bVals b)) (rDy (bVals b)) (rP (bVals b))
                   (if bSig b then rXs e else rXs (bVals b)) (if bSig b then rYs e else rYs (bVals b)) (if bSig b then rPxs e else rPxs (bVals b))
                   (if bSig b then rPys e else rPys (bVals b)) (if bSig b then rPzs e else rPzs (bVals b)) (rPs (bVals b)) (rCovN (bVals b)) (rCov (bVals b))
           | FromInclinations =>
               Row (rX e) (rY e) (rZ e) (rPx (bVals b)) (rPy (bVals b)) (rPz (bVals b)) (rDx e) (rDy e) (rP e)
                   (rXs (bVals b)) (rYs (bVals b)) (rPxs (bVals b)) (rPys (bVals b)) (rPzs (bVals b)) (rPs e) (rCovN e) (rCov e)
           end)) as Q; [|now apply Q].
    intros m ->. assert (zOf t e = if bHasZ b then rZ e else rZ (bVals b)) as Z.
    { unfold zOf. rewrite <- K3. destruct (bHasZ b); [reflexivity|]. symmetry. now apply K5. }
    unfold momVals. rewrite Z, <- K4. destruct corr; cbn [rX rY rZ rPx rPy rPz rXs rYs rPxs rPys rPzs]; repeat split; match goal with H : bSig b = true |- _ => rewrite H; reflexivity end.
  - split; [congruence|]. intros _. rewrite K2. repeat split.
Qed.
Lemma loadNext_ok t corr b s pos : linv t corr b -> uniform (uni s) -> tRows t <> [] -> (bSeq b = false -> uni s pos < 1) ->
  exists i e b', nextEntry t b (uni s pos) i /\ nth_error (tRows t) i = Some e
    /\ loadNext s pos b = Some (b', if bSeq b then pos else S (S pos)) /\ others b b' /\ readVals t e (bVals b')
    /\ bCur b' = (if bSeq b then Z.of_nat i + 1 else Z.of_nat i)%Z.
Proof.
  intros LI U NE UL. pose proof LI as (C & T & B & K).
  assert (0 < length (tRows t))%nat as N0 by (destruct (tRows t); [congruence|cbn; lia]).
  assert (forall c, linv t corr (withCur (Z.of_nat c) b)) as LC.
  { intros c. split; [cbn; lia|]. split; [exact T|]. split; [exact B|exact K]. }
  unfold loadNext. rewrite T. cbn [bnd]. destruct (bSeq b) eqn:ES.
  - set (cur := if _ : bool then 0%Z else _). assert (0 <= cur < Z.of_nat (length (tRows t)))%Z as HC.
    { unfold cur. destruct (bCur b >=? _)%Z eqn:G; [lia|]. rewrite Z.geb_leb in G. apply Z.leb_gt in G. lia. }
    destruct (nth_error (tRows t) (Z.to_nat cur)) as [e|] eqn:EE; [|apply nth_error_None in EE; lia].
    exists (Z.to_nat cur), e, (getEntry t cur (withCur (cur + 1) b)). split.
    { split; [lia|]. split; [|congruence]. intros _. rewrite Z2Nat.id by lia. unfold cur. destruct (bCur b >=? _)%Z eqn:G; [right|now left].
      rewrite Z.geb_leb in G. apply Z.leb_le in G. split; [reflexivity|exact G]. }
    split; [exact EE|]. split; [reflexivity|]. destruct (getEntry_frame t cur (withCur (cur + 1) b)) as (F & _ & Cu & F1 & F2 & F3 & F4 & F5 & F6).
    split; [exact (conj F (conj F1 (conj F2 (conj F3 (conj F4 (conj F5 F6))))))|]. split; [|rewrite Cu, Z2Nat.id by lia; reflexivity].
    rewrite <- (Z2Nat.id cur) at 1 by lia. apply (getEntry_ok t corr _ _ _); [|exact EE]. replace (cur + 1)%Z with (Z.of_nat (Z.to_nat (cur + 1))) by lia. apply LC.
  - set (x := uniformIn _ _ _). assert (0 <= x < INR (length (tRows t))) as X.
    { unfold x, uniformIn. pose proof (U pos). specialize (UL eq_refl). apply lt_0_INR in N0. nra. }
    destruct (toLong_ok x (proj1 X)) as [L0 L]. set (cur := toLong x) in *.
    assert (cur < Z.of_nat (length (tRows t)))%Z as HC. { apply lt_IZR. rewrite <- INR_IZR_INZ. lra. }
    destruct (nth_error (tRows t) (Z.to_nat cur)) as [e|] eqn:EE; [|apply nth_error_None in EE; lia].
    exists (Z.to_nat cur), e, (getEntry t cur (withCur cur b)). split.
    { split; [lia|]. split; [congruence|]. intros _. rewrite INR_IZR_INZ, Z2Nat.id by lia. unfold x, uniformIn in L. lra. }
    split; [exact EE|]. split; [reflexivity|]. destruct (getEntry_frame t cur (withCur cur b)) as (F & _ & Cu & F1 & F2 & F3 & F4 & F5 & F6).
    split; [exact (conj F (conj F1 (conj F2 (conj F3 (conj F4 (conj F5 F6))))))|]. split; [|rewrite Cu, Z2Nat.id by lia; reflexivity].
    rewrite <- (Z2Nat.id cur) at 1 by lia. apply (getEntry_ok t corr _ _ _); [|exact EE]. rewrite <- (Z2Nat.id cur) by lia. apply LC.
Qed.

(* ---- four-momenta ---- *)
Lemma setXYZM_ok m x y z : 0 <= m -> isMomentum m x y z (setXYZM x y z m).
Proof.
  intros M. unfold setXYZM. rewrite rltb_false by exact M. split; [reflexivity|]. split; [reflexivity|]. split; [reflexivity|]. unfold hasMass. cbn [lx ly lz lt].
  assert (0 <= x * x + y * y + z * z + m * m) as Q by nra. split; [|apply sqrt_pos]. replace (sqrt (x * x + y * y + z * z + m * m) ^ 2) with (sqrt (x * x + y * y + z * z + m * m) * sqrt (x * x + y * y + z * z + m * m)) by ring. rewrite sqrt_sqrt by exact Q. ring.
Qed.
