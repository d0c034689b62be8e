(* C41: fixed parameters, the reduced Hessian and the covariance matrix *)
From Coq Require Import String Ascii List ZArith Reals Bool Lia Lra.
From Coquelicot Require Import Complex.
From Verif Require Import ArrayModel SumAccProofs PathModel StrModel DecModel CGBoxModel FitResultModel FitErrModel FitErrProps LikParModel LikParProofs LikParProps LikGradProofs
  AmpIntModel LikModel LikSetModel LikSetProofs LikSetProps.
Import ListNotations.
Open Scope list_scope. Open Scope nat_scope.

(* ---- specification ---- *)
(* the numbers of the free parameters, in order *)
Definition freePars (ps : list fitParameter) : list nat := filter (fun i => negb (isFixedPar ps i)) (List.seq 0 (length ps)).
Definition numFixed (ps : list fitParameter) : nat := length (filter fpFixed ps).
(* [invert] inverts: what it returns has the same size and is a left inverse *)
Definition kron (i j : nat) : R := if i =? j then 1%R else 0%R.
Definition inverts (invert : sqMat -> option sqMat) : Prop := forall m r, invert m = Some r ->
  fst r = fst m /\ forall i j, i < fst m -> j < fst m -> rsumN (fun k => snd r i k * snd m k j)%R (fst m) = kron i j.

(* ---- positions of the free parameters ---- *)
Section Pos.
Context (fx : nat -> bool).
Definition frK (n : nat) : list nat := filter (fun i => negb (fx i)) (List.seq 0 n).
Definition pos (i : nat) : nat := length (frK i).
Definition skp (i : nat) : nat := length (filter fx (List.seq 0 i)).
Lemma pos_skp i : pos i + skp i = i.
Proof.
  unfold pos, skp, frK. rewrite <- (seq_length i 0) at 3. induction (List.seq 0 i) as [|x l IH]; [reflexivity|].
  cbn [filter length]. destruct (fx x); cbn [negb length]; lia.
Qed.
Lemma frK_S n : frK (S n) = frK n ++ (if fx n then [] else [n]).
Proof. unfold frK. rewrite seq_S, filter_app. cbn. now destruct (fx n). Qed.
Lemma pos_S n : pos (S n) = pos n + (if fx n then 0 else 1).
Proof. unfold pos. rewrite frK_S, app_length. now destruct (fx n). Qed.
Lemma skp_S n : skp (S n) = skp n + (if fx n then 1 else 0).
Proof. unfold skp. rewrite seq_S, filter_app, app_length. cbn. now destruct (fx n). Qed.
Lemma pos_mono i j : i <= j -> pos i <= pos j.
Proof. induction 1; [lia|]. rewrite pos_S. lia. Qed.
Lemma frK_prefix j n : j <= n -> exists l, frK n = frK j ++ l.
Proof. induction 1 as [|n Hn [l E]]; [exists []; now rewrite app_nil_r|]. rewrite frK_S, E. eexists. now rewrite <- app_assoc. Qed.
Lemma nth_pos n j : j < n -> fx j = false -> nth_error (frK n) (pos j) = Some j.
Proof.
  intros H F. destruct (frK_prefix (S j) n) as [l ->]; [lia|]. rewrite frK_S, F. unfold pos. rewrite <- app_assoc, nth_error_app2 by lia. now rewrite Nat.sub_diag.
Qed.
Lemma frK_NoDup n : NoDup (frK n). Proof. apply NoDup_filter, seq_NoDup. Qed.
Lemma nth_pos_inv n a j : nth_error (frK n) a = Some j -> j < n /\ fx j = false /\ a = pos j.
Proof.
  intros H. pose proof (nth_error_In _ _ H) as Hi. apply filter_In in Hi as [Hi Hf]. apply in_seq in Hi. apply negb_true_iff in Hf.
  split; [lia|]. split; [exact Hf|]. apply (proj1 (NoDup_nth_error (frK n)) (frK_NoDup n)); [apply nth_error_Some; congruence|]. rewrite H. symmetry. apply nth_pos; [lia|exact Hf].
Qed.
Lemma rsum_free f n : (forall i, i < n -> fx i = true -> f i = 0%R) -> rsumN f n = rsumN (fun a => match nth_error (frK n) a with Some i => f i | None => 0%R end) (pos n).
Proof.
  induction n as [|n IH]; intros H; [reflexivity|]. cbn [rsumN]. rewrite IH by (intros; apply H; auto). rewrite pos_S, frK_S.
  destruct (fx n) eqn:E.
  - rewrite H by (auto; lia). rewrite Nat.add_0_r, app_nil_r. ring.
  - rewrite Nat.add_1_r. cbn [rsumN]. f_equal.
    + apply rsumN_ext. intros a Ha. rewrite nth_error_app1 by exact Ha. reflexivity.
    + unfold pos. rewrite nth_error_app2, Nat.sub_diag by lia. reflexivity.
Qed.
End Pos.

Lemma isFixed_all ps : forall i, i < length ps -> isFixedPar ps i = match nth_error ps i with Some p => fpFixed p | None => false end.
Proof. intros i H. unfold isFixedPar. apply nth_error_Some in H. destruct (nth_error ps i); [reflexivity|congruence]. Qed.
Lemma filter_nth {A} (f : A -> bool) (l : list A) : length (filter f l) = length (filter (fun i => match nth_error l i with Some p => f p | None => true end) (List.seq 0 (length l))).
Proof.
  induction l as [|x l IH] using rev_ind; [reflexivity|]. rewrite app_length. cbn [length]. rewrite Nat.add_1_r, seq_S, !filter_app, !app_length, IH. f_equal.
  - f_equal. apply filter_ext_in. intros i Hi. apply in_seq in Hi. rewrite nth_error_app1 by lia. reflexivity.
  - cbn. rewrite nth_error_app2, Nat.sub_diag by lia. cbn. now destruct (f x).
Qed.
Lemma numFixed_skp ps : numFixed ps = skp (isFixedPar ps) (length ps).
Proof. apply filter_nth. Qed.
Lemma freePars_length ps : length (freePars ps) + numFixed ps = length ps.
Proof. rewrite numFixed_skp. apply (pos_skp (isFixedPar ps)). Qed.

(* ---- the loops ---- *)
Section Loops.
Context (ps : list fitParameter).
Notation fx := (isFixedPar ps).
Notation n := (length ps).
Notation fr := (frK fx n).
Lemma reduceInner_spec h i a0 (m : sqMat) iSkip : i - iSkip = a0 -> forall k, k <= n ->
  (pos fx k = 0 \/ (a0 < fst m /\ pos fx k <= fst m) ->
    exists m', foldO (reduceInner ps h i iSkip) (List.seq 0 k) (m, 0) = Some (m', skp fx k) /\ fst m' = fst m /\
      forall a b, snd m' a b = if (a =? a0) && (b <? pos fx k) then match nth_error fr b with Some j => h i j | None => 0%R end else snd m a b) /\
  (~ (pos fx k = 0 \/ (a0 < fst m /\ pos fx k <= fst m)) -> foldO (reduceInner ps h i iSkip) (List.seq 0 k) (m, 0) = None).
Proof.
  intros Ha0. induction k as [|k IH]; intros Hk.
  - split; [intros _|intros H; exfalso; apply H; now left]. exists m. split; [reflexivity|]. split; [reflexivity|].
    intros a b. replace (b <? pos fx 0) with false by (symmetry; apply Nat.ltb_ge; cbn; lia). now rewrite andb_false_r.
  - destruct (IH ltac:(lia)) as [I1 I2]. rewrite seq_S, foldO_app. cbn [plus]. rewrite pos_S, skp_S. pose proof (pos_skp fx k) as PS. split.
    + intros H. destruct I1 as (m' & E & Sz & V); [destruct (fx k); lia|]. rewrite E. cbn [bnd foldO]. unfold reduceInner at 1.
      destruct (fx k) eqn:F.
      * cbn [bnd]. exists m'. rewrite !Nat.add_0_r. split; [reflexivity|]. split; [exact Sz|exact V].
      * unfold setSq. rewrite Sz, Ha0. replace (k - skp fx k) with (pos fx k) by lia.
        replace ((a0 <? fst m) && (pos fx k <? fst m)) with true by (symmetry; apply andb_true_iff; split; apply Nat.ltb_lt; lia).
        cbn [bnd]. eexists. rewrite Nat.add_0_r. split; [reflexivity|]. split; [reflexivity|]. intros a b. cbn [fst snd].
        destruct (Nat.eqb_spec a a0) as [->|Ha]; cbn [andb].
        -- destruct (Nat.eqb_spec b (pos fx k)) as [->|Hb].
           ++ replace (pos fx k <? pos fx k + 1) with true by (symmetry; apply Nat.ltb_lt; lia). rewrite nth_pos by (auto; lia). reflexivity.
           ++ rewrite V, Nat.eqb_refl. cbn [andb]. replace (b <? pos fx k + 1) with (b <? pos fx k); [reflexivity|].
              destruct (Nat.ltb_spec b (pos fx k)), (Nat.ltb_spec b (pos fx k + 1)); auto; lia.
        -- rewrite V. replace (a =? a0) with false by (symmetry; apply Nat.eqb_neq; exact Ha). reflexivity.
    + intros H. destruct (Nat.eq_dec (pos fx k) 0) as [Z0|Z0].
      * destruct I1 as (m' & E & Sz & V); [now left|]. rewrite E. cbn [bnd foldO]. unfold reduceInner at 1.
        destruct (fx k) eqn:F; [exfalso; apply H; left; lia|]. unfold setSq. rewrite Sz, Ha0. replace (k - skp fx k) with (pos fx k) by lia.
        destruct (Nat.ltb_spec a0 (fst m)), (Nat.ltb_spec (pos fx k) (fst m)); cbn [andb bnd]; try reflexivity. exfalso; apply H. lia.
      * destruct (Nat.lt_ge_cases a0 (fst m)) as [L1|L1]; [destruct (Nat.le_gt_cases (pos fx k) (fst m)) as [L2|L2]|].
        -- destruct I1 as (m' & E & Sz & V); [right; lia|]. rewrite E. cbn [bnd foldO]. unfold reduceInner at 1.
           destruct (fx k) eqn:F; [exfalso; apply H; lia|]. unfold setSq. rewrite Sz, Ha0. replace (k - skp fx k) with (pos fx k) by lia.
           destruct (Nat.ltb_spec a0 (fst m)), (Nat.ltb_spec (pos fx k) (fst m)); cbn [andb bnd]; try reflexivity. exfalso; apply H. lia.
        -- rewrite I2 by lia. reflexivity.
        -- rewrite I2 by lia. reflexivity.
Qed.

Definition redAt (h : nat -> nat -> R) (a b : nat) : R :=
  match nth_error fr a, nth_error fr b with Some i, Some j => h i j | _, _ => 0%R end.
Lemma reduceOuter_spec h S : pos fx n <= S -> forall k, k <= n ->
  exists m', foldO (reduceOuter ps h) (List.seq 0 k) ((S, fun _ _ => 0%R), 0) = Some (m', skp fx k) /\ fst m' = S /\
      forall a b, snd m' a b = if a <? pos fx k then redAt h a b else 0%R.
Proof.
  intros HS. induction k as [|k IH]; intros Hk.
  - eexists. split; [reflexivity|]. split; [reflexivity|]. intros a b. cbn. reflexivity.
  - destruct (IH ltac:(lia)) as (m' & E & Sz & V). rewrite seq_S, foldO_app, E. cbn [plus bnd foldO]. unfold reduceOuter at 1. rewrite pos_S, skp_S.
    destruct (fx k) eqn:F.
    + cbn [bnd]. exists m'. rewrite Nat.add_0_r. auto.
    + pose proof (pos_skp fx k) as PS. assert (Pk : pos fx k < pos fx n) by (pose proof (pos_mono fx (Datatypes.S k) n ltac:(lia)) as M; rewrite pos_S, F in M; lia).
      destruct (reduceInner_spec h k (pos fx k) m' (skp fx k) ltac:(lia) n (Nat.le_refl _)) as [I1 _].
      destruct I1 as (m2 & E2 & Sz2 & V2); [right; lia|]. rewrite E2. cbn [bnd fst]. exists m2. rewrite Nat.add_0_r. split; [reflexivity|]. split; [congruence|].
      intros a b. rewrite V2, V. destruct (Nat.eqb_spec a (pos fx k)) as [->|Ha]; cbn [andb].
      * replace (pos fx k <? pos fx k + 1) with true by (symmetry; apply Nat.ltb_lt; lia). unfold redAt. rewrite nth_pos by (auto; lia).
        destruct (Nat.ltb_spec b (pos fx n)); [reflexivity|]. replace (nth_error fr b) with (@None nat) by (symmetry; apply nth_error_None; assumption).
        rewrite Nat.ltb_irrefl. reflexivity.
      * replace (a <? pos fx k + 1) with (a <? pos fx k); [reflexivity|]. destruct (Nat.ltb_spec a (pos fx k)), (Nat.ltb_spec a (pos fx k + 1)); auto; lia.
Qed.
End Loops.

(* C41: the reduced Hessian is the Hessian restricted to the free parameters, in order, padded with zeros *)
Theorem C41_reduced_hessian : forall ps nFixed h, nFixed <= numFixed ps -> exists R, reduceHessian ps nFixed h = Some (length ps - nFixed, R) /\
  forall a b, R a b = match nth_error (freePars ps) a, nth_error (freePars ps) b with Some i, Some j => h i j | _, _ => 0%R end.
Proof.
  intros ps nF h H. pose proof (freePars_length ps) as L. change (freePars ps) with (frK (isFixedPar ps) (length ps)) in *.
  destruct (reduceOuter_spec ps h (length ps - nF)) with (k := length ps) as ([S R] & E & Sz & V); [unfold pos; lia|lia|]. cbn [fst snd] in *. subst S.
  exists R. unfold reduceHessian. rewrite E. split; [reflexivity|]. intros a b. rewrite V. unfold redAt, pos.
  destruct (Nat.ltb_spec a (length (frK (isFixedPar ps) (length ps)))); [reflexivity|].
  replace (nth_error (frK (isFixedPar ps) (length ps)) a) with (@None nat) by (symmetry; apply nth_error_None; assumption). reflexivity.
Qed.
(* C41: with a counter larger than the number of fixed parameters the matrix is written out of range *)
Theorem C41_counter_too_large : forall ps nFixed h, numFixed ps < nFixed -> numFixed ps < length ps -> reduceHessian ps nFixed h = None.
Proof.
  intros ps nF h H H2. unfold reduceHessian. set (m0 := (length ps - nF, fun _ _ => 0%R) : sqMat).
  pose proof (freePars_length ps) as L. assert (Lp : length (freePars ps) = pos (isFixedPar ps) (length ps)) by reflexivity.
  assert (G : forall k, k <= length ps -> foldO (reduceOuter ps h) (List.seq 0 k) (m0, 0) = if pos (isFixedPar ps) k =? 0 then Some (m0, skp (isFixedPar ps) k) else None).
  { induction k as [|k IH]; intros Hk; [reflexivity|]. rewrite seq_S, foldO_app, IH by lia. rewrite pos_S, skp_S. cbn [plus].
    destruct (Nat.eqb_spec (pos (isFixedPar ps) k) 0) as [Z0|Z0].
    - cbn [bnd foldO]. unfold reduceOuter at 1. destruct (isFixedPar ps k) eqn:F; cbn [bnd].
      + rewrite Z0. reflexivity.
      + rewrite Z0. cbn. pose proof (pos_skp (isFixedPar ps) k). destruct (reduceInner_spec ps h k 0 m0 (skp (isFixedPar ps) k) ltac:(lia) (length ps) (Nat.le_refl _)) as [_ I2].
        rewrite I2; [reflexivity|]. cbn [fst m0]. lia.
    - replace (pos (isFixedPar ps) k + (if isFixedPar ps k then 0 else 1) =? 0) with false by (symmetry; apply Nat.eqb_neq; lia). reflexivity. }
  rewrite G by lia. replace (pos (isFixedPar ps) (length ps) =? 0) with false by (symmetry; apply Nat.eqb_neq; lia). reflexivity.
Qed.

(* ---- expansion ---- *)
Section Expand.
Context (ps : list fitParameter) (red : sqMat).
Notation fx := (isFixedPar ps).
Notation n := (length ps).
Lemma expandInner_spec i iSkip (m : sqMat) : fst m = n -> i < n -> i - iSkip < fst red -> pos fx n <= fst red -> forall k, k <= n ->
  exists m', foldO (expandInner ps red i iSkip) (List.seq 0 k) (m, 0) = Some (m', skp fx k) /\ fst m' = n /\
    forall a b, snd m' a b = if (a =? i) && (b <? k) && negb (fx b) then snd red (i - iSkip) (pos fx b) else snd m a b.
Proof.
  intros Sm Hi Hp Hn. induction k as [|k IH]; intros Hk.
  - exists m. split; [reflexivity|]. split; [exact Sm|]. intros a b. cbn. now rewrite andb_false_r.
  - destruct (IH ltac:(lia)) as (m' & E & Sz & V). rewrite seq_S, foldO_app, E. cbn [plus bnd foldO]. unfold expandInner at 1. rewrite skp_S.
    pose proof (pos_skp fx k) as PS. destruct (fx k) eqn:F.
    + cbn [bnd]. exists m'. split; [reflexivity|]. split; [exact Sz|]. intros a b. rewrite V.
      replace ((a =? i) && (b <? S k) && negb (fx b)) with ((a =? i) && (b <? k) && negb (fx b)); [reflexivity|].
      destruct (Nat.eq_dec b k) as [->|Hb]; [rewrite F; cbn; now rewrite !andb_false_r|]. f_equal. f_equal. destruct (Nat.ltb_spec b k), (Nat.ltb_spec b (S k)); auto; lia.
    + assert (Pk : pos fx k < pos fx n) by (pose proof (pos_mono fx (S k) n ltac:(lia)) as M; rewrite pos_S, F in M; lia).
      unfold getSq, setSq. rewrite Sz. replace (k - skp fx k) with (pos fx k) by lia.
      replace ((i - iSkip <? fst red) && (pos fx k <? fst red)) with true by (symmetry; apply andb_true_iff; split; apply Nat.ltb_lt; lia). cbn [bnd].
      replace ((i <? n) && (k <? n)) with true by (symmetry; apply andb_true_iff; split; apply Nat.ltb_lt; lia). cbn [bnd].
      eexists. rewrite Nat.add_0_r. split; [reflexivity|]. split; [reflexivity|]. intros a b. cbn [fst snd].
      destruct (Nat.eqb_spec a i) as [->|Ha]; cbn [andb]; [|rewrite V; replace (a =? i) with false by (symmetry; apply Nat.eqb_neq; exact Ha); reflexivity].
      destruct (Nat.eqb_spec b k) as [->|Hb].
      * rewrite F. replace (k <? S k) with true by (symmetry; apply Nat.ltb_lt; lia). reflexivity.
      * rewrite V, Nat.eqb_refl. cbn [andb]. replace (b <? S k) with (b <? k); [reflexivity|]. destruct (Nat.ltb_spec b k), (Nat.ltb_spec b (S k)); auto; lia.
Qed.
Lemma expandOuter_spec : pos fx n <= fst red -> forall k, k <= n ->
  exists m', foldO (expandOuter ps red) (List.seq 0 k) ((n, fun _ _ => 0%R), 0) = Some (m', skp fx k) /\ fst m' = n /\
    forall a b, snd m' a b = if (a <? k) && negb (fx a) && (b <? n) && negb (fx b) then snd red (pos fx a) (pos fx b) else 0%R.
Proof.
  intros Hn. induction k as [|k IH]; intros Hk.
  - eexists. split; [reflexivity|]. split; [reflexivity|]. intros a b. reflexivity.
  - destruct (IH ltac:(lia)) as (m' & E & Sz & V). rewrite seq_S, foldO_app, E. cbn [plus bnd foldO]. unfold expandOuter at 1. rewrite skp_S.
    pose proof (pos_skp fx k) as PS. destruct (fx k) eqn:F.
    + cbn [bnd]. exists m'. split; [reflexivity|]. split; [exact Sz|]. intros a b. rewrite V. f_equal. f_equal. f_equal.
      destruct (Nat.eq_dec a k) as [->|Ha]; [rewrite F; cbn; now rewrite !andb_false_r|]. f_equal. destruct (Nat.ltb_spec a k), (Nat.ltb_spec a (S k)); auto; lia.
    + assert (Pk : pos fx k < pos fx n) by (pose proof (pos_mono fx (S k) n ltac:(lia)) as M; rewrite pos_S, F in M; lia).
      destruct (expandInner_spec k (skp fx k) m' Sz ltac:(lia) ltac:(lia) Hn n (Nat.le_refl _)) as (m2 & E2 & Sz2 & V2). rewrite E2. cbn [bnd fst].
      exists m2. rewrite Nat.add_0_r. split; [reflexivity|]. split; [exact Sz2|]. intros a b. rewrite V2, V. replace (k - skp fx k) with (pos fx k) by lia.
      destruct (Nat.eqb_spec a k) as [->|Ha]; cbn [andb].
      * rewrite F. replace (k <? S k) with true by (symmetry; apply Nat.ltb_lt; lia). rewrite Nat.ltb_irrefl. cbn. reflexivity.
      * replace (a <? S k) with (a <? k); [reflexivity|]. destruct (Nat.ltb_spec a k), (Nat.ltb_spec a (S k)); auto; lia.
Qed.
End Expand.

(* C41: blowing a matrix up again: the entry of two free parameters is the entry of their
   positions, every row and column of a fixed parameter is zero *)
Theorem C41_expanded : forall ps red, length (freePars ps) <= fst red -> exists C, expandCov ps red = Some (length ps, C) /\
  (forall a b i j, nth_error (freePars ps) a = Some i -> nth_error (freePars ps) b = Some j -> C i j = snd red a b) /\
  (forall i j, isFixedPar ps i = true \/ isFixedPar ps j = true -> C i j = 0%R).
Proof.
  intros ps red H. destruct (expandOuter_spec ps red H (length ps) (Nat.le_refl _)) as ([S C] & E & Sz & V). cbn [fst snd] in *. subst S.
  exists C. unfold expandCov. rewrite E. split; [reflexivity|]. split.
  - intros a b i j Ha Hb. apply nth_pos_inv in Ha as (A1 & A2 & ->), Hb as (B1 & B2 & ->). rewrite V, A2, B2.
    replace (i <? length ps) with true by (symmetry; now apply Nat.ltb_lt). replace (j <? length ps) with true by (symmetry; now apply Nat.ltb_lt). reflexivity.
  - intros i j [F|F]; rewrite V, F; cbn [negb]; rewrite ?andb_false_r; reflexivity.
Qed.

(* C41: the covariance matrix with a correct counter: inverse of the Hessian on the free
   parameters, zero in the rows and columns of the fixed ones *)
Theorem C41_covariance : forall invert ps h m, inverts invert -> covarianceMatrix invert ps (numFixed ps) h = Some m ->
  fst m = length ps /\
  (forall i j, isFixedPar ps i = true \/ isFixedPar ps j = true -> snd m i j = 0%R) /\
  forall i j, In i (freePars ps) -> In j (freePars ps) -> rsumN (fun k => snd m i k * h k j)%R (length ps) = kron i j.
Proof.
  intros invert ps h m Hinv H. unfold covarianceMatrix in H. destruct (C41_reduced_hessian ps (numFixed ps) h (Nat.le_refl _)) as (R & E & VR). rewrite E in H. cbn [bnd] in H.
  destruct (invert (length ps - numFixed ps, R)) as [inv|] eqn:EI; [|discriminate]. cbn [bnd] in H. destruct (Hinv _ _ EI) as [Sz I]. cbn [fst snd] in *.
  pose proof (freePars_length ps) as L. destruct (C41_expanded ps inv ltac:(lia)) as (C & E2 & V1 & V2). assert (m = (length ps, C)) by congruence. subst m. cbn [fst snd].
  split; [reflexivity|]. split; [exact V2|]. intros i j Hi Hj. apply In_nth_error in Hi as [a Ha], Hj as [b Hb].
  assert (La : a < length (freePars ps)) by (apply nth_error_Some; congruence). assert (Lb : b < length (freePars ps)) by (apply nth_error_Some; congruence).
  rewrite (rsum_free (isFixedPar ps)) by (intros k Hk Fk; rewrite V2 by (now right); ring).
  change (frK (isFixedPar ps) (length ps)) with (freePars ps). change (pos (isFixedPar ps) (length ps)) with (length (freePars ps)).
  transitivity (rsumN (fun k => snd inv a k * R k b)%R (length (freePars ps))).
  - apply rsumN_ext. intros k Hk. rewrite VR, Hb. destruct (nth_error (freePars ps) k) as [i'|] eqn:Ek; [|apply nth_error_None in Ek; lia]. now rewrite (V1 a k i i' Ha Ek).
  - replace (length (freePars ps)) with (length ps - numFixed ps) by lia. rewrite I by lia. unfold kron.
    destruct (Nat.eqb_spec a b) as [->|Hab]; [assert (i = j) by congruence; subst; now rewrite Nat.eqb_refl|].
    destruct (Nat.eqb_spec i j) as [->|]; [|reflexivity]. exfalso. apply Hab. apply nth_pos_inv in Ha as (_ & _ & ->), Hb as (_ & _ & ->). reflexivity.
Qed.

(* C41: with a counter that missed a fixed parameter no covariance matrix is ever produced *)
Theorem C41_no_covariance : forall invert ps nFixed h, inverts invert -> nFixed < numFixed ps -> covarianceMatrix invert ps nFixed h = None.
Proof.
  intros invert ps nF h Hinv H. unfold covarianceMatrix. destruct (C41_reduced_hessian ps nF h ltac:(lia)) as (R & E & VR). rewrite E. cbn [bnd].
  destruct (invert (length ps - nF, R)) as [inv|] eqn:EI; [|reflexivity]. exfalso. destruct (Hinv _ _ EI) as [Sz I]. cbn [fst snd] in *.
  pose proof (freePars_length ps) as L. set (c := length (freePars ps)).
  assert (Hc : c < length ps - nF) by (unfold c; lia). pose proof (I c c Hc Hc) as X. unfold kron in X. rewrite Nat.eqb_refl in X.
  rewrite rsumN_zero in X; [lra|]. intros k Hk. rewrite VR. replace (nth_error (freePars ps) c) with (@None nat) by (symmetry; apply nth_error_None; lia).
  destruct (nth_error (freePars ps) k); ring.
Qed.

(* ---- eigenvectors ---- *)
Lemma expandVec_spec ps n v : length (freePars ps) <= n -> exists l, expandVec ps n v = Some l /\ length l = length ps /\
  (forall a i, nth_error (freePars ps) a = Some i -> nth_error l i = Some (v a)) /\
  (forall i, i < length ps -> isFixedPar ps i = true -> nth_error l i = Some 0%R).
Proof.
  intros H. set (fx := isFixedPar ps). change (length (freePars ps)) with (pos fx (length ps)) in H.
  assert (G : forall k, k <= length ps -> exists l, foldO (fun j '(out, jSkip) =>
                   if isFixedPar ps j then Some (out ++ [0%R], jSkip + 1)
                   else if j - jSkip <? n then Some (out ++ [v (j - jSkip)], jSkip) else None) (List.seq 0 k) ([], 0) = Some (l, skp fx k) /\ length l = k /\
     forall i, i < k -> nth_error l i = Some (if fx i then 0%R else v (pos fx i))).
  { induction k as [|k IH]; intros Hk; [exists []; split; [reflexivity|]; split; [reflexivity|]; lia|].
    destruct (IH ltac:(lia)) as (l & E & L & V). rewrite seq_S, foldO_app, E. cbn [plus bnd foldO]. rewrite skp_S. fold fx. pose proof (pos_skp fx k) as PS.
    assert (App : forall x, (forall i, i < S k -> nth_error (l ++ [x]) i = if i =? k then Some x else Some (if fx i then 0%R else v (pos fx i)))).
    { intros x i Hi. destruct (Nat.eqb_spec i k) as [->|Hn]; [rewrite nth_error_app2, L, Nat.sub_diag by lia; reflexivity|]. rewrite nth_error_app1 by lia. apply V. lia. }
    destruct (fx k) eqn:F.
    - exists (l ++ [0%R]). split; [reflexivity|]. split; [rewrite app_length; cbn; lia|]. intros i Hi. rewrite App by exact Hi. destruct (Nat.eqb_spec i k) as [->|]; [now rewrite F|reflexivity].
    - assert (Pk : pos fx k < pos fx (length ps)) by (pose proof (pos_mono fx (S k) (length ps) ltac:(lia)) as M; rewrite pos_S, F in M; lia).
      replace (k - skp fx k) with (pos fx k) by lia. replace (pos fx k <? n) with true by (symmetry; apply Nat.ltb_lt; lia). cbn [bnd].
      exists (l ++ [v (pos fx k)]). rewrite Nat.add_0_r. split; [reflexivity|]. split; [rewrite app_length; cbn; lia|]. intros i Hi. rewrite App by exact Hi. destruct (Nat.eqb_spec i k) as [->|]; [now rewrite F|reflexivity]. }
  destruct (G (length ps) (Nat.le_refl _)) as (l & E & L & V). exists l. unfold expandVec. rewrite E. split; [reflexivity|]. split; [exact L|]. split.
  - intros a i Ha. apply nth_pos_inv in Ha as (A1 & A2 & ->). rewrite V by exact A1. fold fx in A2. now rewrite A2.
  - intros i Hi F. rewrite V by exact Hi. fold fx in F. now rewrite F.
Qed.

(* C41: an eigenvector of the reduced Hessian, expanded, has zeros for the fixed parameters and is
   an eigenvector of the Hessian on the free ones, with the same eigenvalue *)
Theorem C41_eigenvector : forall ps h R v lam, reduceHessian ps (numFixed ps) h = Some R ->
  (forall a, a < fst R -> rsumN (fun b => snd R a b * v b)%R (fst R) = (lam * v a)%R) ->
  exists l, expandVec ps (fst R) v = Some l /\ length l = length ps /\
    (forall i, i < length ps -> isFixedPar ps i = true -> nth i l 0%R = 0%R) /\
    (forall i, In i (freePars ps) -> rsumN (fun j => h i j * nth j l 0)%R (length ps) = (lam * nth i l 0)%R).
Proof.
  intros ps h R v lam HR He. destruct (C41_reduced_hessian ps (numFixed ps) h (Nat.le_refl _)) as (R' & E & VR). rewrite E in HR. injection HR as <-. cbn [fst snd] in *.
  pose proof (freePars_length ps) as L. destruct (expandVec_spec ps (length ps - numFixed ps) v ltac:(lia)) as (l & El & Ll & V1 & V2). exists l. split; [exact El|]. split; [exact Ll|].
  assert (W : forall i, i < length ps -> isFixedPar ps i = true -> nth i l 0%R = 0%R) by (intros i Hi F; apply nth_error_nth; auto). split; [exact W|].
  intros i Hi. apply In_nth_error in Hi as [a Ha]. assert (La : a < length (freePars ps)) by (apply nth_error_Some; congruence).
  rewrite (rsum_free (isFixedPar ps)) by (intros j Hj Fj; rewrite (W j Hj Fj); ring).
  change (frK (isFixedPar ps) (length ps)) with (freePars ps). change (pos (isFixedPar ps) (length ps)) with (length (freePars ps)).
  rewrite (nth_error_nth l i 0%R (V1 a i Ha)). replace (length (freePars ps)) with (length ps - numFixed ps) by lia. rewrite <- He by lia.
  apply rsumN_ext. intros b Hb. rewrite VR, Ha. destruct (nth_error (freePars ps) b) as [j|] eqn:Eb; [|apply nth_error_None in Eb; lia].
  rewrite (nth_error_nth l j 0%R (V1 b j Eb)). reflexivity.
Qed.

(* ---- example: three parameters, the second fixed; the reduced Hessian is the unit matrix times 2 ---- *)
Definition ps3 : list fitParameter := [FP [] 0 0%R false true; FP [] 0 0%R true false; FP [] 0 0%R false true].
Definition h3 (i j : nat) : R := if i =? j then 2%R else 0%R.
(* inverts diagonal matrices with 2 on the diagonal of size at most 2 *)
Definition halve (m : sqMat) : option sqMat :=
  if (fst m =? 2) then
    if Req_EM_T (snd m 0 0) 2 then if Req_EM_T (snd m 1 1) 2 then if Req_EM_T (snd m 0 1) 0 then if Req_EM_T (snd m 1 0) 0 then
      Some (2, fun i j => if i =? j then (/ 2)%R else 0%R) else None else None else None else None
  else None.
Example C41_ex : inverts halve /\ freePars ps3 = [0; 2] /\ exists m, covarianceMatrix halve ps3 (numFixed ps3) h3 = Some m /\
  snd m 0 0 = (/ 2)%R /\ snd m 1 1 = 0%R /\ snd m 2 2 = (/ 2)%R.
Proof.
  split.
  { intros m r H. unfold halve in H. destruct (Nat.eqb_spec (fst m) 2) as [E2|]; [|discriminate]. destruct (Req_EM_T (snd m 0 0) 2) as [E00|]; [|discriminate].
    destruct (Req_EM_T (snd m 1 1) 2) as [E11|]; [|discriminate]. destruct (Req_EM_T (snd m 0 1) 0) as [E01|]; [|discriminate]. destruct (Req_EM_T (snd m 1 0) 0) as [E10|]; [|discriminate].
    injection H as <-. cbn [fst snd]. split; [congruence|]. intros i j Hi Hj. rewrite E2 in *. cbn [rsumN].
    destruct i as [|[|i]], j as [|[|j]]; try lia; cbn; rewrite ?E00, ?E11, ?E01, ?E10; unfold kron; cbn; lra. }
  split; [reflexivity|].
  destruct (C41_reduced_hessian ps3 (numFixed ps3) h3 (Nat.le_refl _)) as (R & E & V). unfold covarianceMatrix. rewrite E. cbn [bnd].
  assert (Hh : halve (length ps3 - numFixed ps3, R) = Some (2, fun i j => if i =? j then (/ 2)%R else 0%R)).
  { unfold halve. cbn [fst snd]. change (length ps3 - numFixed ps3 =? 2) with true. cbn iota. rewrite !V. cbn [freePars ps3 length List.seq filter isFixedPar nth_error fpFixed negb h3 Nat.eqb].
    destruct (Req_EM_T 2 2); [|congruence]. destruct (Req_EM_T 0 0); [|congruence]. reflexivity. }
  rewrite Hh. cbn [bnd]. destruct (C41_expanded ps3 (2, fun i j => if i =? j then (/ 2)%R else 0%R)) as (C & E2 & V1 & V2); [cbn; lia|].
  exists (length ps3, C). split; [exact E2|]. cbn [snd]. split; [exact (V1 0 0 0 0 eq_refl eq_refl)|]. split; [apply V2; now left|exact (V1 1 1 2 2 eq_refl eq_refl)].
Qed.
