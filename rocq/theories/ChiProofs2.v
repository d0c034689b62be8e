(* Lemmas for C86, part 2: the reduced covariance matrix is block diagonal, its inverse and the way back. *)
From Coq Require Import List Reals Bool Arith ZArith Lia Lra Sorted.
From Coquelicot Require Import Complex.
From Verif Require Import PhysModel ChiModel ChiSpec ChiProofs.
Import ListNotations.
Open Scope nat_scope.

(* ---- two nested loops that write cells of a matrix ---- *)
Section Loops.
Context {P : Type}.
Variable step : P -> P -> mat -> mat.
Lemma fold2_flat ps qs M : fold_left (fun m p => fold_left (fun m q => step p q m) qs m) ps M =
  fold_left (fun m x => step (fst x) (snd x) m) (list_prod ps qs) M.
Proof.
  revert M; induction ps as [|p ps IH]; intros M; cbn [fold_left list_prod]; auto.
  rewrite fold_left_app, IH. f_equal. clear IH. revert M; induction qs as [|q qs IHq]; intros M; cbn; auto.
Qed.
Lemma fold_untouched l a b : (forall x M, In x l -> step (fst x) (snd x) M a b = M a b) -> forall M,
  fold_left (fun m x => step (fst x) (snd x) m) l M a b = M a b.
Proof.
  induction l as [|x l IH]; intros H M; cbn [fold_left]; auto. rewrite IH by (intros; apply H; right; auto). apply H; left; auto.
Qed.
Lemma fold_once l a b x : NoDup l -> In x l -> (forall y M, In y l -> y <> x -> step (fst y) (snd y) M a b = M a b) ->
  (forall M M', M a b = M' a b -> step (fst x) (snd x) M a b = step (fst x) (snd x) M' a b) -> forall M,
  fold_left (fun m x => step (fst x) (snd x) m) l M a b = step (fst x) (snd x) M a b.
Proof.
  intros N Hin Hy Hx M. apply in_split in Hin. destruct Hin as (l1 & l2 & ->). apply NoDup_remove in N. destruct N as [_ N].
  rewrite fold_left_app. cbn [fold_left]. rewrite fold_untouched.
  - apply Hx. apply fold_untouched. intros y M0 H. apply Hy; [apply in_or_app; auto|]. intros ->. apply N, in_or_app; auto.
  - intros y M0 H. apply Hy; [apply in_or_app; right; right; auto|]. intros ->. apply N, in_or_app; auto.
Qed.
End Loops.
Lemma NoDup_prod {A B} (l : list A) (r : list B) : NoDup l -> NoDup r -> NoDup (list_prod l r).
Proof.
  intros Hl Hr. induction l as [|x l IH]; [constructor|]. apply NoDup_cons_iff in Hl. destruct Hl as [H1 H2]. cbn [list_prod].
  assert (D : forall y, In y (map (fun y => (x, y)) r) -> ~ In y (list_prod l r)).
  { intros [u v] H H'. apply in_map_iff in H. destruct H as (y & E & _). apply in_prod_iff in H'. assert (u = x) by congruence. subst. tauto. }
  assert (Nm : NoDup (map (fun y => (x, y)) r)).
  { clear - Hr. induction r as [|y r IH]; cbn; [constructor|]. apply NoDup_cons_iff in Hr. destruct Hr as [A1 A2]. apply NoDup_cons_iff; split; auto.
    intros H. apply in_map_iff in H. destruct H as (z & E & H). assert (z = y) by congruence. subst; tauto. }
  revert Nm D. generalize (map (fun y => (x, y)) r). specialize (IH H2). intros t Nt Dt. induction t as [|y t IHt]; cbn; auto.
  apply NoDup_cons_iff in Nt. destruct Nt as [A1 A2]. apply NoDup_cons_iff. split.
  - intros H. apply in_app_or in H. destruct H; [tauto|]. apply (Dt y); auto. left; auto.
  - apply IHt; auto. intros z Hz. apply Dt. right; auto.
Qed.

Lemma put_same r c x M : put r c x M r c = x.
Proof. unfold put. rewrite !Nat.eqb_refl. reflexivity. Qed.
Lemma put_row r c x M a b : a <> r -> put r c x M a b = M a b.
Proof. intros H. unfold put. apply Nat.eqb_neq in H. rewrite H. reflexivity. Qed.
Lemma put_col r c x M a b : b <> c -> put r c x M a b = M a b.
Proof. intros H. unfold put. apply Nat.eqb_neq in H. rewrite H, andb_false_r. reflexivity. Qed.
Lemma put_if r c x M a b : put r c x M a b = if Nat.eqb a r then if Nat.eqb b c then x else M a b else M a b.
Proof. unfold put. destruct (Nat.eqb a r), (Nat.eqb b c); reflexivity. Qed.

(* one block of the covariance matrix as it is used *)
Definition blkE (uc : covUse) (n : nat) (cov : mat) (p : nat * nat * nat) (a b : nat) : R :=
  let '(i, j, _) := p in
  match uc with UseDiagonal => if Nat.eqb a b then cov (covIdx n i j + a) (covIdx n i j + b) else 0%R | _ => cov (covIdx n i j + a) (covIdx n i j + b) end.
Lemma eqb_off s a : Nat.eqb (s + a) s = Nat.eqb a 0.
Proof. destruct (Nat.eqb_spec a 0); [subst; rewrite Nat.add_0_r; apply Nat.eqb_refl|]. apply Nat.eqb_neq; lia. Qed.
Lemma eqb_off1 s a : Nat.eqb (s + a) (S s) = Nat.eqb a 1.
Proof. destruct (Nat.eqb_spec a 1); [subst; apply Nat.eqb_eq; lia|]. apply Nat.eqb_neq; lia. Qed.
Ltac cells := repeat (rewrite ?put_if, ?eqb_off, ?eqb_off1).

Lemma reduce_other uc n cov p q M a b : uc <> UseFull -> ~ (inBlk p a /\ inBlk q b) -> reduceStep uc n cov p q M a b = M a b.
Proof.
  intros Hu H. destruct p as [[i1 i2] r], q as [[j1 j2] c]. unfold inBlk, start, width, reduceStep in *. cbn [snd] in H.
  assert (P : forall r' c' x (M : mat), ~ (a = r' /\ b = c') -> put r' c' x M a b = M a b).
  { intros r' c' x M' H'. unfold put. destruct (Nat.eqb_spec a r'); auto. destruct (Nat.eqb_spec b c'); auto. exfalso; auto. }
  destruct uc; [| |congruence]; destruct (Nat.eqb i1 i2), (Nat.eqb j1 j2); cbn [orb andb];
    try destruct (_ && _); cbn [orb]; rewrite ?P by lia; reflexivity.
Qed.
Lemma reduce_own uc n cov p M a b : uc <> UseFull -> (forall a b, M a b = 0%R) -> a < width p -> b < width p ->
  reduceStep uc n cov p p M (start p + a) (start p + b) = blkE uc n cov p a b.
Proof.
  intros Hu HM. destruct p as [[i j] s]. unfold width, start, reduceStep, blkE; cbn [snd]. rewrite !Nat.eqb_refl. intros Ha Hb. cbn [andb orb].
  destruct (Nat.eqb i j).
  - assert (a = 0) by lia. assert (b = 0) by lia. subst. rewrite !Nat.add_0_r, put_same. destruct uc; reflexivity.
  - assert (Da : a = 0 \/ a = 1) by lia. assert (Db : b = 0 \/ b = 1) by lia.
    destruct Da, Db; subst; destruct uc; try congruence; cells; cbn [Nat.eqb]; rewrite ?HM, ?Nat.add_0_r, ?Nat.add_1_r; reflexivity.
Qed.
Lemma reduce_skip uc n cov p q M a b : uc <> UseFull -> fst p <> fst q -> reduceStep uc n cov p q M a b = M a b.
Proof.
  intros Hu. destruct p as [[i1 i2] r], q as [[j1 j2] c]. cbn [fst]. intros H. unfold reduceStep.
  assert (E : Nat.eqb i1 j1 && Nat.eqb i2 j2 = false).
  { apply andb_false_iff. destruct (Nat.eqb_spec i1 j1); [|auto]. right. apply Nat.eqb_neq. congruence. }
  rewrite E. destruct uc; [| |congruence]; destruct (Nat.eqb i1 i2), (Nat.eqb j1 j2); reflexivity.
Qed.

(* the reduced matrix: blocks on the diagonal *)
Lemma reduced_block uc n cov ps N : uc <> UseFull -> tiles ps 0 N -> NoDup (map fst ps) -> forall p q a b, In p ps -> In q ps -> a < width p -> b < width q ->
  fold_left (fun red p => fold_left (fun red q => reduceStep uc n cov p q red) ps red) ps zeroMat (start p + a) (start q + b) =
  if Nat.eqb (start p) (start q) then blkE uc n cov p a b else 0%R.
Proof.
  intros Hu T Nd p q a b Hp Hq Ha Hb. rewrite (fold2_flat (reduceStep uc n cov)).
  assert (Bp : inBlk p (start p + a)) by (unfold inBlk; lia). assert (Bq : inBlk q (start q + b)) by (unfold inBlk; lia).
  destruct (Nat.eqb_spec (start p) (start q)) as [E|E].
  - assert (p = q).
    { apply (tiles_disjoint ps 0 N p q (start p) T Hp Hq); unfold inBlk; [pose proof (width_pos p)|pose proof (width_pos q)]; lia. }
    subst q. rewrite (fold_once (reduceStep uc n cov) (list_prod ps ps) _ _ (p, p)).
    + cbn [fst snd]. apply reduce_own; auto.
    + apply NoDup_prod; eapply tiles_NoDup; eauto.
    + apply in_prod; auto.
    + intros [u v] M Huv Hne. cbn [fst snd]. apply in_prod_iff in Huv. apply reduce_other; auto. intros [B1 B2]. apply Hne.
      f_equal; eapply (tiles_disjoint ps 0 N); eauto; tauto.
    + intros M M' HM. cbn [fst snd]. destruct p as [[i j] s]. unfold width, start, reduceStep in *; cbn [snd] in *. rewrite !Nat.eqb_refl. cbn [andb orb].
      destruct (Nat.eqb i j); [|destruct uc]; cells; destruct (Nat.eqb a 0), (Nat.eqb b 0), (Nat.eqb a 1), (Nat.eqb b 1); auto.
  - rewrite fold_untouched; [reflexivity|]. intros [u v] M Huv. cbn [fst snd]. apply in_prod_iff in Huv. destruct Huv as [Hu1 Hv1].
    destruct (Nat.eq_dec (start u) (start p)) as [E1|E1]; [destruct (Nat.eq_dec (start v) (start q)) as [E2|E2]|].
    + assert (u = p) by (apply (tiles_disjoint ps 0 N u p (start p) T); auto; unfold inBlk; pose proof (width_pos u); pose proof (width_pos p); lia).
      assert (v = q) by (apply (tiles_disjoint ps 0 N v q (start q) T); auto; unfold inBlk; pose proof (width_pos v); pose proof (width_pos q); lia).
      subst. apply reduce_skip; auto. intros Ef.
      assert (p = q); [|subst; congruence]. clear - Nd Hp Hq Ef. induction ps as [|w ps IH]; [contradiction|]. cbn in Nd. apply NoDup_cons_iff in Nd.
      destruct Nd as [N1 N2]. destruct Hp as [Hp|Hp], Hq as [Hq|Hq]; subst; auto.
      * exfalso. apply N1. rewrite Ef. apply in_map; auto.
      * exfalso. apply N1. rewrite <- Ef. apply in_map; auto.
    + apply reduce_other; auto. intros [_ B2]. apply E2. f_equal. apply (tiles_disjoint ps 0 N v q (start q + b) T); auto.
    + apply reduce_other; auto. intros [B1 _]. apply E1. f_equal. apply (tiles_disjoint ps 0 N u p (start p + a) T); auto.
Qed.

(* ---- places in the covariance matrix ---- *)
Lemma covIdx_row n i : i < n -> covIdx n (S i) (S i) = covIdx n i i + 2 * (n - i).
Proof.
  intros H. unfold covIdx. rewrite !Nat.sub_diag. assert (exists d, n = i + S d) as [d ->] by (exists (n - S i); lia).
  replace (i + S d - S i) with d by lia. replace (i + S d - i) with (S d) by lia.
  assert (S d * (S d + 1) <= (i + S d) * (i + S d + 1)) by nia. nia.
Qed.
Lemma covIdx_col n i j : i <= j -> covIdx n i j = covIdx n i i + 2 * (j - i).
Proof. intros H. unfold covIdx. rewrite Nat.sub_diag. lia. Qed.
Lemma covIdx_mono n i i' : i <= i' -> i' <= n -> covIdx n i i <= covIdx n i' i'.
Proof. intros H H'. induction i' as [|i' IH]; [assert (i = 0) by lia; subst; lia|]. destruct (Nat.eq_dec i (S i')); [subst; lia|]. rewrite covIdx_row by lia. specialize (IH ltac:(lia) ltac:(lia)). lia. Qed.
Lemma covIdx_apart n i j i' j' : i <= j -> j < n -> i' <= j' -> j' < n -> (i, j) <> (i', j') ->
  covIdx n i j + 2 <= covIdx n i' j' \/ covIdx n i' j' + 2 <= covIdx n i j.
Proof.
  intros H1 H2 H3 H4 Hne. destruct (lt_eq_lt_dec i i') as [[L|L]|L].
  - left. rewrite (covIdx_col n i j), (covIdx_col n i' j') by auto. pose proof (covIdx_mono n (S i) i'). rewrite covIdx_row in H by lia. lia.
  - subst i'. rewrite (covIdx_col n i j), (covIdx_col n i j') by auto. assert (j <> j') by congruence. lia.
  - right. rewrite (covIdx_col n i j), (covIdx_col n i' j') by auto. pose proof (covIdx_mono n (S i') i). rewrite covIdx_row in H by lia. lia.
Qed.
Lemma elements_gen n : forall k i, i + k = n -> 
  map (fun x => covIdx n (fst x) (snd x)) (flat_map (fun i => map (fun j => (i, j)) (seq i (n - i))) (seq i k)) =
  map (fun t => covIdx n i i + 2 * t) (seq 0 (length (flat_map (fun i => map (fun j => (i, j)) (seq i (n - i))) (seq i k)))).
Proof.
  induction k as [|k IH]; intros i H; [reflexivity|]. cbn [seq flat_map]. rewrite app_length, map_length, seq_length, seq_app, !map_app.
  f_equal.
  - rewrite map_map. cbn [fst snd]. generalize (n - i). intros q.
    transitivity (map (fun t => covIdx n i (i + t)) (seq 0 q)).
    + assert (G : forall q i s (f : nat -> nat), map f (seq (i + s) q) = map (fun t => f (i + t)) (seq s q)).
      { clear. induction q as [|q IHq]; intros i s f; auto. cbn [seq map]. f_equal. rewrite <- IHq. f_equal. f_equal. lia. }
      rewrite <- (G q i 0 (fun t => covIdx n i t)). rewrite Nat.add_0_r. reflexivity.
    + apply map_ext. intros t. rewrite covIdx_col by lia. lia.
  - rewrite (IH (S i)) by lia. destruct k as [|k].
    { cbn [seq flat_map length map]. reflexivity. }
    rewrite covIdx_row by lia. cbn [Nat.add].
    generalize (length (flat_map (fun i0 => map (fun j => (i0, j)) (seq i0 (n - i0))) (seq (S i) (S k)))). intros q.
    assert (G : forall q s u, map (fun t => covIdx n i i + 2 * u + 2 * t) (seq s q) = map (fun t => covIdx n i i + 2 * t) (seq (u + s) q)).
    { induction q0 as [|q0 IHq]; intros s u; auto. cbn [seq map]. f_equal; [lia|]. rewrite IHq. f_equal. f_equal. lia. }
    rewrite G. rewrite Nat.add_0_r. reflexivity.
Qed.
Lemma covIdx_0 n : covIdx n 0 0 = 0.
Proof. unfold covIdx. rewrite !Nat.sub_0_r. lia. Qed.
Lemma elements_idx n k i j : nth_error (elements n) k = Some (i, j) -> covIdx n i j = 2 * k.
Proof.
  intros H. pose proof (elements_gen n n 0 eq_refl) as G. fold (elements n) in G.
  assert (E : nth_error (map (fun x => covIdx n (fst x) (snd x)) (elements n)) k = Some (covIdx n i j)) by (rewrite nth_error_map, H; reflexivity).
  rewrite G, nth_error_map in E. assert (k < length (elements n)) by (apply nth_error_Some; congruence).
  rewrite (nth_error_nth' _ 0) in E by (rewrite seq_length; auto). rewrite seq_nth in E by auto. cbn [option_map] in E.
  rewrite covIdx_0 in E. injection E. lia.
Qed.
Lemma elements_in n i j : In (i, j) (elements n) <-> i <= j < n.
Proof.
  unfold elements. rewrite in_flat_map. split.
  - intros (x & Hx & H). apply in_map_iff in H. destruct H as (y & E & H). apply in_seq in Hx, H. injection E; intros; subst. lia.
  - intros H. exists i. split; [apply in_seq; lia|]. apply in_map, in_seq. lia.
Qed.

(* ---- the way back ---- *)
Definition big (n : nat) (p : nat * nat * nat) : nat := let '(i, j, _) := p in covIdx n i j.
Lemma expand_other n X p q M a b : ~ ((big n p <= a < big n p + width p) /\ (big n q <= b < big n q + width q)) -> expandStep n X p q M a b = M a b.
Proof.
  intros H. destruct p as [[i1 i2] r], q as [[j1 j2] c]. unfold big, width, expandStep in *.
  assert (P : forall r' c' x (M : mat), ~ (a = r' /\ b = c') -> put r' c' x M a b = M a b).
  { intros r' c' x M' H'. unfold put. destruct (Nat.eqb_spec a r'); auto. destruct (Nat.eqb_spec b c'); auto. exfalso; auto. }
  destruct (Nat.eqb i1 i2), (Nat.eqb j1 j2); rewrite ?P by lia; reflexivity.
Qed.
Lemma expand_own n X p q M a b : a < width p -> b < width q ->
  expandStep n X p q M (big n p + a) (big n q + b) = X (start p + a) (start q + b).
Proof.
  destruct p as [[i1 i2] r], q as [[j1 j2] c]. unfold big, width, start, expandStep; cbn [snd]. intros Ha Hb.
  assert (Da : a = 0 \/ a = 1) by (destruct (Nat.eqb i1 i2); lia). assert (Db : b = 0 \/ b = 1) by (destruct (Nat.eqb j1 j2); lia).
  destruct (Nat.eqb i1 i2), (Nat.eqb j1 j2); destruct Da, Db; subst; try lia; cells; cbn [Nat.eqb]; rewrite ?Nat.add_0_r, ?Nat.add_1_r; reflexivity.
Qed.
Lemma expanded n X ps : NoDup (map fst ps) -> (forall i j s, In (i, j, s) ps -> i <= j < n) -> forall p q a b, In p ps -> In q ps -> a < width p -> b < width q ->
  fold_left (fun cov p => fold_left (fun cov q => expandStep n X p q cov) ps cov) ps zeroMat (big n p + a) (big n q + b) = X (start p + a) (start q + b).
Proof.
  intros Nd Hin p q a b Hp Hq Ha Hb. rewrite (fold2_flat (expandStep n X)).
  assert (Ndp : NoDup ps) by (eapply NoDup_map_inv; eauto).
  assert (U : forall u v x, In u ps -> In v ps -> big n u <= x < big n u + width u -> big n v <= x < big n v + width v -> u = v).
  { intros u v x Hu Hv Bu Bv. assert (Ef : fst u = fst v).
    { pose proof (width_pos u). pose proof (width_pos v). destruct u as [[i j] s], v as [[i' j'] s']. cbn [fst big] in *.
      destruct (Hin _ _ _ Hu), (Hin _ _ _ Hv).
      destruct (Nat.eq_dec i i') as [E|E]; [destruct (Nat.eq_dec j j') as [E'|E']; [congruence|]|];
        (assert (Hne : (i, j) <> (i', j')) by congruence; destruct (covIdx_apart n i j i' j'); auto; lia). }
    clear - Nd Hu Hv Ef. induction ps as [|w ps IH]; [contradiction|]. cbn in Nd. apply NoDup_cons_iff in Nd.
    destruct Nd as [N1 N2]. destruct Hu as [Hu|Hu], Hv as [Hv|Hv]; subst; auto.
    - exfalso. apply N1. rewrite Ef. apply in_map; auto.
    - exfalso. apply N1. rewrite <- Ef. apply in_map; auto. }
  rewrite (fold_once (expandStep n X) (list_prod ps ps) _ _ (p, q)).
  - cbn [fst snd]. apply expand_own; auto.
  - apply NoDup_prod; auto.
  - apply in_prod; auto.
  - intros [u v] M Huv Hne. cbn [fst snd]. apply in_prod_iff in Huv. apply expand_other. intros [B1 B2]. apply Hne.
    f_equal; [apply (U u p (big n p + a))|apply (U v q (big n q + b))]; tauto || lia.
  - intros M M' _. cbn [fst snd]. rewrite !expand_own; auto.
Qed.
