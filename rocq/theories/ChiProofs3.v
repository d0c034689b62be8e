(* Lemmas for C86, part 3: inverse of the blocks, chi-square of one element. *)
From Coq Require Import List Reals Bool Arith ZArith Lia Lra Sorted.
From Coquelicot Require Import Complex.
From Verif Require Import PhysModel ChiModel ChiSpec ChiProofs ChiProofs2.
Import ListNotations.
Open Scope nat_scope.

Lemma total_single {A} (g : A -> R) l p : NoDup l -> In p l -> (forall q, In q l -> q <> p -> g q = 0%R) -> total (map g l) = g p.
Proof.
  intros N Hin H. apply in_split in Hin. destruct Hin as (l1 & l2 & ->). apply NoDup_remove in N. destruct N as [_ N].
  rewrite map_app, total_app. cbn [map]. rewrite total_cons.
  rewrite !(total_zero (map g _)); [lra| |].
  - intros x Hx. apply in_map_iff in Hx. destruct Hx as (q & <- & Hq). apply H; [apply in_or_app; right; right; auto|]. intros ->. apply N, in_or_app; auto.
  - intros x Hx. apply in_map_iff in Hx. destruct Hx as (q & <- & Hq). apply H; [apply in_or_app; auto|]. intros ->. apply N, in_or_app; auto.
Qed.
Lemma seq_off s w : seq s w = map (fun a => s + a) (seq 0 w).
Proof.
  assert (G : forall w s u, seq (s + u) w = map (fun a => s + a) (seq u w)).
  { clear. induction w as [|w IH]; intros s u; auto. cbn [seq map]. f_equal. rewrite <- IH. f_equal. lia. }
  rewrite <- G, Nat.add_0_r. reflexivity.
Qed.
Lemma sum_block N ps f p : tiles ps 0 N -> In p ps -> (forall q a, In q ps -> q <> p -> a < width q -> f (start q + a) = 0%R) ->
  sumTo N f = total (map (fun a => f (start p + a)) (seq 0 (width p))).
Proof.
  intros T Hp H. unfold sumTo. pose proof (sum_tiles ps 0 N f T) as E. rewrite Nat.sub_0_r in E. rewrite E.
  rewrite (total_single (fun q => total (map f (seq (start q) (width q)))) ps p).
  - rewrite (seq_off (start p)), map_map. reflexivity.
  - eapply tiles_NoDup; eauto.
  - auto.
  - intros q Hq Hne. apply total_zero. intros x Hx. rewrite seq_off, map_map in Hx. apply in_map_iff in Hx. destruct Hx as (a & <- & Ha).
    apply in_seq in Ha. apply H; auto. lia.
Qed.
Lemma tiles_start ps N p q : tiles ps 0 N -> In p ps -> In q ps -> start p = start q -> p = q.
Proof.
  intros T Hp Hq E. apply (tiles_disjoint ps 0 N p q (start p) T Hp Hq); unfold inBlk; pose proof (width_pos p); pose proof (width_pos q); lia.
Qed.
Lemma width_cases p : width p = 1 \/ width p = 2.
Proof. pose proof (width_pos p). lia. Qed.
(* the block can be inverted *)
Definition blkOk uc n cov p : Prop :=
  if Nat.eqb (width p) 1 then blkE uc n cov p 0 0 <> 0%R
  else (blkE uc n cov p 0 0 * blkE uc n cov p 1 1 - blkE uc n cov p 0 1 * blkE uc n cov p 1 0)%R <> 0%R.

Section Blocks.
Variables (uc : covUse) (n : nat) (cov : mat) (ps : list (nat * nat * nat)) (N : nat).
Hypothesis Hu : uc <> UseFull.
Hypothesis T : tiles ps 0 N.
Hypothesis Nd : NoDup (map fst ps).
Let Rd := fold_left (fun red p => fold_left (fun red q => reduceStep uc n cov p q red) ps red) ps zeroMat.
Lemma Rd_block p q a b : In p ps -> In q ps -> a < width p -> b < width q ->
  Rd (start p + a) (start q + b) = if Nat.eqb (start p) (start q) then blkE uc n cov p a b else 0%R.
Proof. intros. unfold Rd. eapply reduced_block; eauto. Qed.
Lemma Rd_nonsing : (forall p, In p ps -> blkOk uc n cov p) -> nonsingular N Rd.
Proof.
  intros Ok x Hx k Hk. destruct (tiles_cover ps 0 N k T) as (p & Hp & Bp); [lia|].
  assert (E : forall a, a < width p -> total (map (fun b => (blkE uc n cov p a b * x (start p + b)%nat)%R) (seq 0 (width p))) = 0%R).
  { intros a Ha. destruct (tiles_in ps 0 N p T Hp) as [_ L]. rewrite <- (Hx (start p + a)) by lia.
    rewrite (sum_block N ps _ p T Hp).
    - apply total_map_ext. intros b Hb. apply in_seq in Hb. rewrite (Rd_block p p a b), Nat.eqb_refl by (auto; lia). reflexivity.
    - intros q b Hq Hne Hb. rewrite (Rd_block p q a b) by auto.
      destruct (Nat.eqb_spec (start p) (start q)) as [E|E]; [exfalso; apply Hne; symmetry; eapply tiles_start; eauto|]. apply Rmult_0_l. }
  specialize (Ok p Hp). unfold blkOk in Ok. unfold inBlk in Bp. destruct (width_cases p) as [W|W]; rewrite W in *.
  - specialize (E 0 ltac:(lia)). cbn [seq map] in E. rewrite total_cons in E. unfold total in E; cbn [fold_right] in E. cbn [Nat.eqb] in Ok.
    assert (k = start p + 0) by lia. subst k. rewrite Rplus_0_r in E. apply Rmult_integral in E. tauto.
  - pose proof (E 0 ltac:(lia)) as E0. pose proof (E 1 ltac:(lia)) as E1. clear E. cbn [seq map] in E0, E1. rewrite !total_cons in E0, E1.
    unfold total in E0, E1; cbn [fold_right] in E0, E1. rewrite !Rplus_0_r in E0, E1. cbn [Nat.eqb] in Ok.
    set (v00 := blkE uc n cov p 0 0) in *. set (v01 := blkE uc n cov p 0 1) in *. set (v10 := blkE uc n cov p 1 0) in *. set (v11 := blkE uc n cov p 1 1) in *.
    set (x0 := x (start p + 0)) in *. set (x1 := x (start p + 1)) in *.
    assert (D0 : ((v00 * v11 - v01 * v10) * x0 = 0)%R).
    { replace ((v00 * v11 - v01 * v10) * x0)%R with (v11 * (v00 * x0 + v01 * x1) - v01 * (v10 * x0 + v11 * x1))%R by ring. rewrite E0, E1. ring. }
    assert (D1 : ((v00 * v11 - v01 * v10) * x1 = 0)%R).
    { replace ((v00 * v11 - v01 * v10) * x1)%R with (v00 * (v10 * x0 + v11 * x1) - v10 * (v00 * x0 + v01 * x1))%R by ring. rewrite E0, E1. ring. }
    apply Rmult_integral in D0, D1. destruct D0; [contradiction|]. destruct D1; [contradiction|].
    assert (k = start p + 0 \/ k = start p + 1) as [-> | ->] by lia; auto.
Qed.
Lemma Rd_inverse X : isInverse N Rd X -> forall p a b, In p ps -> a < width p -> b < width p ->
  total (map (fun c => (X (start p + a)%nat (start p + c)%nat * blkE uc n cov p c b)%R) (seq 0 (width p))) = if Nat.eqb a b then 1%R else 0%R.
Proof.
  intros HX p a b Hp Ha Hb. destruct (tiles_in ps 0 N p T Hp) as [_ L].
  pose proof (HX (start p + a) (start p + b) ltac:(lia) ltac:(lia)) as E.
  rewrite (sum_block N ps _ p T Hp) in E.
  - replace (Nat.eqb (start p + a) (start p + b)) with (Nat.eqb a b) in E.
    + rewrite <- E. apply total_map_ext. intros c Hc. apply in_seq in Hc. rewrite (Rd_block p p c b), Nat.eqb_refl by (auto; lia). reflexivity.
    + destruct (Nat.eqb_spec a b); symmetry; [apply Nat.eqb_eq|apply Nat.eqb_neq]; lia.
  - intros q c Hq Hne Hc. rewrite (Rd_block q p c b) by auto.
    destruct (Nat.eqb_spec (start q) (start p)) as [E'|E']; [exfalso; apply Hne; eapply tiles_start; eauto|]. apply Rmult_0_r.
Qed.
End Blocks.

(* chi-square of one element with the covariances of the place s *)
Definition elemAt (uc : covUse) (cov : mat) (s : nat) (diag : bool) (d : C) : R :=
  (if diag then Re d ^ 2 / cov s s
   else match uc with
        | UseDiagonal => Re d ^ 2 / cov s s + Im d ^ 2 / cov (S s) (S s)
        | _ => (cov (S s) (S s) * Re d ^ 2 - (cov s (S s) + cov (S s) s) * (Re d * Im d) + cov s s * Im d ^ 2)
               / (cov s s * cov (S s) (S s) - cov s (S s) * cov (S s) s)
        end)%R.
Definition okAt (uc : covUse) (cov : mat) (s : nat) (diag : bool) : Prop :=
  if diag then cov s s <> 0%R
  else match uc with
       | UseDiagonal => cov s s <> 0%R /\ cov (S s) (S s) <> 0%R
       | _ => (cov s s * cov (S s) (S s) - cov s (S s) * cov (S s) s)%R <> 0%R
       end.

Lemma total1 x : total [x] = x. Proof. rewrite total_cons. unfold total; cbn [fold_right]. lra. Qed.
Lemma total2 x y : total [x; y] = (x + y)%R. Proof. rewrite total_cons, total1. reflexivity. Qed.
Lemma inv2 v00 v01 v10 v11 x00 x01 x10 x11 : (v00 * v11 - v01 * v10 <> 0)%R ->
  (x00 * v00 + x01 * v10 = 1)%R -> (x00 * v01 + x01 * v11 = 0)%R -> (x10 * v00 + x11 * v10 = 0)%R -> (x10 * v01 + x11 * v11 = 1)%R ->
  let D := (v00 * v11 - v01 * v10)%R in (x00 = v11 / D /\ x01 = - v01 / D /\ x10 = - v10 / D /\ x11 = v00 / D)%R.
Proof.
  intros HD E1 E2 E3 E4 D. fold D in HD.
  assert (H : forall x y, (x * D = y -> x = y / D)%R) by (intros x y <-; field; auto).
  repeat split; apply H; unfold D.
  - replace (x00 * (v00 * v11 - v01 * v10))%R with (v11 * (x00 * v00 + x01 * v10) - v10 * (x00 * v01 + x01 * v11))%R by ring. rewrite E1, E2. ring.
  - replace (x01 * (v00 * v11 - v01 * v10))%R with (v00 * (x00 * v01 + x01 * v11) - v01 * (x00 * v00 + x01 * v10))%R by ring. rewrite E1, E2. ring.
  - replace (x10 * (v00 * v11 - v01 * v10))%R with (v11 * (x10 * v00 + x11 * v10) - v10 * (x10 * v01 + x11 * v11))%R by ring. rewrite E3, E4. ring.
  - replace (x11 * (v00 * v11 - v01 * v10))%R with (v00 * (x10 * v01 + x11 * v11) - v01 * (x10 * v00 + x11 * v10))%R by ring. rewrite E3, E4. ring.
Qed.

(* one mass bin: the inverse matrix, spread over the full size, gives the chi-square of every element of used waves *)
Lemma prepared_term invert uc n (z : nat -> bool) cov : inverts invert -> uc <> UseFull ->
  (forall i j, i <= j < n -> z i = false -> z j = false -> okAt uc cov (covIdx n i j) (Nat.eqb i j)) ->
  let zs := filter z (seq 0 n) in
  let X := expandCov n zs (invert ((n - length zs) * (n - length zs)) (reducedCov uc n zs cov)) in
  forall i j d, i <= j < n -> z i = false -> z j = false -> chiTerm uc n X i j d = elemAt uc cov (covIdx n i j) (Nat.eqb i j) d.
Proof.
  intros Hinv Hu Ok zs X i j d Hij Zi Zj. destruct (pairs1_ok z n 0 0) as (N & EN & T & I1 & I2 & Nd). fold zs in T, I1, I2, Nd. cbn [Nat.add] in EN.
  set (ps := pairs1 n 0 zs 0) in *.
  assert (EN' : (n - length zs) * (n - length zs) = N).
  { assert (H : length zs + length (filter (fun x => negb (z x)) (seq 0 n)) = n).
    { unfold zs. rewrite <- (seq_length n 0) at 3. generalize (seq 0 n) as l. clear. induction l as [|x l IH]; cbn [filter]; auto. destruct (z x); cbn [negb length]; lia. }
    rewrite EN. f_equal; lia. }
  unfold X, expandCov, reducedCov. fold ps. rewrite EN'.
  set (Rd := fold_left (fun red p => fold_left (fun red q => reduceStep uc n cov p q red) ps red) ps zeroMat).
  destruct (I2 i j) as [s Hs]; auto; try lia.
  assert (HOk : forall p, In p ps -> blkOk uc n cov p).
  { intros [[i' j'] s'] Hp. destruct (I1 _ _ _ Hp) as (? & ? & ? & ?). specialize (Ok i' j' ltac:(lia) ltac:(auto) ltac:(auto)).
    unfold blkOk, okAt, width, blkE in *. rewrite ?Nat.add_0_r, ?Nat.add_1_r. destruct (Nat.eqb i' j'); cbn [Nat.eqb] in *.
    - destruct uc; auto.
    - destruct uc; auto. rewrite Rmult_0_l, Rminus_0_r. destruct Ok. apply Rmult_integral_contrapositive; auto. }
  pose proof (Hinv N Rd (Rd_nonsing uc n cov ps N Hu T Nd HOk)) as HX.
  set (Y := invert N Rd) in *.
  pose proof (Rd_inverse uc n cov ps N Hu T Nd Y HX (i, j, s)) as E.
  assert (Ex : forall a b, a < width (i, j, s) -> b < width (i, j, s) ->
     fold_left (fun cov p => fold_left (fun cov q => expandStep n Y p q cov) ps cov) ps zeroMat (covIdx n i j + a) (covIdx n i j + b) = Y (s + a) (s + b)).
  { intros a b Ha Hb. apply (expanded n Y ps Nd) with (p := (i, j, s)) (q := (i, j, s)); auto.
    intros i' j' s' Hp. destruct (I1 _ _ _ Hp) as (? & ? & ? & ?). lia. }
  set (Q := fold_left (fun cov p => fold_left (fun cov q => expandStep n Y p q cov) ps cov) ps zeroMat) in *.
  specialize (Ok i j Hij Zi Zj). unfold chiTerm, elemAt, okAt, width, start, blkE in *; cbn [snd] in *.
  destruct (Nat.eqb i j).
  - pose proof (E 0 0 Hs ltac:(lia) ltac:(lia)) as E0. cbn [seq map Nat.eqb] in E0. rewrite total1 in E0.
    pose proof (Ex 0 0 ltac:(lia) ltac:(lia)) as X0. rewrite !Nat.add_0_r in *. rewrite X0.
    assert (Y s s = / cov (covIdx n i j) (covIdx n i j))%R.
    { apply Rmult_eq_reg_r with (cov (covIdx n i j) (covIdx n i j)); auto. rewrite Rinv_l by auto. destruct uc; auto. }
    rewrite H. unfold Re. field. auto.
  - pose proof (E 0 0 Hs ltac:(lia) ltac:(lia)) as E00. pose proof (E 0 1 Hs ltac:(lia) ltac:(lia)) as E01.
    pose proof (E 1 0 Hs ltac:(lia) ltac:(lia)) as E10. pose proof (E 1 1 Hs ltac:(lia) ltac:(lia)) as E11. clear E.
    cbn [seq map Nat.eqb] in E00, E01, E10, E11. rewrite total2 in E00, E01, E10, E11.
    pose proof (Ex 0 0 ltac:(lia) ltac:(lia)) as X00. pose proof (Ex 0 1 ltac:(lia) ltac:(lia)) as X01.
    pose proof (Ex 1 0 ltac:(lia) ltac:(lia)) as X10. pose proof (Ex 1 1 ltac:(lia) ltac:(lia)) as X11. clear Ex.
    rewrite ?Nat.add_0_r, ?Nat.add_1_r in *. rewrite X00, X01, X10, X11. unfold Re, Im.
    destruct uc; [| |congruence].
    + rewrite ?Rmult_0_r, ?Rplus_0_r, ?Rplus_0_l in *.
      destruct Ok as [O1 O2].
      assert (Y0 : (Y s s = / cov (covIdx n i j) (covIdx n i j))%R) by (apply Rmult_eq_reg_r with (cov (covIdx n i j) (covIdx n i j)); auto; rewrite Rinv_l; auto).
      assert (Y1 : (Y (S s) (S s) = / cov (S (covIdx n i j)) (S (covIdx n i j)))%R) by (apply Rmult_eq_reg_r with (cov (S (covIdx n i j)) (S (covIdx n i j))); auto; rewrite Rinv_l; auto).
      rewrite Y0, Y1. field. auto.
    + destruct (inv2 _ _ _ _ _ _ _ _ Ok E00 E01 E10 E11) as (-> & -> & -> & ->). field. auto.
Qed.
