(* Lemmas for C86, part 1: sums, positions of the elements, the loops over pairs of waves. *)
From Coq Require Import List Reals Bool Arith ZArith Lia Lra Sorted Permutation.
From Coquelicot Require Import Complex.
From Verif Require Import PhysModel ChiModel ChiSpec.
Import ListNotations.
Open Scope nat_scope.

Lemma total_cons x l : total (x :: l) = (x + total l)%R.
Proof. reflexivity. Qed.
Lemma total_app a b : total (a ++ b) = (total a + total b)%R.
Proof. induction a as [|x a IH]; [unfold total at 2; simpl; lra|]. rewrite <- app_comm_cons, !total_cons, IH; lra. Qed.
Lemma total_zero l : (forall x, In x l -> x = 0%R) -> total l = 0%R.
Proof.
  induction l as [|x l IH]; intros H; [reflexivity|]. rewrite total_cons, (H x (or_introl eq_refl)), IH; [lra|].
  intros; apply H; right; auto.
Qed.
Lemma total_flat {A} (f : A -> list R) l : total (flat_map f l) = total (map (fun x => total (f x)) l).
Proof. induction l as [|x l IH]; [reflexivity|]. cbn [flat_map map]. rewrite total_app, total_cons, IH; auto. Qed.
Lemma total_map_ext {A} (f g : A -> R) l : (forall x, In x l -> f x = g x) -> total (map f l) = total (map g l).
Proof. intros H. f_equal. apply map_ext_in; auto. Qed.

Lemma list_sum_cons x l : list_sum (x :: l) = x + list_sum l.
Proof. reflexivity. Qed.
(* the width of an element in the reduced matrix *)
Definition width (p : nat * nat * nat) : nat := let '(i, j, _) := p in if Nat.eqb i j then 1 else 2.
Definition start (p : nat * nat * nat) : nat := snd p.
(* elements of the list lie one behind the other from a to b *)
Fixpoint tiles (ps : list (nat * nat * nat)) (a b : nat) : Prop :=
  match ps with [] => a = b | p :: r => start p = a /\ tiles r (a + width p) b end.
Lemma tiles_app ps qs a b c : tiles ps a b -> tiles qs b c -> tiles (ps ++ qs) a c.
Proof. revert a; induction ps as [|p ps IH]; cbn; intros a H1 H2; [subst; auto|]. destruct H1; split; auto. Qed.
Lemma tiles_le ps a b : tiles ps a b -> a <= b.
Proof. revert a; induction ps as [|p ps IH]; cbn; intros a H; [lia|]. destruct H as [_ H]. apply IH in H. lia. Qed.
Lemma tiles_in ps a b p : tiles ps a b -> In p ps -> a <= start p /\ start p + width p <= b.
Proof.
  revert a; induction ps as [|q ps IH]; cbn; intros a H Hin; [contradiction|]. destruct H as [H1 H2]. destruct Hin as [E|Hin].
  - subst. split; [lia|]. apply tiles_le in H2. lia.
  - destruct (IH _ H2 Hin). lia.
Qed.
Lemma width_pos p : 1 <= width p <= 2.
Proof. destruct p as [[i j] r]; cbn. destruct (Nat.eqb i j); lia. Qed.
(* a place in the block of p *)
Definition inBlk (p : nat * nat * nat) (a : nat) : Prop := start p <= a < start p + width p.
Lemma tiles_disjoint ps a b p q x : tiles ps a b -> In p ps -> In q ps -> inBlk p x -> inBlk q x -> p = q.
Proof.
  revert a; induction ps as [|w ps IH]; cbn; intros a H Hp Hq Bp Bq; [contradiction|]. destruct H as [H1 H2].
  unfold inBlk in *.
  destruct Hp as [E|Hp], Hq as [E'|Hq]; subst; auto.
  - pose proof (tiles_in _ _ _ _ H2 Hq). pose proof (width_pos p). lia.
  - pose proof (tiles_in _ _ _ _ H2 Hp). pose proof (width_pos q). lia.
  - eauto.
Qed.
Lemma tiles_NoDup ps a b : tiles ps a b -> NoDup ps.
Proof.
  revert a; induction ps as [|p ps IH]; cbn; intros a H; constructor; destruct H as [H1 H2]; eauto.
  intros Hin. pose proof (tiles_in _ _ _ _ H2 Hin). pose proof (width_pos p). lia.
Qed.
Lemma tiles_cover ps a b x : tiles ps a b -> a <= x < b -> exists p, In p ps /\ inBlk p x.
Proof.
  revert a; induction ps as [|p ps IH]; cbn; intros a H Hx; [lia|]. destruct H as [H1 H2].
  destruct (le_lt_dec (a + width p) x) as [L|L].
  - destruct (IH _ H2) as (q & Hq & B); [lia|]. exists q; auto.
  - exists p. split; auto. unfold inBlk. lia.
Qed.
(* sum over a range by blocks *)
Lemma sum_tiles ps a b f : tiles ps a b ->
  total (map f (seq a (b - a))) = total (map (fun p => total (map f (seq (start p) (width p)))) ps).
Proof.
  revert a; induction ps as [|p ps IH]; cbn [tiles]; intros a H.
  - subst. rewrite Nat.sub_diag. reflexivity.
  - destruct H as [H1 H2]. pose proof (tiles_le _ _ _ H2).
    replace (b - a) with (width p + (b - (a + width p))) by lia.
    rewrite seq_app, map_app, total_app. cbn [map]. rewrite IH by auto. rewrite total_cons. subst a. reflexivity.
Qed.

(* ---- the loops ---- *)
(* one pass of the inner loop *)
Lemma pairs2_S k w1 w2 zs red : pairs2 (S k) w1 w2 zs red =
  match zs with
  | z :: zs' => if Nat.eqb z w2 then pairs2 k w1 (S w2) zs' red
                else let '(l, r) := pairs2 k w1 (S w2) zs (red + if Nat.eqb w1 w2 then 1 else 2) in ((w1, w2, red) :: l, r)
  | [] => let '(l, r) := pairs2 k w1 (S w2) [] (red + if Nat.eqb w1 w2 then 1 else 2) in ((w1, w2, red) :: l, r)
  end.
Proof. reflexivity. Qed.
Lemma filter_seq_ge (z : nat -> bool) w k x : In x (filter z (seq w k)) -> w <= x.
Proof. intros H. apply filter_In in H. destruct H as [H _]. apply in_seq in H. lia. Qed.
Lemma pairs2_ok z w1 : forall k w2 red,
  let '(l, r) := pairs2 k w1 w2 (filter z (seq w2 k)) red in
  tiles l red r /\ (forall i j s, In (i, j, s) l -> i = w1 /\ w2 <= j < w2 + k /\ z j = false) /\
  (forall j, w2 <= j < w2 + k -> z j = false -> exists s, In (w1, j, s) l) /\ NoDup (map fst l) /\
  r = red + list_sum (map (fun j => if Nat.eqb w1 j then 1 else 2) (filter (fun x => negb (z x)) (seq w2 k))).
Proof.
  induction k as [|k IH]; intros w2 red.
  - cbn. split; [reflexivity|]. split; [tauto|]. split; [intros; lia|]. split; [constructor|lia].
  - rewrite pairs2_S. cbn [seq filter]. destruct (z w2) eqn:Ez; cbn [negb].
    + rewrite Nat.eqb_refl. specialize (IH (S w2) red). destruct (pairs2 k w1 (S w2) (filter z (seq (S w2) k)) red) as [l r].
      destruct IH as (T & I1 & I2 & N & Er). split; auto. split; [|split; [|split; auto]].
      * intros i j s H. destruct (I1 i j s H) as (? & ? & ?). split; auto. split; auto. lia.
      * intros j Hj Zj. destruct (Nat.eq_dec j w2); [subst; congruence|]. apply I2; auto. lia.
    + set (w := if Nat.eqb w1 w2 then 1 else 2).
      assert (Hm : (match filter z (seq (S w2) k) with
                    | z0 :: zs' => if Nat.eqb z0 w2 then pairs2 k w1 (S w2) zs' red
                        else let '(l, r) := pairs2 k w1 (S w2) (filter z (seq (S w2) k)) (red + w) in ((w1, w2, red) :: l, r)
                    | [] => let '(l, r) := pairs2 k w1 (S w2) [] (red + w) in ((w1, w2, red) :: l, r)
                    end) = let '(l, r) := pairs2 k w1 (S w2) (filter z (seq (S w2) k)) (red + w) in ((w1, w2, red) :: l, r)).
      { destruct (filter z (seq (S w2) k)) as [|z0 zs'] eqn:Ef; auto.
        destruct (Nat.eqb_spec z0 w2); auto. exfalso.
        assert (S w2 <= z0) by (apply (filter_seq_ge z (S w2) k); rewrite Ef; left; auto). lia. }
      rewrite Hm. clear Hm. specialize (IH (S w2) (red + w)).
      destruct (pairs2 k w1 (S w2) (filter z (seq (S w2) k)) (red + w)) as [l r].
      destruct IH as (T & I1 & I2 & N & Er). split; [|split; [|split; [|split]]].
      * cbn. split; auto.
      * intros i j s H. destruct H as [H|H].
        -- assert (i = w1 /\ j = w2) as [-> ->] by (split; congruence). split; auto. split; auto. lia.
        -- destruct (I1 i j s H) as (? & ? & ?). split; auto. split; auto. lia.
      * intros j Hj Zj. destruct (Nat.eq_dec j w2); [subst; eexists; left; reflexivity|].
        destruct (I2 j) as [s Hs]; auto; [lia|]. exists s; right; auto.
      * cbn. apply NoDup_cons_iff. split; auto. intros H. apply in_map_iff in H. destruct H as ([[i j] s] & E & H). cbn in E.
        destruct (I1 i j s H) as (? & ? & ?). assert (j = w2) by congruence. lia.
      * rewrite Er. cbn [map]. unfold list_sum. cbn [fold_right]. unfold w. destruct (Nat.eqb w1 w2); simpl; lia.
Qed.
Lemma pairs1_S k w1 zs red : pairs1 (S k) w1 zs red =
  match zs with
  | z :: zs' => if Nat.eqb z w1 then pairs1 k (S w1) zs' red
                else let '(l, r) := pairs2 (S k) w1 w1 zs red in l ++ pairs1 k (S w1) zs r
  | [] => let '(l, r) := pairs2 (S k) w1 w1 [] red in l ++ pairs1 k (S w1) [] r
  end.
Proof. reflexivity. Qed.
Lemma pairs1_ok z : forall k w1 red, exists b,
  let ps := pairs1 k w1 (filter z (seq w1 k)) red in
  let m := length (filter (fun x => negb (z x)) (seq w1 k)) in
  b = red + m * m /\ tiles ps red b /\
  (forall i j s, In (i, j, s) ps -> w1 <= i <= j /\ j < w1 + k /\ z i = false /\ z j = false) /\
  (forall i j, w1 <= i <= j -> j < w1 + k -> z i = false -> z j = false -> exists s, In (i, j, s) ps) /\ NoDup (map fst ps).
Proof.
  induction k as [|k IH]; intros w1 red.
  - exists red. cbn. split; [lia|]. split; auto. split; [tauto|]. split; [intros; lia|constructor].
  - rewrite pairs1_S. destruct (z w1) eqn:Ez.
    + cbn [seq filter]. rewrite Ez. cbn [negb]. rewrite Nat.eqb_refl.
      destruct (IH (S w1) red) as (b & Eb & T & I1 & I2 & N). exists b. cbv zeta. split; auto. split; auto. split; [|split; auto].
      * intros i j s H. destruct (I1 i j s H) as (? & ? & ? & ?). repeat split; auto; lia.
      * intros i j Hi Hj Zi Zj. destruct (Nat.eq_dec i w1); [subst; congruence|]. apply I2; auto; lia.
    + assert (Ef : filter z (seq w1 (S k)) = filter z (seq (S w1) k)) by (cbn [seq filter]; rewrite Ez; auto).
      assert (Hm : (match filter z (seq w1 (S k)) with
                    | z0 :: zs' => if Nat.eqb z0 w1 then pairs1 k (S w1) zs' red
                        else let '(l, r) := pairs2 (S k) w1 w1 (filter z (seq w1 (S k))) red in l ++ pairs1 k (S w1) (filter z (seq w1 (S k))) r
                    | [] => let '(l, r) := pairs2 (S k) w1 w1 [] red in l ++ pairs1 k (S w1) [] r
                    end) = let '(l, r) := pairs2 (S k) w1 w1 (filter z (seq w1 (S k))) red in l ++ pairs1 k (S w1) (filter z (seq w1 (S k))) r).
      { rewrite Ef. destruct (filter z (seq (S w1) k)) as [|z0 zs'] eqn:Eg; auto.
        destruct (Nat.eqb_spec z0 w1); auto. exfalso.
        assert (S w1 <= z0) by (apply (filter_seq_ge z (S w1) k); rewrite Eg; left; auto). lia. }
      cbv zeta. rewrite Hm. clear Hm. pose proof (pairs2_ok z w1 (S k) w1 red) as P2.
      destruct (pairs2 (S k) w1 w1 (filter z (seq w1 (S k))) red) as [l r]. rewrite Ef.
      destruct P2 as (T2 & J1 & J2 & N2 & Er).
      destruct (IH (S w1) r) as (b & Eb & T & I1 & I2 & N). exists b. split; [|split; [|split; [|split]]].
      * rewrite Eb, Er. cbn [seq filter]. rewrite Ez. cbn [negb map length]. rewrite Nat.eqb_refl, list_sum_cons.
        set (u := filter (fun x => negb (z x)) (seq (S w1) k)).
        assert (Hs : list_sum (map (fun j => if Nat.eqb w1 j then 1 else 2) u) = 2 * length u).
        { assert (Hu : forall x, In x u -> Nat.eqb w1 x = false).
          { intros x Hx. apply filter_seq_ge in Hx. apply Nat.eqb_neq. lia. }
          revert Hu. generalize u. clear. induction u as [|x u IH]; intros Hu; auto. cbn [map length]. rewrite list_sum_cons, (Hu x (or_introl eq_refl)).
          rewrite IH by (intros; apply Hu; right; auto). lia. }
        rewrite Hs. lia.
      * eapply tiles_app; eauto.
      * intros i j s H. apply in_app_or in H. destruct H as [H|H].
        -- destruct (J1 i j s H) as (-> & ? & ?). repeat split; auto; lia.
        -- destruct (I1 i j s H) as (? & ? & ? & ?). repeat split; auto; lia.
      * intros i j Hi Hj Zi Zj. destruct (Nat.eq_dec i w1) as [E|E].
        -- subst. destruct (J2 j) as [s Hs]; auto; [lia|]. exists s. apply in_or_app; auto.
        -- destruct (I2 i j) as [s Hs]; auto; [lia|lia|]. exists s. apply in_or_app; auto.
      * rewrite map_app.
        assert (Hd : forall x, In x (map fst l) -> ~ In x (map fst (pairs1 k (S w1) (filter z (seq (S w1) k)) r))).
        { intros x Hx Hy. apply in_map_iff in Hx. apply in_map_iff in Hy. destruct Hx as ([[i j] s] & E & H), Hy as ([[i' j'] s'] & E' & H').
          destruct (J1 _ _ _ H) as (? & ? & ?). destruct (I1 _ _ _ H') as (? & ? & ? & ?). cbn in *. assert (i = i') by congruence. lia. }
        clear - N2 N Hd. induction (map fst l) as [|x t IHt]; cbn; auto.
        apply NoDup_cons_iff in N2. destruct N2 as [A B]. apply NoDup_cons_iff. split.
        -- intros H. apply in_app_or in H. destruct H; [contradiction|]. apply (Hd x); auto. left; auto.
        -- apply IHt; auto. intros y Hy. apply Hd. right; auto.
Qed.
