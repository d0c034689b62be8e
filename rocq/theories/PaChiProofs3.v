(* Lemmas for C87, part 3: the inverse of the matrix, the quadratic form, the vector of differences. *)
From Coq Require Import List Reals Bool Arith ZArith Lia Lra.
From Coquelicot Require Import Complex.
From Verif Require Import PhysModel ChiModel ChiSpec ChiProofs ChiProofs2 ChiProofs3 ChiProofs5 PaChiModel PaChiSpec PaChiProofs PaChiProofs2.
Import ListNotations.
Open Scope nat_scope.

Lemma sumN_sum n f : sumN n f = sumTo n f.
Proof.
  induction n as [|n IH]; [reflexivity|]. rewrite sum_S, <- IH. unfold sumN. rewrite seq_S, fold_left_app. reflexivity.
Qed.
(* a list of numbers with their places 0, 1, 2, ... *)
Section Places.
Variables (l : list comp) (p : comp -> nat) (N : nat).
Hypothesis Hp : map p l = seq 0 N.
Let at_ i := nth i l (0, 0).
Lemma len_l : length l = N. Proof. rewrite <- (map_length p), Hp. apply seq_length. Qed.
Lemma p_at i : i < N -> p (at_ i) = i.
Proof. intros H. unfold at_. rewrite <- (map_nth p). rewrite Hp. rewrite (nth_indep _ _ 0) by (rewrite seq_length; auto). apply seq_nth; auto. Qed.
Lemma at_in i : i < N -> In (at_ i) l.
Proof. intros H. apply nth_In. rewrite len_l. auto. Qed.
Lemma at_p c : In c l -> p c < N /\ at_ (p c) = c.
Proof.
  intros H. destruct (In_nth _ _ (0, 0) H) as (i & Hi & E). assert (Hi' : i < N) by (rewrite <- len_l; exact Hi). clear Hi. change (at_ i = c) in E. rewrite <- E. rewrite p_at by auto. auto.
Qed.
Lemma sumOver_at f : sumOver l f = sumTo N (fun i => f (at_ i)).
Proof.
  unfold sumOver, sumTo. f_equal. rewrite <- (map_map at_ f). f_equal. rewrite <- Hp, map_map.
  rewrite <- (map_id l) at 1. apply map_ext_in. intros c Hc. symmetry. apply at_p; auto.
Qed.
Lemma sumTo_p f : sumTo N f = sumOver l (fun c => f (p c)).
Proof. unfold sumTo, sumOver. rewrite <- Hp, map_map. reflexivity. Qed.
(* inverse matrix *)
Variables (red : mat) (V W : comp -> comp -> R) (invert : nat -> mat -> mat).
Hypothesis Hinv : inverts invert.
Hypothesis Hred : forall c c', In c l -> In c' l -> red (p c) (p c') = V c c'.
Hypothesis HW : forall c c', In c l -> In c' l -> let one := if Nat.eqb (p c) (p c') then 1%R else 0%R in
  sumOver l (fun k => (V c k * W k c')%R) = one /\ sumOver l (fun k => (W c k * V k c')%R) = one.
Lemma HV i j : i < N -> j < N -> sumTo N (fun k => (red i k * W (at_ k) (at_ j))%R) = (if Nat.eqb i j then 1 else 0)%R /\
  sumTo N (fun k => (W (at_ i) (at_ k) * red k j)%R) = (if Nat.eqb i j then 1 else 0)%R.
Proof.
  intros Hi Hj. pose proof (HW (at_ i) (at_ j) (at_in i Hi) (at_in j Hj)) as E. cbv zeta in E. rewrite !p_at in E by auto. rewrite !sumOver_at in E. destruct E as [E1 E2].
  split; [rewrite <- E1|rewrite <- E2]; apply sum_ext; intros k Hk; rewrite <- Hred by (apply at_in; auto); rewrite !p_at by auto; reflexivity.
Qed.
Lemma red_nonsing : nonsingular N red.
Proof.
  intros x Hx k Hk.
  transitivity (sumTo N (fun i => ((if Nat.eqb i k then 1 else 0) * x i)%R)); [symmetry; apply sum_delta; auto|].
  transitivity (sumTo N (fun i => sumTo N (fun j => (W (at_ k) (at_ j) * (red j i * x i))%R))).
  - apply sum_ext. intros i Hi. destruct (HV k i Hk Hi) as [_ E]. rewrite Nat.eqb_sym, <- E, Rmult_comm, <- sum_scal. apply sum_ext. intros; ring.
  - rewrite sum_swap. apply sum_zero. intros j Hj. rewrite sum_scal, Hx by auto. apply Rmult_0_r.
Qed.
Lemma invert_W c c' : In c l -> In c' l -> invert N red (p c) (p c') = W c c'.
Proof.
  intros Hc Hc'. destruct (at_p c Hc) as [Lc Ec]. destruct (at_p c' Hc') as [Lc' Ec'].
  pose proof (Hinv N red red_nonsing) as HY. set (Y := invert N red) in *.
  transitivity (sumTo N (fun k => ((if Nat.eqb k (p c') then 1 else 0) * Y (p c) k)%R)); [symmetry; apply (sum_delta N (p c') (Y (p c))); auto|].
  transitivity (sumTo N (fun k => sumTo N (fun j => (Y (p c) k * (red k j * W (at_ j) c'))%R))).
  - apply sum_ext. intros k Hk. destruct (HV k (p c') Hk Lc') as [E _]. rewrite Ec' in E. rewrite <- E, Rmult_comm, <- sum_scal. apply sum_ext. intros; ring.
  - rewrite sum_swap. transitivity (sumTo N (fun j => ((if Nat.eqb j (p c) then 1 else 0) * W (at_ j) c')%R)).
    + apply sum_ext. intros j Hj. rewrite Nat.eqb_sym, <- (HY (p c) j Lc Hj). rewrite Rmult_comm, <- sum_scal. apply sum_ext. intros; ring.
    + rewrite (sum_delta N (p c) (fun j => W (at_ j) c')) by auto. rewrite Ec. reflexivity.
Qed.
End Places.
Lemma inverse_places l p N V W : map p l = seq 0 N -> (forall c c', In c l -> In c' l -> p c = p c' -> c = c') -> inverseOn l V W ->
  forall c c', In c l -> In c' l -> let one := if Nat.eqb (p c) (p c') then 1%R else 0%R in
  sumOver l (fun k => (V c k * W k c')%R) = one /\ sumOver l (fun k => (W c k * V k c')%R) = one.
Proof.
  intros Hp Hinj H c c' Hc Hc'. specialize (H c c' Hc Hc'). cbv zeta in *.
  replace (Nat.eqb (p c) (p c')) with (Nat.eqb (fst c) (fst c') && Nat.eqb (snd c) (snd c')); auto.
  destruct (Nat.eqb_spec (p c) (p c')) as [E|E].
  - apply Hinj in E; auto. subst. rewrite !Nat.eqb_refl. reflexivity.
  - destruct (Nat.eqb_spec (fst c) (fst c')), (Nat.eqb_spec (snd c) (snd c')); cbn [andb]; auto. exfalso. apply E. f_equal. destruct c, c'; cbn in *; congruence.
Qed.
Lemma sumOver_ext l f g : (forall c, In c l -> f c = g c) -> sumOver l f = sumOver l g.
Proof. apply total_map_ext. Qed.

(* ---- sums over the parts of all waves ---- *)
Lemma sum_parts n (f : nat -> R) (keep : nat -> bool) a :
  (forall w, w < n -> keep w = false -> f (2 * w) = 0%R /\ f (2 * w + 1) = 0%R) -> (a < n -> f (2 * a + 1) = 0%R) ->
  sumTo (2 * n) f = sumOver (flat_map (compsOf a) (filter keep (seq 0 n))) (fun c => f (ix c)).
Proof.
  induction n as [|n IH]; intros H Ha; [reflexivity|]. replace (2 * S n) with (S (S (2 * n))) by lia. rewrite !sum_S.
  rewrite seq_S, filter_app, flat_map_app. unfold sumOver. rewrite map_app, total_app. fold (sumOver (flat_map (compsOf a) (filter keep (seq 0 n))) (fun c => f (ix c))).
  rewrite <- IH; [|intros w Hw Hk; apply (H w); [lia|exact Hk]|intros Hlt; apply Ha; lia]. rewrite Rplus_assoc. f_equal. cbn [Nat.add filter]. destruct (keep n) eqn:E.
  - cbn [flat_map]. rewrite app_nil_r. unfold compsOf. destruct (Nat.eqb_spec n a) as [En|En].
    + subst a. cbn [map]. rewrite total1. unfold ix; cbn [fst snd]. rewrite Nat.add_0_r. specialize (Ha ltac:(lia)). rewrite Nat.add_1_r in Ha. rewrite Ha. lra.
    + cbn [map]. rewrite total2. unfold ix; cbn [fst snd]. rewrite Nat.add_0_r, Nat.add_1_r. reflexivity.
  - destruct (H n ltac:(lia) E) as [E1 E2]. rewrite Nat.add_1_r in E2. rewrite E1, E2. unfold total; cbn. lra.
Qed.
Lemma sum_all_parts n (f : nat -> R) : sumTo (2 * n) f = sumOver (flat_map partsOf (seq 0 n)) (fun c => f (ix c)).
Proof.
  induction n as [|n IH]; [reflexivity|]. replace (2 * S n) with (S (S (2 * n))) by lia. rewrite !sum_S.
  rewrite seq_S, flat_map_app. unfold sumOver. rewrite map_app, total_app. fold (sumOver (flat_map partsOf (seq 0 n)) (fun c => f (ix c))).
  rewrite <- IH, Rplus_assoc. f_equal. cbn [Nat.add flat_map partsOf app map]. rewrite total2. unfold ix; cbn [fst snd]. rewrite Nat.add_0_r, Nat.add_1_r. reflexivity.
Qed.

(* ---- the vector of the differences ---- *)
Lemma diff_val n a lims m fit ph amp : forall w e, w < n -> e < 2 ->
  diffVect n a lims m fit ph amp (2 * w + e) =
  if outside lims w w m then 0%R else if Nat.eqb e 0 then fst (Cminus (Cdiv (fit w) ph) (amp w))
  else if Nat.eqb w a then 0%R else snd (Cminus (Cdiv (fit w) ph) (amp w)).
Proof.
  assert (G : forall k, (forall w e, w < k -> e < 2 -> diffVect k a lims m fit ph amp (2 * w + e) =
      if outside lims w w m then 0%R else if Nat.eqb e 0 then fst (Cminus (Cdiv (fit w) ph) (amp w))
      else if Nat.eqb w a then 0%R else snd (Cminus (Cdiv (fit w) ph) (amp w))) /\ forall i, 2 * k <= i -> diffVect k a lims m fit ph amp i = 0%R).
  { induction k as [|k [I1 I2]]; [split; [intros; lia|reflexivity]|].
    unfold diffVect in *. rewrite seq_S, fold_left_app. cbn [fold_left Nat.add].
    set (v := fold_left _ (seq 0 k) _) in *. split.
    - intros w e Hw He. destruct (Nat.eq_dec w k) as [->|Hne].
      + destruct (outside lims k k m); [apply I2; lia|]. destruct (Nat.eqb_spec e 0) as [->|He0].
        * rewrite Nat.add_0_r. destruct (Nat.eqb k a); rewrite ?Nat.eqb_refl; [reflexivity|]. replace (Nat.eqb (2 * k) (2 * k + 1)) with false by (symmetry; apply Nat.eqb_neq; lia). reflexivity.
        * assert (e = 1) by lia. subst e. destruct (Nat.eqb k a).
          -- replace (Nat.eqb (2 * k + 1) (2 * k)) with false by (symmetry; apply Nat.eqb_neq; lia). apply I2; lia.
          -- rewrite Nat.eqb_refl. reflexivity.
      + assert (N1 : Nat.eqb (2 * w + e) (2 * k) = false) by (apply Nat.eqb_neq; lia). assert (N2 : Nat.eqb (2 * w + e) (2 * k + 1) = false) by (apply Nat.eqb_neq; lia).
        rewrite <- (I1 w e) by lia. destruct (outside lims k k m); [reflexivity|]. destruct (Nat.eqb k a); rewrite ?N1, ?N2; reflexivity.
    - intros i Hi. assert (N1 : Nat.eqb i (2 * k) = false) by (apply Nat.eqb_neq; lia). assert (N2 : Nat.eqb i (2 * k + 1) = false) by (apply Nat.eqb_neq; lia).
      destruct (outside lims k k m); [apply I2; lia|]. destruct (Nat.eqb k a); rewrite ?N1, ?N2; apply I2; lia. }
  intros w e Hw He. apply (proj1 (G n)); auto.
Qed.
