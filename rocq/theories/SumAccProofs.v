From Coq Require Import List Arith ZArith Bool Lia ZifyNat.
From Verif Require Import ArrayModel SumAccModel.
Import ListNotations.
Ltac Zify.zify_post_hook ::= Z.div_mod_to_equations.

Lemma wr_spec {A} (v : list A) : forall i x, i < length v ->
  exists v', wr v i x = Some v' /\ length v' = length v
    /\ forall j, nth_error v' j = if Nat.eqb j i then Some x else nth_error v j.
Proof.
  induction v as [|h t IH]; intros i x Hi; cbn in Hi; [lia|].
  destruct i as [|k]; cbn [wr].
  - exists (x :: t). split; [reflexivity|]. split; [reflexivity|]. intros [|j]; reflexivity.
  - destruct (IH k x ltac:(lia)) as (t' & E & Hl & Hn). rewrite E. exists (h :: t').
    split; [reflexivity|]. split; [cbn; lia|]. intros [|j]; cbn; [reflexivity|apply Hn].
Qed.
Lemma wr_none {A} (v : list A) : forall i x, length v <= i -> wr v i x = None.
Proof. induction v; intros [|i] x H; cbn in *; auto; try lia. now rewrite IHv by lia. Qed.

Section P0.
Context {A : Type} (zero : A) (add : A -> A -> A).
Lemma list_ind2 (P : list A -> Prop) : P [] -> (forall x, P [x]) -> (forall x y r, P r -> P (x :: y :: r)) -> forall l, P l.
Proof.
  intros H0 H1 H2. fix IH 1. intros [|x [|y r]]; [exact H0|apply H1|apply H2, IH].
Qed.

Fixpoint pairs (l : list A) : list A :=
  match l with x :: y :: r => add x y :: pairs r | _ => l end.

Lemma pairs_length l : length (pairs l) = (length l + 1) / 2.
Proof. induction l as [|x|x y r IH] using list_ind2; cbn [pairs length]; [reflexivity|reflexivity|]. rewrite IH. lia. Qed.
Lemma pairs_nth l : forall i x y, nth_error l (2 * i) = Some x -> nth_error l (2 * i + 1) = Some y ->
  nth_error (pairs l) i = Some (add x y).
Proof.
  induction l as [|a|a b r IH] using list_ind2; intros i x y Hx Hy.
  - exfalso. destruct (2 * i); discriminate Hx.
  - exfalso. assert (2 * i + 1 < length [a]) by (apply nth_error_Some; rewrite Hy; discriminate). cbn [length] in H. lia.
  - destruct i.
    + cbn in *. congruence.
    + cbn [pairs nth_error]. apply IH.
      * replace (2 * S i) with (S (S (2 * i))) in Hx by lia. exact Hx.
      * replace (2 * S i + 1) with (S (S (2 * i + 1))) in Hy by lia. exact Hy.
Qed.
Lemma pairs_last l : length l mod 2 = 1 -> nth_error (pairs l) (length l / 2) = nth_error l (length l - 1).
Proof.
  induction l as [|a|a b r IH] using list_ind2; intros H; cbn [length] in *.
  - reflexivity.
  - reflexivity.
  - replace (S (S (length r)) / 2) with (S (length r / 2)) by lia.
    replace (S (S (length r)) - 1) with (S (S (length r - 1))) by lia. cbn [pairs nth_error]. apply IH. lia.
Qed.

Definition holds (b : list (option A)) (l : list A) : Prop :=
  length l <= length b /\ forall i, i < length l -> nth_error b i = Some (nth_error l i).

Lemma firstPass_gen ps (b0 : list (option A)) k : 2 * k <= length ps -> k <= length b0 ->
  exists b, fold_left (firstPass add ps) (seq 0 k) (Some b0) = Some b /\ length b = length b0
    /\ forall i, nth_error b i = if i <? k then Some (nth_error (pairs ps) i) else nth_error b0 i.
Proof.
  induction k as [|k IH]; intros H1 H2.
  - exists b0. cbn. auto.
  - destruct IH as (b & E & Hl & Hn); [lia|lia|].
    rewrite seq_S, fold_left_app, E. cbn [Nat.add fold_left firstPass]. unfold rd.
    destruct (nth_error ps (2 * k)) as [x|] eqn:Ex; [|apply nth_error_None in Ex; lia].
    destruct (nth_error ps (2 * k + 1)) as [y|] eqn:Ey; [|apply nth_error_None in Ey; lia].
    destruct (wr_spec b k (Some (add x y)) ltac:(lia)) as (b' & E' & Hl' & Hn').
    exists b'. split; [exact E'|]. split; [lia|]. intros i. rewrite Hn', Hn.
    destruct (Nat.eqb_spec i k) as [->|Hne].
    + destruct (Nat.ltb_spec k (S k)); [|lia]. now rewrite (pairs_nth _ _ _ _ Ex Ey).
    + destruct (Nat.ltb_spec i k), (Nat.ltb_spec i (S k)); auto; lia.
Qed.

Lemma pairStep_gen (b0 : list (option A)) l k : holds b0 l -> 2 * k <= length l ->
  exists b, fold_left (pairStep add) (seq 0 k) (Some b0) = Some b /\ length b = length b0
    /\ forall i, nth_error b i = if i <? k then Some (nth_error (pairs l) i) else nth_error b0 i.
Proof.
  intros [HL HB]. induction k as [|k IH]; intros H1.
  - exists b0. cbn. auto.
  - destruct IH as (b & E & Hl & Hn); [lia|].
    rewrite seq_S, fold_left_app, E. cbn [Nat.add fold_left pairStep]. unfold rdBuf, rd. rewrite !Hn.
    destruct (Nat.ltb_spec (2 * k) k), (Nat.ltb_spec (2 * k + 1) k); try lia.
    rewrite !HB by lia.
    destruct (nth_error l (2 * k)) as [x|] eqn:Ex; [|apply nth_error_None in Ex; lia].
    destruct (nth_error l (2 * k + 1)) as [y|] eqn:Ey; [|apply nth_error_None in Ey; lia].
    destruct (wr_spec b k (Some (add x y)) ltac:(lia)) as (b' & E' & Hl' & Hn').
    exists b'. split; [exact E'|]. split; [lia|]. intros i. rewrite Hn', Hn.
    destruct (Nat.eqb_spec i k) as [->|Hne].
    + destruct (Nat.ltb_spec k (S k)); [|lia]. now rewrite (pairs_nth _ _ _ _ Ex Ey).
    + destruct (Nat.ltb_spec i k), (Nat.ltb_spec i (S k)); auto; lia.
Qed.

Definition addAll n init xs :=
  fold_left (fun s x => match s with None => None | Some s => cascadedAdd zero add s x end)
            xs (Some (cascadedNew zero n init)).

Definition nSums n := n / 2 + (if 0 <? n mod 2 then 1 else 0).

Lemma pairs_snoc_even l x : length l mod 2 = 0 -> pairs (l ++ [x]) = pairs l ++ [x].
Proof. induction l as [|a|a b r IH] using list_ind2; intros H; cbn [length] in H; cbn; [reflexivity|cbn in H; lia|]. rewrite IH by lia. reflexivity. Qed.
Lemma pairs_snoc_odd l x : length l mod 2 = 1 -> exists p w, pairs l = p ++ [w] /\ pairs (l ++ [x]) = p ++ [add w x].
Proof.
  induction l as [|a|a b r IH] using list_ind2; intros H; cbn [length] in H.
  - cbn in H; lia.
  - exists [], a. auto.
  - destruct IH as (p & w & E1 & E2); [lia|]. exists (add a b :: p), w. cbn. rewrite E1, E2. auto.
Qed.

Lemma wr_app_mid (p : list A) y x q : wr (p ++ y :: q) (length p) x = Some (p ++ x :: q).
Proof. induction p; cbn; [reflexivity|]. now rewrite IHp. Qed.

Lemma addAll_state n init xs : xs <> [] -> length xs <= 2 * nSums n ->
  addAll n init xs = Some {| sumNext := Nat.odd (length xs); psIndex := length xs / 2;
                             partialSums := pairs xs ++ repeat zero (nSums n - length (pairs xs)) |}.
Proof.
  induction xs as [|x xs IH] using rev_ind; [congruence|]. intros _ Hl.
  rewrite app_length in *. cbn [length] in *. unfold addAll in *. rewrite fold_left_app. cbn [fold_left].
  destruct xs as [|a xs'].
  - cbn [fold_left]. unfold cascadedAdd, cascadedNew. fold (nSums n). cbn [sumNext psIndex partialSums length] in *.
    destruct (nSums n) as [|m]; [cbn in Hl; lia|]. cbn [repeat length Nat.leb wr]. cbn.
    rewrite Nat.sub_0_r. reflexivity.
  - rewrite IH by (congruence || lia). clear IH. set (l := a :: xs') in *. clearbody l.
    unfold cascadedAdd. cbn [sumNext psIndex partialSums].
    assert (length (pairs l) = (length l + 1) / 2) as HP by apply pairs_length.
    destruct (Nat.odd (length l)) eqn:Eo.
    + assert (length l mod 2 = 1) as Hm.
      { apply Nat.odd_spec in Eo. destruct Eo as [k Hk]. lia. }
      destruct (pairs_snoc_odd l x Hm) as (p & w & E1 & E2). rewrite E1 in *. rewrite E2.
      rewrite app_length in HP. cbn [length] in HP. rewrite !app_length in *. cbn [length] in *.
      assert (length l / 2 = length p) as HD by lia. rewrite HD. unfold rd.
      rewrite <- app_assoc. cbn [app]. rewrite nth_error_app2, Nat.sub_diag by lia. cbn [nth_error].
      rewrite wr_app_mid. rewrite <- app_assoc. cbn [app].
      do 2 f_equal. { rewrite Nat.add_1_r, Nat.odd_succ. rewrite <- Nat.negb_odd, Eo. reflexivity. } lia.
    + assert (length l mod 2 = 0) as Hm.
      { rewrite <- Nat.negb_even in Eo. apply negb_false_iff in Eo. apply Nat.even_spec in Eo. destruct Eo as [k Hk]. lia. }
      rewrite pairs_snoc_even by exact Hm. rewrite !app_length, repeat_length. cbn [length].
      destruct (Nat.leb_spec (length (pairs l) + (nSums n - length (pairs l))) (length l / 2)) as [Hle|Hgt]; [lia|].
      assert (length l / 2 = length (pairs l)) as HD by lia. rewrite HD.
      destruct (nSums n - length (pairs l)) as [|m] eqn:Em; [lia|]. cbn [repeat].
      rewrite wr_app_mid. rewrite <- app_assoc. cbn [app].
      replace (nSums n - (length (pairs l) + 1)) with m by lia.
      do 2 f_equal. { rewrite Nat.add_1_r, Nat.odd_succ. rewrite <- Nat.negb_odd, Eo. reflexivity. } lia.
Qed.

Lemma cascadedRun_overflow n init xs : 2 * nSums n < length xs -> cascadedRun zero add n init xs = None.
Proof.
  intros H. unfold cascadedRun.
  remember (2 * nSums n) as k eqn:Ek.
  assert (exists x r, xs = firstn k xs ++ x :: r) as (x & r & E).
  { destruct (skipn k xs) as [|x r] eqn:Es.
    - assert (length (skipn k xs) = 0) by (rewrite Es; reflexivity). rewrite skipn_length in H0. lia.
    - exists x, r. rewrite <- Es. symmetry. apply firstn_skipn. }
  rewrite E, fold_left_app. cbn [fold_left].
  assert (length (firstn k xs) = k) as Hk by (rewrite firstn_length; lia).
  assert (match fold_left (fun s y => match s with None => None | Some s => cascadedAdd zero add s y end)
            (firstn k xs) (Some (cascadedNew zero n init)) with None => None | Some s => cascadedAdd zero add s x end = None) as ->.
  { destruct (firstn k xs) as [|a l] eqn:Ef.
    - cbn in Hk. cbn [fold_left]. assert (nSums n = 0) as Hn by lia.
      unfold cascadedAdd, cascadedNew. fold (nSums n). rewrite Hn. reflexivity.
    - pose proof (addAll_state n init (a :: l) ltac:(congruence) ltac:(lia)) as Ea. unfold addAll in Ea. rewrite Ea.
      unfold cascadedAdd. cbn [sumNext psIndex partialSums]. rewrite Hk.
      assert (Nat.odd k = false) as ->.
      { rewrite Ek, Nat.odd_mul. reflexivity. }
      assert (length (pairs (a :: l)) = nSums n) as HP by (rewrite pairs_length, Hk; lia).
      rewrite app_length, repeat_length, HP.
      replace (k / 2) with (nSums n) by lia.
      destruct (Nat.leb_spec (nSums n + (nSums n - nSums n)) (nSums n)); [|lia].
      rewrite wr_none; [reflexivity|]. unfold resize. rewrite !app_length, firstn_length, !app_length, !repeat_length. lia. }
  clear. induction r; cbn; auto.
Qed.

End P0.

Section P.
Context {A : Type} (zero : A) (add : A -> A -> A).
Hypothesis addA : forall x y z, add x (add y z) = add (add x y) z.
Hypothesis add0l : forall x, add zero x = x.
Hypothesis add0r : forall x, add x zero = x.
Let total := fold_right add zero.
Notation pairs := (pairs add).
Lemma total_app l r : total (l ++ r) = add (total l) (total r).
Proof. induction l as [|a l IH]; cbn; [now rewrite add0l|]. unfold total in *. rewrite IH. apply addA. Qed.

Lemma pairs_total l : total (pairs l) = total l.
Proof.
  induction l as [|x|x y r IH] using list_ind2; cbn; auto. unfold total in *. rewrite IH. now rewrite addA.
Qed.
Lemma whilePass_correct fuel : forall l (b : list (option A)), holds b l -> 2 <= length l -> length l < fuel ->
  exists b' l', whilePass add fuel (length l) b = Some b' /\ holds b' l' /\ length l' = 2 /\ total l' = total l.
Proof.
  induction fuel as [|f IH]; intros l b Hb Hl2 Hf; [lia|]. cbn [whilePass].
  destruct (Nat.ltb_spec 2 (length l)) as [Hgt|Hle].
  - destruct (pairStep_gen zero add b l (length l / 2) Hb ltac:(lia)) as (b1 & E1 & HL1 & Hn1). rewrite E1.
    pose proof Hb as [HL HB].
    assert (forall b2, length b2 = length b ->
        (forall i, i < length (pairs l) -> nth_error b2 i = Some (nth_error (pairs l) i)) ->
        exists b' l', whilePass add f ((length l + 1) / 2) b2 = Some b' /\ holds b' l' /\ length l' = 2 /\ total l' = total l) as K.
    { intros b2 HL2 Hn2. rewrite <- (pairs_length add). rewrite <- (pairs_total l). apply IH.
      - split; [rewrite (pairs_length add); lia|]. exact Hn2.
      - rewrite (pairs_length add); lia.
      - rewrite (pairs_length add); lia. }
    destruct (Nat.ltb_spec 0 (length l mod 2)) as [Hodd|Heven].
    + unfold rdBuf, rd. rewrite Hn1. destruct (Nat.ltb_spec (length l - 1) (length l / 2)); [lia|].
      rewrite HB by lia.
      destruct (nth_error l (length l - 1)) as [x|] eqn:Ex; [|apply nth_error_None in Ex; lia].
      destruct (wr_spec b1 (length l / 2) (Some x) ltac:(lia)) as (b2 & E2 & HL2 & Hn2). rewrite E2.
      apply K; [lia|]. intros i Hi. rewrite Hn2. rewrite (pairs_length add) in Hi.
      destruct (Nat.eqb_spec i (length l / 2)) as [->|Hne].
      * rewrite (pairs_last add) by lia. now rewrite Ex.
      * rewrite Hn1. destruct (Nat.ltb_spec i (length l / 2)); [reflexivity|lia].
    + apply K; [lia|]. intros i Hi. rewrite (pairs_length add) in Hi. rewrite Hn1.
      destruct (Nat.ltb_spec i (length l / 2)); [reflexivity|lia].
  - exists b, l. split; [reflexivity|]. split; [exact Hb|]. split; [lia|reflexivity].
Qed.

Lemma cascadedResult_correct s : cascadedResult zero add s = Some (total (partialSums s)).
Proof.
  unfold cascadedResult. destruct (partialSums s) as [|x [|y [|z r]]].
  - reflexivity.
  - cbn. now rewrite add0r.
  - cbn. now rewrite add0r.
  - cbv zeta beta iota. set (ps := x :: y :: z :: r). assert (3 <= length ps) as H3 by (cbn; lia).
    clearbody ps.
    destruct (firstPass_gen zero add ps (repeat None (length ps / 2 + 1)) (length ps / 2) ltac:(lia)) as (b & E & Hl & Hn).
    { rewrite repeat_length. lia. }
    rewrite E. rewrite repeat_length in Hl.
    destruct (Nat.ltb_spec 0 (length ps / 2)) as [_|]; [|lia]. unfold rd at 1.
    destruct (nth_error ps (length ps - 1)) as [w|] eqn:Ew; [|apply nth_error_None in Ew; lia].
    destruct (wr_spec b (length ps / 2) (Some w) ltac:(lia)) as (b1 & E1 & HL1 & Hn1). rewrite E1.
    rewrite <- (pairs_length add).
    destruct (whilePass_correct (S (length ps)) (pairs ps) b1) as (b2 & l2 & E2 & [HL2 H2] & Hl2 & Ht).
    { split; [rewrite (pairs_length add); lia|]. intros i Hi. rewrite (pairs_length add) in Hi. rewrite Hn1.
      destruct (Nat.eqb_spec i (length ps / 2)) as [->|Hne].
      - rewrite (pairs_last add) by lia. now rewrite Ew.
      - rewrite Hn. destruct (Nat.ltb_spec i (length ps / 2)); [reflexivity|lia]. }
    { rewrite (pairs_length add); lia. } { rewrite (pairs_length add); lia. }
    rewrite E2. destruct l2 as [|u [|v [|]]]; try discriminate.
    unfold rdBuf, rd. rewrite (H2 0), (H2 1) by (cbn; lia). cbn.
    rewrite <- (pairs_total ps), <- Ht. cbn. now rewrite add0r.
Qed.

Lemma total_zeros k : total (repeat zero k) = zero.
Proof. induction k; cbn; auto. unfold total in *. now rewrite IHk. Qed.

Lemma cascadedRun_correct n init xs : xs <> [] -> length xs <= 2 * nSums n ->
  cascadedRun zero add n init xs = Some (total xs).
Proof.
  intros H1 H2. unfold cascadedRun. pose proof (addAll_state zero add n init xs H1 H2) as E. unfold addAll in E. rewrite E.
  rewrite cascadedResult_correct. cbn [partialSums]. rewrite total_app, total_zeros, add0r, pairs_total. reflexivity.
Qed.

End P.

Section K.
Context {A : Type} (zero : A) (add sub : A -> A -> A).
Hypothesis addA : forall x y z, add x (add y z) = add (add x y) z.
Hypothesis add0r : forall x, add x zero = x.
Hypothesis subK : forall x y, sub (add x y) x = y.
Hypothesis sub0 : forall x, sub x zero = x.
Hypothesis subxx : forall x, sub x x = zero.
Let total := fold_right add zero.
Lemma compensated_correct xs : forall init, compensatedRun zero add sub init xs = fold_left add xs init.
Proof.
  unfold compensatedRun. induction xs as [|x r IH]; intros init; cbn [fold_left compensatedAdd]; [reflexivity|].
  rewrite sub0, subK, subxx. apply IH.
Qed.
Lemma fold_left_total xs : forall init, fold_left add xs init = add init (total xs).
Proof.
  induction xs as [|x r IH]; intros init; cbn; [now rewrite add0r|]. rewrite IH. unfold total. now rewrite addA.
Qed.
End K.
