(* Property C08: sum accumulators. *)
From Coq Require Import List Arith ZArith Lia ZifyNat.
From Verif Require Import SumAccModel SumAccProofs.
Import ListNotations.
Ltac Zify.zify_post_hook ::= Z.div_mod_to_equations.

(* capacity of an accumulator announced for n values: n rounded up to an even number *)
Definition capacity (n : nat) : nat := if Nat.odd n then n + 1 else n.

Lemma capacity_sums n : 2 * nSums n = capacity n.
Proof.
  unfold nSums, capacity. destruct (Nat.odd n) eqn:E.
  - apply Nat.odd_spec in E. destruct E as [k ->]. 
    replace ((2 * k + 1) mod 2) with 1 by lia. cbn [Nat.ltb Nat.leb]. lia.
  - rewrite <- Nat.negb_even in E. apply Bool.negb_false_iff in E. apply Nat.even_spec in E. destruct E as [k ->].
    replace ((2 * k) mod 2) with 0 by lia. cbn [Nat.ltb Nat.leb]. lia.
Qed.

(* Any number type with an associative addition and a neutral element.
   As long as no more samples than the capacity are added, the result is the sum of
   all samples (the initial value does not enter). *)
Theorem C08_cascaded_sum_exact :
  forall (A : Type) (zero : A) (add : A -> A -> A),
  (forall x y z, add x (add y z) = add (add x y) z) ->
  (forall x, add zero x = x) -> (forall x, add x zero = x) ->
  forall n init xs, xs <> [] -> length xs <= capacity n ->
  cascadedRun zero add n init xs = Some (fold_right add zero xs).
Proof. intros. apply cascadedRun_correct; auto. now rewrite capacity_sums. Qed.

(* one sample more and the code writes outside its buffer *)
Theorem C08_cascaded_sum_overflow_undefined :
  forall (A : Type) (zero : A) (add : A -> A -> A) n init xs,
  capacity n < length xs -> cascadedRun zero add n init xs = None.
Proof. intros. apply cascadedRun_overflow. now rewrite capacity_sums. Qed.

(* no sample: the initial value (0 if no value was announced) *)
Theorem C08_cascaded_sum_no_sample :
  forall (A : Type) (zero : A) (add : A -> A -> A),
  (forall x y z, add x (add y z) = add (add x y) z) ->
  (forall x, add zero x = x) -> (forall x, add x zero = x) ->
  forall n init, cascadedRun zero add n init [] = Some (match n with O => zero | _ => init end).
Proof.
  intros A zero add HA H0 H1 n init. unfold cascadedRun. cbn [fold_left].
  rewrite cascadedResult_correct by auto. unfold cascadedNew. cbn [partialSums].
  fold (nSums n). pose proof (capacity_sums n) as E.
  destruct n as [|n]; [reflexivity|].
  assert (1 <= capacity (S n)) by (unfold capacity; destruct (Nat.odd _); lia).
  destruct (nSums (S n)) as [|m] eqn:Em; [lia|].
  cbn [repeat fold_right]. rewrite total_zeros by auto. now rewrite H1.
Qed.

(* Kahan sum in exact arithmetic: initial value plus all samples, without any limit *)
Theorem C08_compensated_sum_exact :
  forall (A : Type) (zero : A) (add sub : A -> A -> A),
  (forall x y z, add x (add y z) = add (add x y) z) ->
  (forall x, add x zero = x) ->
  (forall x y, sub (add x y) x = y) -> (forall x, sub x zero = x) -> (forall x, sub x x = zero) ->
  forall init xs, compensatedRun zero add sub init xs = add init (fold_right add zero xs).
Proof. intros. rewrite compensated_correct by auto. now apply fold_left_total. Qed.

Example C08_ex : cascadedRun 0%Z Z.add 11 77%Z [1;2;3;4;5;6;7;8;9;10;11]%Z = Some 66%Z
  /\ cascadedRun 0%Z Z.add 3 0%Z [1;2;3;4;5]%Z = None
  /\ compensatedRun 0%Z Z.add Z.sub 5%Z [1;2;3]%Z = 11%Z.
Proof. vm_compute. repeat split. Qed.
(* the hypotheses on the number type hold, e.g., for the integers *)
Example C08_Z_instance : forall n xs, xs <> [] -> length xs <= capacity n ->
  cascadedRun 0%Z Z.add n 0%Z xs = Some (fold_right Z.add 0%Z xs).
Proof. intros. apply C08_cascaded_sum_exact; auto using Z.add_0_r; intros; lia. Qed.

Print Assumptions C08_cascaded_sum_exact.
Print Assumptions C08_cascaded_sum_overflow_undefined.
Print Assumptions C08_cascaded_sum_no_sample.
Print Assumptions C08_compensated_sum_exact.
