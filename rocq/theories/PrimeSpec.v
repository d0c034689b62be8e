(** What "the i-th prime" and "the first n primes" mean, independent of the code. *)
From Coq Require Import ZArith Znumtheory List.
Import ListNotations.
Open Scope Z_scope.

(** l is an initial segment of the increasing sequence of all primes. *)
Definition first_primes (l : list Z) : Prop :=
  (forall i j : nat, (i < j < length l)%nat -> nth i l 0 < nth j l 0) /\
  (forall q, In q l -> prime q) /\
  (forall p q, In q l -> prime p -> p < q -> In p l).

(** p is the prime with (zero-based) index i: exactly i primes are smaller. *)
Definition is_nth_prime (i : nat) (p : Z) : Prop :=
  prime p /\
  exists below : list Z,
    NoDup below /\ length below = i /\ (forall q, In q below <-> prime q /\ q < p).
