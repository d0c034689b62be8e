(* Independent specification: Wigner's closed formula for the Clebsch-Gordan
   coefficient (j1 m1 j2 m2 | J M); all arguments in units of hbar/2. *)
From Coq Require Import ZArith QArith List Factorial.
From Verif Require Import SpinSpec.
Import ListNotations.
Open Scope Z_scope.

(* n! for a non-negative integer n *)
Definition facSpec (n : Z) : Z := Z.of_nat (fact (Z.to_nat n)).
Definition halfOf (n : Z) : Z := n / 2.

(* one term of Wigner's sum; terms with a negative factorial argument are absent *)
Definition wignerTerm (j1 m1 j2 m2 J M nu : Z) : Q :=
  let n1 := halfOf (j2 + J + m1) - nu in
  let n2 := halfOf (j1 - m1) + nu in
  let d1 := halfOf (J - j1 + j2) - nu in
  let d2 := halfOf (J + M) - nu in
  let d3 := halfOf (j1 - j2 - M) + nu in
  if (0 <=? nu) && (0 <=? n1) && (0 <=? n2) && (0 <=? d1) && (0 <=? d2) && (0 <=? d3)
  then (inject_Z (minusOnePow (nu + halfOf (j2 + m2)) * facSpec n1 * facSpec n2)
        / inject_Z (facSpec nu * facSpec d1 * facSpec d2 * facSpec d3))%Q
  else 0%Q.

(* sum over nu = 0 .. n-1 *)
Fixpoint sumQ (n : nat) (f : Z -> Q) : Q :=
  match n with O => 0%Q | S k => (sumQ k f + f (Z.of_nat k))%Q end.

Definition wignerPrefactor (j1 m1 j2 m2 J M : Z) : Q :=
  (inject_Z ((J + 1) * facSpec (halfOf (J + j1 - j2)) * facSpec (halfOf (J - j1 + j2))
             * facSpec (halfOf (j1 + j2 - J)) * facSpec (halfOf (J + M)) * facSpec (halfOf (J - M)))
   / inject_Z (facSpec (halfOf (j1 + j2 + J) + 1) * facSpec (halfOf (j1 - m1))
               * facSpec (halfOf (j1 + m1)) * facSpec (halfOf (j2 - m2)) * facSpec (halfOf (j2 + m2))))%Q.

(* quantum numbers for which the coefficient can be non-zero *)
Definition cgAdmissible (j1 m1 j2 m2 J M : Z) : Prop :=
  isProjOf j1 m1 /\ isProjOf j2 m2 /\ isProjOf J M /\ couples j1 j2 J /\ m1 + m2 = M.
