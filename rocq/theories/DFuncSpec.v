(* Wigner's formula for the d-function, independent of the code.
   All spin quantum numbers in units of hbar/2. *)
From Coq Require Import ZArith Reals List Factorial.
From Verif Require Import SpinSpec.
Open Scope R_scope.

Definition facR (n : Z) : R := INR (fact (Z.to_nat n)).

(* d^j_{m n}(theta) = sqrt((j+m)!(j-m)!(j+n)!(j-n)!) *
     sum_s (-1)^(m-n+s) cos(theta/2)^(2j+n-m-2s) sin(theta/2)^(m-n+2s)
           / ((j+n-s)! s! (m-n+s)! (j-m-s)!)        (j, m, n in units of hbar) *)
Definition wignerDSummand (j m n : Z) (theta : R) (s : Z) : R :=
  let A := ((j + n) / 2 - s)%Z in
  let B := ((m - n) / 2 + s)%Z in
  let C := ((j - m) / 2 - s)%Z in
  if ((0 <=? s) && (0 <=? A) && (0 <=? B) && (0 <=? C))%bool%Z then
    IZR (minusOnePow B)
    * powerRZ (cos (theta / 2)) (j - (m - n) / 2 - 2 * s)
    * powerRZ (sin (theta / 2)) ((m - n) / 2 + 2 * s)
    / (facR A * facR s * facR B * facR C)
  else 0.

Fixpoint sumUpTo (n : nat) (f : Z -> R) : R :=
  match n with O => 0 | S k => sumUpTo k f + f (Z.of_nat k) end.

Definition wignerD (j m n : Z) (theta : R) : R :=
  sqrt (facR ((j + m) / 2) * facR ((j - m) / 2) * facR ((j + n) / 2) * facR ((j - n) / 2))
  * sumUpTo (Z.to_nat (j + 1)) (wignerDSummand j m n theta).
