(* Blatt-Weisskopf barrier factors from the modulus of the spherical Hankel functions:
   x^(2L+2) |h_L(x)|^2 = D_L(x^2) with
   D_L(z) = sum_{k=0}^{L} (2L-k)! (2L-2k)! / (k! ((L-k)!)^2 4^(L-k)) z^k
   and the barrier factor, normalised to 1 at z = 1, is D_L(1) z^L / D_L(z). *)
From Coq Require Import ZArith Reals.
Open Scope R_scope.

Fixpoint zfact (n : nat) : Z := match n with O => 1%Z | S k => (Z.of_nat n * zfact k)%Z end.

Definition hankelCoeff (L k : nat) : R :=
  IZR (zfact (2 * L - k) * zfact (2 * L - 2 * k))
  / IZR (zfact k * (zfact (L - k) * zfact (L - k)) * 4 ^ Z.of_nat (L - k)).

Definition hankelPoly (L : nat) (z : R) : R := sum_f_R0 (fun k => hankelCoeff L k * z ^ k) L.

Definition blattWeisskopfSquared (L : nat) (z : R) : R := hankelPoly L 1 * z ^ L / hankelPoly L z.
