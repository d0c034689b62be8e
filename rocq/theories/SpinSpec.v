(* Independent specification of angular-momentum coupling and of the quark model. *)
From Coq Require Import ZArith Bool List.
Open Scope Z_scope.

(* All spins in units of hbar/2. J can be made from j1 and j2 iff it is one of
   |j1-j2|, |j1-j2|+2, ..., j1+j2. *)
Definition couples (j1 j2 J : Z) : Prop :=
  0 <= j1 /\ 0 <= j2 /\ exists k, 0 <= k /\ J = Z.abs (j1 - j2) + 2 * k /\ J <= j1 + j2.

(* m is one of -j, -j+2, ..., +j *)
Definition isProjOf (j m : Z) : Prop := 0 <= j /\ exists k, 0 <= k <= j /\ m = - j + 2 * k.

(* (-1)^n, for any integer n *)
Definition minusOnePow (n : Z) : Z := if Z.even n then 1 else -1.

(* A quark-antiquark meson with spin J (units of hbar), parity P, C parity C *)
Definition quarkModelJPC (J P C : Z) : Prop :=
  exists L S, 0 <= L /\ (S = 0 \/ S = 1) /\ Z.abs (L - S) <= J <= L + S
              /\ P = minusOnePow (L + 1) /\ C = minusOnePow (L + S).

(* ... with isospin I and G parity G *)
Definition quarkModelIGJP (I G J P : Z) : Prop :=
  exists L S, 0 <= L /\ (S = 0 \/ S = 1) /\ Z.abs (L - S) <= J <= L + S
              /\ P = minusOnePow (L + 1) /\ G = minusOnePow (I + L + S).

Definition isSign (x : Z) : Prop := x = 1 \/ x = -1.
