(* Model of utilities/physUtils.hpp (two-body kinematics, barrier factors,
   Breit-Wigner amplitude, reflectivity factor).

   double is modelled by R (no rounding).  [None] is an abort ([throw;] without active
   exception) or a division by zero (NaN/inf in the code). *)
From Coq Require Import ZArith Reals Bool.
From Verif Require Import SpinModel.
Open Scope R_scope.

(* physUtils.hpp 170-193: reflectivityFactor *)
Definition reflectivityFactor (J P M refl : Z) : Z :=
  if negb (Z.abs P =? 1)%Z then 0%Z
  else if (M <? 0)%Z then 0%Z
  else if negb (Z.abs refl =? 1)%Z then 0%Z
  else (refl * P * powMinusOne (Z.quot (J - M) 2))%Z.

(* comparison of doubles *)
(* C++ operator < of double *)
Definition rltb (x y : R) : bool := if Rlt_dec x y then true else false.
(* C++ operator == of double *)
Definition reqb (x y : R) : bool := if Req_EM_T x y then true else false.

(* division that reports a zero denominator *)
Definition rdiv (x y : R) : option R := if Req_EM_T y 0 then None else Some (x / y).

(* physUtils.hpp 73-95: breakupMomentumSquared; the clipping of negative values (91-93)
   only compensates rounding errors but is modelled *)
Definition breakupMomentumSquared (M m1 m2 : R) (allowSubThr : bool) : option R :=
  let mSum := m1 + m2 in
  if negb allowSubThr && rltb M mSum then None
  else
    let mDiff := m1 - m2 in
    match rdiv ((M - mSum) * (M + mSum) * (M - mDiff) * (M + mDiff)) (4 * M * M) with
    | None => None
    | Some q2 => Some (if negb allowSubThr && rltb q2 0 then 0 else q2)
    end.

(* physUtils.hpp 98-106 *)
Definition breakupMomentum (M m1 m2 : R) : option R :=
  match breakupMomentumSquared M m1 m2 false with Some q2 => Some (sqrt q2) | None => None end.

(* physUtils.hpp 109-122: complex number as pair (real, imaginary) *)
Definition breakupMomentumComplex (M m1 m2 : R) : option (R * R) :=
  match breakupMomentumSquared M m1 m2 true with
  | None => None
  | Some q2 => let q := sqrt (Rabs q2) in Some (if rltb q2 0 then (0, q) else (q, 0))
  end.

(* physUtils.hpp 196-258: barrierFactorSquared, L in units of hbar/2 *)
Definition barrierFactorSquared (L : Z) (breakupMom Pr : R) : R :=
  let z := (breakupMom * breakupMom) / (Pr * Pr) in
  match L with
  | 0%Z => 1
  | 2%Z => (2 * z) / (z + 1)
  | 4%Z => (13 * z * z) / (z * (z + 3) + 9)
  | 6%Z => (277 * z * z * z) / (z * (z * (z + 6) + 45) + 225)
  | 8%Z => let z2 := z * z in
           (12746 * z2 * z2) / (z * (z * (z * (z + 10) + 135) + 1575) + 11025)
  | 10%Z => let z2 := z * z in
           (998881 * z2 * z2 * z)
           / (z * (z * (z * (z * (z + 15) + 315) + 6300) + 99225) + 893025)
  | 12%Z => let z3 := z * z * z in
           (118394977 * z3 * z3)
           / (z * (z * (z * (z * (z * (z + 21) + 630) + 18900) + 496125) + 9823275) + 108056025)
  | 14%Z => let z3 := z * z * z in
           (19727003738 * z3 * z3 * z)
           / (z * (z * (z * (z * (z * (z * (z + 28) + 1134) + 47250) + 1819125) + 58939650)
                   + 1404728325) + 18261468225)
  | _ => 0
  end.

(* physUtils.hpp 261-276 *)
Definition barrierFactor (L : Z) (breakupMom Pr : R) : R := sqrt (barrierFactorSquared L breakupMom Pr).

(* default momentum scale, physUtils.hpp 203 *)
Definition defaultPr : R := 1973 / 10000.

(* physUtils.hpp 279-300: breitWigner; None = NaN *)
Definition breitWigner (M M0 Gamma0 : R) (L : Z) (q q0 : R) : option (R * R) :=
  if reqb q0 0 then Some (0, 0)
  else
    match rdiv M0 M, rdiv q q0, rdiv (barrierFactorSquared L q defaultPr) (barrierFactorSquared L q0 defaultPr) with
    | Some r1, Some r2, Some r3 =>
      let Gamma := Gamma0 * r1 * r2 * r3 in
      let A := M0 * Gamma0 in
      let B := M0 * M0 - M * M in
      let C := M0 * Gamma in
      match rdiv A (B * B + C * C) with
      | Some f => Some (f * B, f * C)
      | None => None
      end
    | _, _, _ => None
    end.
