(* Model of the spin algebra helpers of utilities/spinUtils.hpp and the integer
   helpers of utilities/mathUtils.hpp they use.

   Simplifications: C++ [int] is modelled by [Z] (no overflow; all spins of the
   application are far below 2^31); the optional [bool* valid] output argument is
   returned as second component instead of written through a pointer. *)
From Coq Require Import ZArith Bool List Lia.
Open Scope Z_scope.

(* utilities/mathUtils.hpp 77-85: powMinusOne tests the lowest bit *)
Definition powMinusOne (e : Z) : Z := if Z.odd e then -1 else 1.

(* utilities/mathUtils.hpp 88-94 *)
Definition isOdd (v : Z) : bool := Z.odd v.

(* utilities/mathUtils.hpp 97-103 *)
Definition isEven (v : Z) : bool := negb (isOdd v).

(* utilities/spinUtils.hpp 53-70: getSpinRange; (range, valid) *)
Definition getSpinRange (spinA spinB : Z) : (Z * Z) * bool :=
  if (spinA <? 0) || (spinB <? 0) then ((0, -1), false)
  else ((Z.abs (spinA - spinB), spinA + spinB), true).

(* utilities/spinUtils.hpp 73-88 *)
Definition spinQnLargerEqual (spinQn lowerBound : Z) : Z :=
  if isOdd spinQn then
    if isOdd lowerBound then Z.max spinQn lowerBound
    else Z.max spinQn (lowerBound + 1)
  else
    if isEven lowerBound then Z.max spinQn lowerBound
    else Z.max spinQn (lowerBound + 1).

(* utilities/spinUtils.hpp 91-106 *)
Definition spinQnSmallerEqual (spinQn upperBound : Z) : Z :=
  if isOdd spinQn then
    if isOdd upperBound then Z.min spinQn upperBound
    else Z.min spinQn (upperBound - 1)
  else
    if isEven upperBound then Z.min spinQn upperBound
    else Z.min spinQn (upperBound - 1).

(* utilities/spinUtils.hpp 109-134: getSpinRange with an externally demanded range *)
Definition getSpinRangeDemanded (spinA spinB : Z) (demanded : Z * Z)
  : (Z * Z) * bool :=
  let '(allowed, valid) := getSpinRange spinA spinB in
  if negb valid then (allowed, false)
  else
    let lo := spinQnLargerEqual  (fst allowed) (fst demanded) in
    let hi := spinQnSmallerEqual (snd allowed) (snd demanded) in
    ((lo, hi), lo <=? hi).

(* the loop idiom [for (tie(S, SMax) = range; S <= SMax; S += 2)], used e.g. in
   decayAmplitude/waveSetGenerator.cc 217, 236, 245: list of visited values.
   [fuel] bounds the number of iterations; [spinLoop] supplies enough of it. *)
Fixpoint loopStep2 (fuel : nat) (s smax : Z) : list Z :=
  match fuel with
  | O => nil
  | S f => if s <=? smax then s :: loopStep2 f (s + 2) smax else nil
  end.
(* decayAmplitude/waveSetGenerator.cc 217, 236, 245: the loop idiom *)
Definition spinLoop (range : Z * Z) : list Z :=
  loopStep2 (Z.to_nat (snd range - fst range + 1)) (fst range) (snd range).

(* utilities/spinUtils.hpp 137-143 *)
Definition spinAndProjAreCompatible (spin spinProj : Z) : bool :=
  (0 <=? spin) && (Z.abs spinProj <=? spin) && isEven (spin - spinProj).

(* utilities/spinUtils.hpp 146-163: spinStatesCanCouple(j1, j2, J) *)
Definition spinsCanCouple (j1 j2 J : Z) : bool :=
  let '(range, valid) := getSpinRange j1 j2 in
  if negb valid then false
  else if (J <? fst range) || (J >? snd range) then false
  else if isOdd (j1 + j2 - J) then false
  else true.

(* utilities/spinUtils.hpp 188-209; spins in units of hbar/2 *)
Definition jpcIsExotic (J2 P C : Z) : bool :=
  if (P =? 0) || (C =? 0) || (J2 <? 0) || isOdd J2 then false
  else
    let J := Z.quot J2 2 in
    if (J =? 0) && ((P =? -1) && (C =? -1)) then true
    else if (C =? - P) && negb (P =? powMinusOne (J + 1)) then true
    else false.

(* utilities/spinUtils.hpp 212-235 *)
Definition igjpIsExotic (I2 G J2 P : Z) : bool :=
  if (P =? 0) || (G =? 0) || (I2 <? 0) || isOdd I2 || (J2 <? 0) || isOdd J2 then false
  else
    let I := Z.quot I2 2 in
    let J := Z.quot J2 2 in
    if (J =? 0) && ((P =? -1) && (G =? powMinusOne I * P)) then true
    else if (G =? powMinusOne (I + 1) * P) && negb (P =? powMinusOne (J + 1)) then true
    else false.
