(* What a user relies on in the chi-square of the resonance fit (C86), stated without the functions of ChiModel. *)
From Coq Require Import List Reals Bool Arith ZArith Sorted.
From Coquelicot Require Import Complex.
From Verif Require Import ChiModel.
Import ListNotations.
Open Scope R_scope.

(* sum of a list of numbers *)
Definition total (l : list R) : R := fold_right Rplus 0 l.
(* sum of f k for k < n *)
Definition sumTo (n : nat) (f : nat -> R) : R := total (map f (seq 0 n)).
(* the only solution of A x = 0 is x = 0 *)
Definition nonsingular (n : nat) (A : mat) : Prop :=
  forall x : nat -> R, (forall r, (r < n)%nat -> sumTo n (fun k => A r k * x k) = 0) -> forall k, (k < n)%nat -> x k = 0.
(* B A = 1; for square matrices that says that B is the inverse of A *)
Definition isInverse (n : nat) (A B : mat) : Prop :=
  forall r c, (r < n)%nat -> (c < n)%nat -> sumTo n (fun k => B r k * A k c) = if Nat.eqb r c then 1 else 0.
(* [invert] is a correct matrix inversion *)
Definition inverts (invert : nat -> mat -> mat) : Prop := forall n A, nonsingular n A -> isInverse n A (invert n A).

(* the mass limits of a wave, where a negative number means no limit, contain the mass *)
Definition inRange (lim : R * R) (mass : R) : Prop := (0 <= fst lim -> fst lim <= mass) /\ (0 <= snd lim -> mass <= snd lim).
(* the same as a test *)
Definition inRangeB (lim : R * R) (mass : R) : bool :=
  (if Rlt_dec (fst lim) 0 then true else if Rle_dec (fst lim) mass then true else false) &&
  (if Rlt_dec (snd lim) 0 then true else if Rle_dec mass (snd lim) then true else false).
(* the wave w is fitted in the mass bin m *)
Definition fitted (b : binIn) (m w : nat) : bool := inRangeB (nth w (bLimits b) (0, 0)) (nth m (bCenters b) 0).
(* the elements of the upper triangle, row by row; the element number k has the rows and columns 2k (real part) and
   2k+1 (imaginary part) of the covariance matrix *)
Definition elements (n : nat) : list (nat * nat) := flat_map (fun i => map (fun j => (i, j)) (seq i (n - i))) (seq 0 n).
(* covariances of real and imaginary part of the element number k, with the error scale *)
Definition varRe (b : binIn) (m k : nat) : R := bCovRead b m (2 * k)%nat (2 * k)%nat * bRescale b.
Definition varIm (b : binIn) (m k : nat) : R := bCovRead b m (2 * k + 1)%nat (2 * k + 1)%nat * bRescale b.
Definition covReIm (b : binIn) (m k : nat) : R := bCovRead b m (2 * k)%nat (2 * k + 1)%nat * bRescale b.
Definition covImRe (b : binIn) (m k : nat) : R := bCovRead b m (2 * k + 1)%nat (2 * k)%nat * bRescale b.
(* chi-square of one element with deviation d: real part only on the diagonal *)
Definition element (uc : covUse) (b : binIn) (m k i j : nat) (d : C) : R :=
  if Nat.eqb i j then Re d ^ 2 / varRe b m k
  else match uc with
       | UseDiagonal => Re d ^ 2 / varRe b m k + Im d ^ 2 / varIm b m k
       | _ => (varIm b m k * Re d ^ 2 - (covReIm b m k + covImRe b m k) * (Re d * Im d) + varRe b m k * Im d ^ 2)
              / (varRe b m k * varIm b m k - covReIm b m k * covImRe b m k)
       end.
(* chi-square of one mass bin: the elements of which both waves are fitted *)
Definition chiOfMass (uc : covUse) (b : binIn) (m : nat) (amp : nat -> C) : R :=
  total (map (fun x => let '(k, (i, j)) := x in
                       if fitted b m i && fitted b m j
                       then element uc b m k i j (amp i * Cconj (amp j) - bRho b m i j)%C else 0)
             (combine (seq 0 (length (elements (nrWaves b)))) (elements (nrWaves b)))).
(* all mass bins of all bins *)
Definition chiOf (uc : covUse) (bins : list binIn) (amp : list (nat -> nat -> C)) : R :=
  total (map (fun x => let '(b, a) := x in total (map (fun m => chiOfMass uc b m (a m)) (seq 0 (nrMassBins b)))) (combine bins amp)).

(* centers of mass bins strictly increasing *)
Definition ordered (b : binIn) : Prop := StronglySorted Rlt (bCenters b).
(* no mass range lies entirely above or entirely below the mass bins *)
Definition rangesMeet (b : binIn) : Prop := forall lim, In lim (bLimits b) ->
  (exists x, In x (bCenters b) /\ (0 <= fst lim -> fst lim <= x)) /\ (exists x, In x (bCenters b) /\ (0 <= snd lim -> x <= snd lim)).
(* the covariances of the fitted elements can be inverted *)
Definition errorsGiven (uc : covUse) (b : binIn) : Prop :=
  forall m k i j, (m < nrMassBins b)%nat -> nth_error (elements (nrWaves b)) k = Some (i, j) -> fitted b m i = true -> fitted b m j = true ->
    if Nat.eqb i j then varRe b m k <> 0
    else match uc with
         | UseDiagonal => varRe b m k <> 0 /\ varIm b m k <> 0
         | _ => varRe b m k * varIm b m k - covReIm b m k * covImRe b m k <> 0
         end.
(* the covariances of the fitted elements are positive definite *)
Definition errorsPositive (uc : covUse) (b : binIn) : Prop :=
  forall m k i j, (m < nrMassBins b)%nat -> nth_error (elements (nrWaves b)) k = Some (i, j) -> fitted b m i = true -> fitted b m j = true ->
    0 < varRe b m k /\
    (i <> j -> 0 < varIm b m k /\
       (uc = UseComplexDiagonal -> covReIm b m k = covImRe b m k /\ 0 < varRe b m k * varIm b m k - covReIm b m k * covImRe b m k)).
(* k waves fitted in a mass bin give a hermitian matrix of k * k real numbers *)
Definition dataPoints (bins : list binIn) : nat :=
  list_sum (map (fun b => list_sum (map (fun m =>
    let k := length (filter (fitted b m) (seq 0 (nrWaves b))) in k * k)%nat (seq 0 (nrMassBins b)))) bins).
(* any two waves are fitted together in at least one mass bin *)
Definition rangesOverlap (b : binIn) : Prop := forall i j, (i < nrWaves b)%nat -> (j < nrWaves b)%nat ->
  exists m, (m < nrMassBins b)%nat /\ fitted b m i = true /\ fitted b m j = true.
(* the same data with all covariances multiplied by s *)
Definition scaled (s : R) (b : binIn) : binIn := Bin (bLimits b) (bCenters b) (bRho b) (bCovRead b) (bRescale b * s).
(* the fitted matrix elements agree with the data *)
Definition agree (bins : list binIn) (amp : list (nat -> nat -> C)) : Prop :=
  forall b a m i j, In (b, a) (combine bins amp) -> (m < nrMassBins b)%nat -> (i <= j < nrWaves b)%nat -> fitted b m i = true -> fitted b m j = true ->
    let d := (a m i * Cconj (a m j) - bRho b m i j)%C in Re d = 0 /\ (i <> j -> Im d = 0).
