(* Model of the chi-square of the resonance fit to spin-density matrices (C86): resonanceFit/resonanceFitReadData.cc
   319-526 (inversion of the covariance matrices), 1230-1321 (mass limits), resonanceFit/data.cc 225-246 and
   resonanceFit/function.cc 43-134, 301-349.

   double is R, complex<double> is C, size_t is nat except where a difference can wrap around (number of data points).
   [None] is the end of the process (throw without exception, failed assertion, access outside an array).
   A TMatrixT is a function of row and column; TMatrixT::Invert is the parameter [invert].
   Simplifications: what is read from the fit results (mass-bin centers, matrix elements and their covariances) is
   given, for every bin in t'; the amplitudes of the model are given (their cache: C65); sizes of arrays, plotting
   and messages are left out, and so are the copies of matrix elements at data.cc 235-243 with jWave < iWave, which
   nothing reads. Inverting the matrix of size 0 of a mass bin between the ranges of all waves does nothing here. *)
From Coq Require Import List Reals Bool Arith ZArith.
From Coquelicot Require Import Complex.
From Verif Require Import PhysModel.
Import ListNotations.
Open Scope nat_scope.

(* TMatrixT<double> (library), resonanceFitReadData.cc 369 *)
Definition mat := nat -> nat -> R.
(* TMatrixT::operator() and assignment (library), resonanceFitReadData.cc 401-428 *)
Definition put (r c : nat) (x : R) (m : mat) : mat := fun a b => if Nat.eqb a r && Nat.eqb b c then x else m a b.
(* TMatrixT::Zero and a new TMatrixT (library) *)
Definition zeroMat : mat := fun _ _ => 0%R.
(* function.h 56-60 useCovarianceMatrix *)
Inductive covUse := UseDiagonal | UseComplexDiagonal | UseFull.

(* input.h 48-92 and resonanceFitReadData.cc 529-591, 716-748: mass limits of the waves, centers of the mass bins,
   measured matrix elements per mass bin, covariance matrix per mass bin, factor rescaleErrors *)
Record binIn := Bin { bLimits : list (R * R); bCenters : list R; bRho : nat -> nat -> nat -> C; bCovRead : nat -> mat;
                      bRescale : R }.
(* input.h 70 nrWaves *)
Definition nrWaves (b : binIn) : nat := length (bLimits b).
(* resonanceFitReadData.cc 548-573 nrMassBins *)
Definition nrMassBins (b : binIn) : nat := length (bCenters b).
(* resonanceFitReadData.cc 742-745: covariance times rescaleErrors *)
Definition bCov (b : binIn) (m : nat) : mat := fun r c => (bCovRead b m r c * bRescale b)%R.
(* data.h maxNrMassBins, data.cc 62 *)
Definition maxNrMassBins (bins : list binIn) : nat := fold_left (fun a b => Nat.max a (nrMassBins b)) bins 0.

(* resonanceFitReadData.cc 1248-1258: one pass of the loop over the mass bins; binFirst and binLast *)
Definition limitStep (lim : R * R) (s : nat * nat) (mc : nat * R) : nat * nat :=
  let '(first, last) := s in
  let '(idxMass, center) := mc in
  let first1 := if rltb center (fst lim) then S idxMass else first in
  let first2 := if reqb center (fst lim) then idxMass else first1 in
  let last1 := if rltb (snd lim) center then last else idxMass in
  (first2, last1).
(* resonanceFitReadData.cc 1242-1275: limits of one wave; the centers at the limits are read, [size] is the size of
   the array of the centers *)
Definition waveLimits (size : nat) (centers : list R) (lim : R * R) : option (nat * nat) :=
  let n := length centers in
  if Nat.eqb n 0 then None
  else
    let '(first, last) := fold_left (limitStep lim) (combine (seq 0 n) centers) (0, n - 1) in
    let first := if rltb (fst lim) 0 then 0 else first in
    let last := if rltb (snd lim) 0 then n - 1 else last in
    if Nat.ltb first size && Nat.ltb last size then Some (first, last) else None.
(* glue: a function on a list that may end the process *)
Fixpoint mapO {A B} (f : A -> option B) (l : list A) : option (list B) :=
  match l with
  | [] => Some []
  | x :: r => match f x, mapO f r with Some y, Some t => Some (y :: t) | _, _ => None end
  end.
(* resonanceFitReadData.cc 1240-1275, the limits of all waves *)
Definition massLimits (size : nat) (b : binIn) : option (list (nat * nat)) := mapO (waveLimits size (bCenters b)) (bLimits b).
(* resonanceFitReadData.cc 1277-1284 *)
Definition pairLimits (lims : list (nat * nat)) (i j : nat) : nat * nat :=
  let a := nth i lims (0, 0) in
  let b := nth j lims (0, 0) in
  (Nat.max (fst a) (fst b), Nat.min (snd a) (snd b)).
(* resonanceFitReadData.cc 333-338, function.cc 62-67 *)
Definition massMin (size n : nat) (lims : list (nat * nat)) : nat :=
  fold_left (fun a w => Nat.min a (fst (pairLimits lims w w))) (seq 0 n) size.
(* resonanceFitReadData.cc 333-338, function.cc 62-67 *)
Definition massMax (n : nat) (lims : list (nat * nat)) : nat :=
  fold_left (fun a w => Nat.max a (snd (pairLimits lims w w))) (seq 0 n) 0.
(* resonanceFitReadData.cc 357, function.cc 318: idxMass is outside of the limits of the pair *)
Definition outside (lims : list (nat * nat)) (i j m : nat) : bool :=
  Nat.ltb m (fst (pairLimits lims i j)) || Nat.ltb (snd (pairLimits lims i j)) m.
(* glue: the loop from idxMassMin to idxMassMax, resonanceFitReadData.cc 340, function.cc 310 *)
Definition massRange (lo hi : nat) : list nat := seq lo (S hi - lo).

(* resonanceFitReadData.cc 347, 385, data.cc 237: place of the element (i,j), j >= i, in the covariance matrix *)
Definition covIdx (n i j : nat) : nat := n * (n + 1) - (n - i) * (n - i + 1) + 2 * (j - i).
(* resonanceFitReadData.cc 345-355 *)
Definition zeroWave (n : nat) (rho : nat -> nat -> C) (cov : mat) (i : nat) : bool :=
  forallb (fun j =>
    let idx := if Nat.leb i j then covIdx n i j else covIdx n j i in
    reqb (fst (rho i j)) 0 && reqb (snd (rho i j)) 0 && reqb (cov idx idx) 0 && reqb (cov idx (S idx)) 0 &&
    reqb (cov (S idx) idx) 0 && reqb (cov (S idx) (S idx)) 0) (seq 0 n).
(* resonanceFitReadData.cc 380-385, 438-442: the inner loop over iWave2 with the pointer iSkip2 into zeroWaves and the
   running index redIdx; wave 1, wave 2, redIdx of every pass *)
Fixpoint pairs2 (k w1 w2 : nat) (zs : list nat) (red : nat) : list (nat * nat * nat) * nat :=
  match k with
  | O => ([], red)
  | S k' =>
      match zs with
      | z :: zs' => if Nat.eqb z w2 then pairs2 k' w1 (S w2) zs' red
                    else let '(l, r) := pairs2 k' w1 (S w2) zs (red + if Nat.eqb w1 w2 then 1 else 2) in ((w1, w2, red) :: l, r)
      | [] => let '(l, r) := pairs2 k' w1 (S w2) [] (red + if Nat.eqb w1 w2 then 1 else 2) in ((w1, w2, red) :: l, r)
      end
  end.
(* resonanceFitReadData.cc 374-444: the outer loop over iWave1 with the pointer iSkip1 *)
Fixpoint pairs1 (k w1 : nat) (zs : list nat) (red : nat) : list (nat * nat * nat) :=
  match k with
  | O => []
  | S k' =>
      match zs with
      | z :: zs' => if Nat.eqb z w1 then pairs1 k' (S w1) zs' red
                    else let '(l, r) := pairs2 k w1 w1 zs red in l ++ pairs1 k' (S w1) zs r
      | [] => let '(l, r) := pairs2 k w1 w1 [] red in l ++ pairs1 k' (S w1) [] r
      end
  end.
(* resonanceFitReadData.cc 401-428: the elements of the reduced matrix for one row pair and one column pair *)
Definition reduceStep (uc : covUse) (n : nat) (cov : mat) (p q : nat * nat * nat) (red : mat) : mat :=
  let '(i1, i2, r) := p in
  let '(j1, j2, c) := q in
  let idx := covIdx n i1 i2 in
  let jdx := covIdx n j1 j2 in
  let full := match uc with UseFull => true | _ => false end in
  let same := Nat.eqb i1 j1 && Nat.eqb i2 j2 in
  if Nat.eqb i1 i2 then
    if Nat.eqb j1 j2 then
      if same || full then put r c (cov idx jdx) red else red
    else if full then put r (S c) (cov idx (S jdx)) (put r c (cov idx jdx) red) else red
  else if Nat.eqb j1 j2 then
    if full then put (S r) c (cov (S idx) jdx) (put r c (cov idx jdx) red) else red
  else if same || full then
    let red := put (S r) (S c) (cov (S idx) (S jdx)) (put r c (cov idx jdx) red) in
    match uc with
    | UseDiagonal => red
    | _ => put (S r) c (cov (S idx) jdx) (put r (S c) (cov idx (S jdx)) red)
    end
  else red.
(* resonanceFitReadData.cc 368-445 *)
Definition reducedCov (uc : covUse) (n : nat) (zs : list nat) (cov : mat) : mat :=
  let ps := pairs1 n 0 zs 0 in
  fold_left (fun red p => fold_left (fun red q => reduceStep uc n cov p q red) ps red) ps zeroMat.
(* resonanceFitReadData.cc 480-497: back from the reduced matrix *)
Definition expandStep (n : nat) (red : mat) (p q : nat * nat * nat) (cov : mat) : mat :=
  let '(i1, i2, r) := p in
  let '(j1, j2, c) := q in
  let idx := covIdx n i1 i2 in
  let jdx := covIdx n j1 j2 in
  if Nat.eqb i1 i2 then
    if Nat.eqb j1 j2 then put idx jdx (red r c) cov
    else put idx (S jdx) (red r (S c)) (put idx jdx (red r c) cov)
  else if Nat.eqb j1 j2 then put (S idx) jdx (red (S r) c) (put idx jdx (red r c) cov)
  else put (S idx) (S jdx) (red (S r) (S c))
         (put (S idx) jdx (red (S r) c) (put idx (S jdx) (red r (S c)) (put idx jdx (red r c) cov))).
(* resonanceFitReadData.cc 449-514 *)
Definition expandCov (n : nat) (zs : list nat) (red : mat) : mat :=
  let ps := pairs1 n 0 zs 0 in
  fold_left (fun cov p => fold_left (fun cov q => expandStep n red p q cov) ps cov) ps zeroMat.
(* resonanceFitReadData.cc 341-514: one mass bin; None: a wave is zero in its fit range *)
Definition prepareMass (invert : nat -> mat -> mat) (uc : covUse) (n : nat) (lims : list (nat * nat))
    (rho : nat -> nat -> C) (cov : mat) (m : nat) : option mat :=
  if existsb (fun w => zeroWave n rho cov w && negb (outside lims w w m)) (seq 0 n) then None
  else
    let zs := filter (fun w => zeroWave n rho cov w || outside lims w w m) (seq 0 n) in
    let size := (n - length zs) * (n - length zs) in
    Some (expandCov n zs (invert size (reducedCov uc n zs cov))).
(* resonanceFitReadData.cc 340-514: the loop over the mass bins; the matrices, and whether it came to its end *)
Fixpoint prepareMasses (invert : nat -> mat -> mat) (uc : covUse) (n : nat) (lims : list (nat * nat))
    (rho : nat -> nat -> nat -> C) (ms : list nat) (cov : nat -> mat) : (nat -> mat) * bool :=
  match ms with
  | [] => (cov, true)
  | m :: r =>
      match prepareMass invert uc n lims (rho m) (cov m) m with
      | None => (cov, false)
      | Some x => prepareMasses invert uc n lims rho r (fun k => if Nat.eqb k m then x else cov k)
      end
  end.
(* resonanceFitReadData.cc 331-523: the loop over the bins, left at the first wave that is zero in its fit range; the
   return value is not used (1403) *)
Fixpoint prepareBins (invert : nat -> mat -> mat) (uc : covUse) (size : nat) (bins : list (binIn * list (nat * nat)))
    : list (nat -> mat) :=
  match bins with
  | [] => []
  | (b, lims) :: r =>
      let '(cov, ok) := prepareMasses invert uc (nrWaves b) lims (bRho b)
                          (massRange (massMin size (nrWaves b) lims) (massMax (nrWaves b) lims)) (bCov b) in
      cov :: (if ok then prepareBins invert uc size r else map (fun x => bCov (fst x)) r)
  end.

(* function.cc 327-342: contribution of the element (i,j), j >= i; the four numbers are those of data.cc 238-241 *)
Definition chiTerm (uc : covUse) (n : nat) (inv : mat) (i j : nat) (d : C) : R :=
  let base := covIdx n i j in
  let re := fst d in
  let im := snd d in
  (if Nat.eqb i j then re * inv base base * re
   else match uc with
        | UseDiagonal => re * inv base base * re + im * inv (S base) (S base) * im
        | _ => re * inv base base * re + re * inv base (S base) * im + im * inv (S base) base * re + im * inv (S base) (S base) * im
        end)%R.
(* function.cc 313-344: one mass bin; [amp]: production amplitudes of the model, model.cc 394-397 *)
Definition chiMass (uc : covUse) (n : nat) (lims : list (nat * nat)) (rho : nat -> nat -> C) (inv : mat) (m : nat)
    (amp : nat -> C) (chi2 : R) : R :=
  fold_left (fun chi2 i =>
    fold_left (fun chi2 j =>
      if outside lims i j m then chi2
      else (chi2 + chiTerm uc n inv i j (Cminus (Cmult (amp i) (Cconj (amp j))) (rho i j)))%R) (seq i (n - i)) chi2)
    (seq 0 n) chi2.
(* function.cc 307-346: all bins; amplitudes per bin, mass bin and wave *)
Fixpoint chiBins (uc : covUse) (size : nat) (bins : list (binIn * list (nat * nat))) (invs : list (nat -> mat))
    (amp : list (nat -> nat -> C)) (chi2 : R) : R :=
  match bins, invs, amp with
  | (b, lims) :: rb, inv :: ri, a :: ra =>
      chiBins uc size rb ri ra
        (fold_left (fun chi2 m => chiMass uc (nrWaves b) lims (bRho b m) (inv m) m (a m) chi2)
           (massRange (massMin size (nrWaves b) lims) (massMax (nrWaves b) lims)) chi2)
  | _, _, _ => chi2
  end.
(* resonanceFitReadData.cc 1325-1429, function.cc 43-68, 162-171, 301-349: reading the data, construction and chi-square
   in a fit to spin-density matrices *)
Definition chiSquareSDM (invert : nat -> mat -> mat) (uc : covUse) (bins : list binIn) (amp : list (nat -> nat -> C)) : option R :=
  match mapO (massLimits (maxNrMassBins bins)) bins, uc with
  | Some lims, UseDiagonal | Some lims, UseComplexDiagonal =>
      let bl := combine bins lims in
      Some (chiBins uc (maxNrMassBins bins) bl (prepareBins invert uc (maxNrMassBins bins) bl) amp 0)
  | _, _ => None
  end.
(* function.cc 117-133: number of data points; the differences are computed with size_t *)
Definition nrDataPointsSDM (bins : list binIn) : option Z :=
  match mapO (massLimits (maxNrMassBins bins)) bins with
  | None => None
  | Some lims =>
      Some (fold_left (fun pts x =>
              let '(b, l) := x in
              fold_left (fun pts i => fold_left (fun pts j =>
                let p := pairLimits l i j in
                ((pts + (Z.of_nat (snd p) - Z.of_nat (fst p) + 1)) mod 2 ^ 64)%Z) (seq 0 (nrWaves b)) pts) (seq 0 (nrWaves b)) pts)
            (combine bins lims) 0%Z)
  end.
