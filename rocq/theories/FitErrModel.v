(* Model of the error propagation of partialWaveFit/fitResult.{h,cc}: covariance matrices
   of production amplitudes and the Jacobians built by spinDensityMatrixElemCov, phaseErr,
   overlapErr, coherenceErr and intensityErr.

   Simplifications: double is R; a TMatrixT is its elements as a function, its dimensions
   are given by the index ranges; the amplitudes enter as values (their look-up by wave is
   FitResultModel). *)
From Coq Require Import List ZArith Reals.
From Coquelicot Require Import Complex.
Import ListNotations.
Open Scope R_scope.

(* glue: no counterpart in /repo, sum of f 0 .. f (n-1), the sums of ROOT matrix products and of the loops below *)
Fixpoint rsumN (f : nat -> R) (n : nat) : R := match n with O => 0 | S k => rsumN f k + f k end.

(* fitResult.cc 63-77 *)
Definition matrixRepr (c : C) (row col : nat) : R :=
  match row, col with
  | O, O => Re c
  | O, _ => - Im c
  | _, O => Im c
  | _, _ => Re c
  end.

(* fitResult.cc 717-743: covariance matrix of the production amplitudes with the given
   indices; [covIdx] is _fitParCovMatrixIndices, [cov] is _fitParCovMatrix *)
Definition parCovIndex (covIdx : nat -> Z * Z) (indices : list nat) (row : nat) : Z :=
  let p := covIdx (nth (row / 2) indices O) in if Nat.even row then fst p else snd p.
(* fitResult.cc 717-743 *)
Definition prodAmpCov (covIdx : nat -> Z * Z) (cov : Z -> Z -> R) (indices : list nat) (row col : nat) : R :=
  let i := parCovIndex covIdx indices row in
  let j := parCovIndex covIdx indices col in
  if (Z.leb 0 i && Z.leb 0 j)%bool then cov i j else 0.

(* fitResult.cc 836-857: Jacobian (2 x 4m) of sum_i A_i conj(B_i); [pairs] are the values
   of the production amplitudes of the index pairs *)
Definition sdmJac (pairs : list (C * C)) (row col : nat) : R :=
  let m := length pairs in
  if Nat.ltb col (2 * m) then matrixRepr (Cconj (snd (nth (col / 2) pairs (RtoC 0, RtoC 0)))) row (col mod 2)
  else let c := (col - 2 * m)%nat in
       (* M(V_A) times diag(1, -1) *)
       matrixRepr (fst (nth (c / 2) pairs (RtoC 0, RtoC 0))) row (c mod 2) * (if Nat.even c then 1 else -1).
(* J C J^T *)
(* the products of matrices of fitResult.cc 861-863, 988-990 *)
Definition sandwich (dim : nat) (J : nat -> nat -> R) (cov : nat -> nat -> R) (a b : nat) : R :=
  rsumN (fun p => rsumN (fun q => J a p * cov p q * J b q) dim) dim.
(* fitResult.cc 803-865, covariance matrix (2 x 2) of the element *)
Definition sdmCov (normNmbEvents : R) (pairs : list (C * C)) (cov : nat -> nat -> R) (a b : nat) : R :=
  normNmbEvents ^ 2 * sandwich (4 * length pairs) (sdmJac pairs) cov a b.

(* fitResult.cc 893-897: Jacobian of the phase with respect to (Re rho, Im rho) *)
Definition phaseJac (rho : C) (col : nat) : R :=
  let nrm := Re rho * Re rho + Im rho * Im rho in
  if Req_EM_T nrm 0 then 0
  else match col with O => - Im rho / nrm | _ => Re rho / nrm end.
(* fitResult.cc 1016-1019 *)
Definition overlapJac (normInt : C) (col : nat) : R :=
  match col with O => 2 * Re normInt | _ => -2 * Im normInt end.
(* fitResult.h 614-631 *)
Definition realValVariance (spinDensCov : nat -> nat -> R) (jac : nat -> R) : R :=
  rsumN (fun p => rsumN (fun q => jac p * spinDensCov p q * jac q) 2) 2.

(* fitResult.cc 936-987: the Jacobian of the coherence with respect to the amplitude of
   wave A (resp. B) of one rank, given the spin-density elements and the amplitude of the
   other wave of the same rank (0 if there is none) *)
Definition cohOf (rhoAA rhoBB : R) (rhoAB : C) : R := sqrt ((Re rhoAB * Re rhoAB + Im rhoAB * Im rhoAB) / (rhoAA * rhoBB)).
(* fitResult.cc 936-987 *)
Definition cohJacA (rhoAA rhoBB : R) (rhoAB ampA ampB : C) (col : nat) : R :=
  let nrm := Re rhoAB * Re rhoAB + Im rhoAB * Im rhoAB in
  (match col with
   | O => Re rhoAB * Re ampB - Im rhoAB * Im ampB - (nrm / rhoAA) * Re ampA
   | _ => Re rhoAB * Im ampB + Im rhoAB * Re ampB - (nrm / rhoAA) * Im ampA
   end) * (1 / (cohOf rhoAA rhoBB rhoAB * rhoAA * rhoBB)).
(* fitResult.cc 936-987 *)
Definition cohJacB (rhoAA rhoBB : R) (rhoAB ampA ampB : C) (col : nat) : R :=
  let nrm := Re rhoAB * Re rhoAB + Im rhoAB * Im rhoAB in
  (match col with
   | O => Re rhoAB * Re ampA + Im rhoAB * Im ampA - (nrm / rhoBB) * Re ampB
   | _ => Re rhoAB * Im ampA - Im rhoAB * Re ampA - (nrm / rhoBB) * Im ampB
   end) * (1 / (cohOf rhoAA rhoBB rhoAB * rhoAA * rhoBB)).

(* fitResult.cc 1079-1099: sum_j A_j Norm_ji over the amplitudes j of the same reflectivity
   and rank as i ([same j i]), and the Jacobian; the factor normNmbEvents is applied in the
   last line of the function *)
Fixpoint csumN (f : nat -> C) (n : nat) : C := match n with O => RtoC 0 | S k => (csumN f k + f k)%C end.
(* fitResult.cc 1085-1094 *)
Definition ampNorm (n : nat) (amp : nat -> C) (same : nat -> nat -> bool) (normInt : nat -> nat -> C) (i : nat) : C :=
  csumN (fun j => if same j i then (amp j * normInt j i)%C else RtoC 0) n.
(* fitResult.cc 1081-1098 *)
Definition intJac (n : nat) (amp : nat -> C) (same : nat -> nat -> bool) (normInt : nat -> nat -> C) (i col : nat) : R :=
  2 * match col with O => Re (ampNorm n amp same normInt i) | _ => Im (ampNorm n amp same normInt i) end.
