(* Model of the fit of resonances to production amplitudes (C87): resonanceFit/resonanceFitReadData.cc 47-316
   (prepareProductionAmplitudes) and resonanceFit/function.cc 98-115, 254-297. Limits of the mass range and the data of
   a bin are those of ChiModel (C86).

   double is R, complex<double> is C, matrices are functions. TMatrixT::Invert is the parameter [invert]. What is not a
   number (division by the absolute value of a vanishing anchor amplitude) is None. Simplifications: amplitudes and
   covariances as read from the fit result are given, the amplitudes of the model too; messages are left out. *)
From Coq Require Import List Reals Bool Arith ZArith.
From Coquelicot Require Import Complex.
From Verif Require Import PhysModel ChiModel.
Import ListNotations.
Open Scope nat_scope.

(* input.h 48-92, resonanceFitReadData.cc 750-784, 1386-1393: a bin, its anchor wave, the production amplitudes per mass
   bin and wave, their covariance matrix per mass bin as read *)
Record paIn := PaBin { paBin : binIn; paAnchor : nat; paAmp : nat -> nat -> C; paCovRead : nat -> mat }.
(* resonanceFitReadData.cc 782: covariance times rescaleErrors *)
Definition paCov (p : paIn) (m : nat) : mat := fun r c => (paCovRead p m r c * bRescale (paBin p))%R.

(* resonanceFitReadData.cc 90-96 zeroThisWave *)
Definition zeroAmp (amp : nat -> C) (cov : mat) (w : nat) : bool :=
  reqb (fst (amp w)) 0 && reqb (snd (amp w)) 0 && reqb (cov (2 * w) (2 * w)) 0 && reqb (cov (2 * w) (2 * w + 1)) 0 &&
  reqb (cov (2 * w + 1) (2 * w)) 0 && reqb (cov (2 * w + 1) (2 * w + 1)) 0.
(* resonanceFitReadData.cc 98-102 realThisWave *)
Definition realAmp (amp : nat -> C) (cov : mat) (w : nat) : bool :=
  reqb (snd (amp w)) 0 && reqb (cov (2 * w) (2 * w + 1)) 0 && reqb (cov (2 * w + 1) (2 * w)) 0 && reqb (cov (2 * w + 1) (2 * w + 1)) 0.
(* resonanceFitReadData.cc 115-133: return false *)
Definition badMass (n anchor : nat) (lims : list (nat * nat)) (amp : nat -> C) (cov : mat) (m : nat) : bool :=
  existsb (fun w => zeroAmp amp cov w && negb (outside lims w w m)) (seq 0 n) || zeroAmp amp cov anchor ||
  existsb (fun w => negb (Nat.eqb w anchor) && negb (zeroAmp amp cov w) && realAmp amp cov w) (seq 0 n).
(* resonanceFitReadData.cc 148-152 and the other loops: waves that are not skipped with the value of idxSkip *)
Fixpoint rows (k w skip : nat) (zs : list nat) : list (nat * nat) :=
  match k with
  | O => []
  | S k' =>
      match zs with
      | z :: zs' => if Nat.eqb z w then rows k' (S w) (S skip) zs' else (w, skip) :: rows k' (S w) skip zs
      | [] => (w, skip) :: rows k' (S w) skip []
      end
  end.
(* resonanceFitReadData.cc 160-161 rowSkip, colSkip *)
Definition rowSkip (anchor : nat) (skipAnchor : bool) (p : nat * nat) : nat :=
  2 * (fst p - snd p) - if Nat.ltb anchor (fst p) && negb skipAnchor then 1 else 0.
(* glue: assignment if a condition holds *)
Definition putIf (c : bool) (a b : nat) (x : R) (m : mat) : mat := if c then put a b x m else m.
(* glue: two nested loops *)
Definition loops (step : nat * nat -> nat * nat -> mat -> mat) (ps : list (nat * nat)) (m : mat) : mat :=
  fold_left (fun m p => fold_left (fun m q => step p q m) ps m) ps m.
(* resonanceFitReadData.cc 163-172 *)
Definition realStep (anchor : nat) (skipAnchor : bool) (cov : mat) (p q : nat * nat) (red : mat) : mat :=
  let r := rowSkip anchor skipAnchor p in
  let c := rowSkip anchor skipAnchor q in
  let i := fst p in
  let j := fst q in
  let red := put r c (cov (2 * i) (2 * j)) red in
  let red := putIf (negb (Nat.eqb j anchor)) r (c + 1) (cov (2 * i) (2 * j + 1)) red in
  let red := putIf (negb (Nat.eqb i anchor)) (r + 1) c (cov (2 * i + 1) (2 * j)) red in
  putIf (negb (Nat.eqb i anchor) && negb (Nat.eqb j anchor)) (r + 1) (c + 1) (cov (2 * i + 1) (2 * j + 1)) red.
(* resonanceFitReadData.cc 194-197 *)
Definition covStep (cov : mat) (p q : nat * nat) (m : mat) : mat :=
  let r := 2 * (fst p - snd p) in
  let c := 2 * (fst q - snd q) in
  let i := fst p in
  let j := fst q in
  put (r + 1) (c + 1) (cov (2 * i + 1) (2 * j + 1)) (put (r + 1) c (cov (2 * i + 1) (2 * j))
    (put r (c + 1) (cov (2 * i) (2 * j + 1)) (put r c (cov (2 * i) (2 * j)) m))).
(* resonanceFitReadData.cc 199-220 *)
Definition jacStep (anchor : nat) (skipAnchor : bool) (amp : nat -> C) (p q : nat * nat) (jac : mat) : mat :=
  let n := Cmod (amp anchor) in
  let n3 := (n ^ 3)%R in
  let xa1 := fst (amp anchor) in
  let xa2 := snd (amp anchor) in
  let xi1 := fst (amp (fst p)) in
  let xi2 := snd (amp (fst p)) in
  let r := rowSkip anchor skipAnchor p in
  let c := 2 * (fst q - snd q) in
  if Nat.eqb (fst p) anchor && Nat.eqb (fst q) anchor then
    put r (c + 1) (xa2 / n)%R (put r c (xa1 / n)%R jac)
  else if Nat.eqb (fst q) anchor then
    put (r + 1) (c + 1) (- xi1 / n - xa2 * (xi2 * xa1 - xi1 * xa2) / n3)%R
      (put (r + 1) c (xi2 / n - xa1 * (xi2 * xa1 - xi1 * xa2) / n3)%R
        (put r (c + 1) (xi2 / n - xa2 * (xi2 * xa2 + xi1 * xa1) / n3)%R
          (put r c (xi1 / n - xa1 * (xi1 * xa1 + xi2 * xa2) / n3)%R jac)))
  else if Nat.eqb (fst p) (fst q) then
    put (r + 1) (c + 1) (xa1 / n)%R (put (r + 1) c (- xa2 / n)%R (put r (c + 1) (xa2 / n)%R (put r c (xa1 / n)%R jac)))
  else jac.
(* glue: sum of f k for k < n *)
Definition sumN (n : nat) (f : nat -> R) : R := fold_left (fun s k => (s + f k)%R) (seq 0 n) 0%R.
(* resonanceFitReadData.cc 226 jacobian * covariance * jacobianT (library: TMatrixT product) *)
Definition sandwich (size : nat) (jac cov : mat) : mat :=
  fun r c => sumN size (fun l => (sumN size (fun k => (jac r k * cov k l)%R) * jac c l)%R).
(* resonanceFitReadData.cc 253-276 *)
Definition maskStep (anchor : nat) (skipAnchor : bool) (uc : covUse) (p q : nat * nat) (red : mat) : mat :=
  let r := rowSkip anchor skipAnchor p in
  let c := rowSkip anchor skipAnchor q in
  let i := fst p in
  let j := fst q in
  if Nat.eqb i j then
    match uc with
    | UseDiagonal => putIf (negb (Nat.eqb i anchor)) (r + 1) c 0%R (putIf (negb (Nat.eqb j anchor)) r (c + 1) 0%R red)
    | _ => red
    end
  else
    let red := put r c 0%R red in
    let red := putIf (negb (Nat.eqb j anchor)) r (c + 1) 0%R red in
    let red := putIf (negb (Nat.eqb i anchor)) (r + 1) c 0%R red in
    putIf (negb (Nat.eqb i anchor) && negb (Nat.eqb j anchor)) (r + 1) (c + 1) 0%R red.
(* resonanceFitReadData.cc 295-307 *)
Definition backStep (anchor : nat) (skipAnchor : bool) (red : mat) (p q : nat * nat) (cov : mat) : mat :=
  let r := rowSkip anchor skipAnchor p in
  let c := rowSkip anchor skipAnchor q in
  let i := fst p in
  let j := fst q in
  let cov := put (2 * i) (2 * j) (red r c) cov in
  let cov := putIf (negb (Nat.eqb j anchor)) (2 * i) (2 * j + 1) (red r (c + 1)) cov in
  let cov := putIf (negb (Nat.eqb i anchor)) (2 * i + 1) (2 * j) (red (r + 1) c) cov in
  putIf (negb (Nat.eqb i anchor) && negb (Nat.eqb j anchor)) (2 * i + 1) (2 * j + 1) (red (r + 1) (c + 1)) cov.
(* z / abs(z), resonanceFitReadData.cc 229, function.cc 269; None: not a number *)
Definition phaseOf (z : C) : option C := if reqb (Cmod z) 0 then None else Some (Cdiv z (RtoC (Cmod z))).
(* resonanceFitReadData.cc 76-309: one mass bin; amplitudes and matrix afterwards; Some None: return false *)
Definition prepareAmpMass (invert : nat -> mat -> mat) (uc : covUse) (n anchor : nat) (lims : list (nat * nat))
    (amp : nat -> C) (cov : mat) (m : nat) : option (option ((nat -> C) * mat)) :=
  if badMass n anchor lims amp cov m then Some None
  else
    let zs := filter (fun w => zeroAmp amp cov w || outside lims w w m) (seq 0 n) in
    let skipAnchor := existsb (Nat.eqb anchor) zs in
    let size := 2 * (n - length zs) - if skipAnchor then 0 else 1 in
    let ps := rows n 0 0 zs in
    let start :=
      if realAmp amp cov anchor then Some (amp, loops (realStep anchor skipAnchor cov) ps zeroMat)
      else
        match phaseOf (amp anchor) with
        | None => None
        | Some ph =>
            Some ((fun w => if Nat.ltb w n then Cdiv (amp w) ph else amp w),
                  sandwich (size + if skipAnchor then 0 else 1) (loops (jacStep anchor skipAnchor amp) ps zeroMat)
                    (loops (covStep cov) ps zeroMat))
        end in
    match start with
    | None => None
    | Some (amp1, red) =>
        let red1 := match uc with UseFull => red | _ => loops (maskStep anchor skipAnchor uc) ps red end in
        Some (Some (amp1, loops (backStep anchor skipAnchor (invert size red1)) ps zeroMat))
    end.
(* resonanceFitReadData.cc 76-309: the loop over the mass bins; amplitudes, matrices, whether it came to its end *)
Fixpoint prepareAmpMasses (invert : nat -> mat -> mat) (uc : covUse) (n anchor : nat) (lims : list (nat * nat))
    (ms : list nat) (amp : nat -> nat -> C) (cov : nat -> mat) : option ((nat -> nat -> C) * (nat -> mat) * bool) :=
  match ms with
  | [] => Some (amp, cov, true)
  | m :: r =>
      match prepareAmpMass invert uc n anchor lims (amp m) (cov m) m with
      | None => None
      | Some None => Some (amp, cov, false)
      | Some (Some (a, x)) =>
          prepareAmpMasses invert uc n anchor lims r (fun k => if Nat.eqb k m then a else amp k)
            (fun k => if Nat.eqb k m then x else cov k)
      end
  end.
(* resonanceFitReadData.cc 64-319: the loop over the bins; the return value is not used (1397) *)
Fixpoint prepareAmps (invert : nat -> mat -> mat) (uc : covUse) (size : nat) (bins : list (paIn * list (nat * nat)))
    : option (list ((nat -> nat -> C) * (nat -> mat))) :=
  match bins with
  | [] => Some []
  | (p, lims) :: r =>
      let n := nrWaves (paBin p) in
      match prepareAmpMasses invert uc n (paAnchor p) lims (massRange (massMin size n lims) (massMax n lims)) (paAmp p) (paCov p) with
      | None => None
      | Some (amp, cov, ok) =>
          match (if ok then prepareAmps invert uc size r else Some (map (fun x => (paAmp (fst x), paCov (fst x))) r)) with
          | None => None
          | Some t => Some ((amp, cov) :: t)
          end
      end
  end.
(* function.cc 271-291: the vector of the differences; [fit]: amplitudes of the model *)
Definition diffVect (n anchor : nat) (lims : list (nat * nat)) (m : nat) (fit : nat -> C) (ph : C) (amp : nat -> C) : nat -> R :=
  fold_left (fun v w =>
      if outside lims w w m then v
      else
        let d := Cminus (Cdiv (fit w) ph) (amp w) in
        let v1 := fun k => if Nat.eqb k (2 * w) then fst d else v k in
        if Nat.eqb w anchor then v1 else fun k => if Nat.eqb k (2 * w + 1) then snd d else v1 k)
    (seq 0 n) (fun _ => 0%R).
(* TMatrixT::Similarity (library), function.cc 293 *)
Definition similarity (size : nat) (m : mat) (v : nat -> R) : R := sumN size (fun r => (v r * sumN size (fun c => (m r c * v c)%R))%R).
(* function.cc 264-294: the mass bins of one bin *)
Fixpoint chiAmpMasses (n anchor : nat) (lims : list (nat * nat)) (ms : list nat) (fit amp : nat -> nat -> C) (inv : nat -> mat)
    (chi2 : R) : option R :=
  match ms with
  | [] => Some chi2
  | m :: r =>
      match phaseOf (fit m anchor) with
      | None => None
      | Some ph =>
          chiAmpMasses n anchor lims r fit amp inv (chi2 + similarity (2 * n) (inv m) (diffVect n anchor lims m (fit m) ph (amp m)))%R
      end
  end.
(* function.cc 258-297: all bins; [fits]: amplitudes of the model per bin *)
Fixpoint chiAmpBins (size : nat) (bins : list (paIn * list (nat * nat))) (data : list ((nat -> nat -> C) * (nat -> mat)))
    (fits : list (nat -> nat -> C)) (chi2 : R) : option R :=
  match bins, data, fits with
  | (p, lims) :: rb, (amp, inv) :: rd, fit :: rf =>
      let n := nrWaves (paBin p) in
      match chiAmpMasses n (paAnchor p) lims (massRange (massMin size n lims) (massMax n lims)) fit amp inv chi2 with
      | None => None
      | Some c => chiAmpBins size rb rd rf c
      end
  | _, _, _ => Some chi2
  end.
(* resonanceFitReadData.cc 1329-1408, function.cc 254-297 *)
Definition chiSquareProd (invert : nat -> mat -> mat) (uc : covUse) (bins : list paIn) (fits : list (nat -> nat -> C)) : option R :=
  let size := maxNrMassBins (map paBin bins) in
  match mapO (massLimits size) (map paBin bins) with
  | None => None
  | Some lims =>
      let bl := combine bins lims in
      match prepareAmps invert uc size bl with
      | None => None
      | Some data => chiAmpBins size bl data fits 0
      end
  end.
(* function.cc 102-116: number of data points *)
Definition nrDataPointsProd (bins : list paIn) : option Z :=
  match mapO (massLimits (maxNrMassBins (map paBin bins))) (map paBin bins) with
  | None => None
  | Some lims =>
      Some (fold_left (fun pts x =>
              let '(p, l) := x in
              fold_left (fun pts w =>
                let q := pairLimits l w w in
                let d := (Z.of_nat (snd q) - Z.of_nat (fst q) + 1)%Z in
                let pts := ((pts + d) mod 2 ^ 64)%Z in
                if Nat.eqb w (paAnchor p) then pts else ((pts + d) mod 2 ^ 64)%Z) (seq 0 (nrWaves (paBin p))) pts)
            (combine bins lims) 0%Z)
  end.
