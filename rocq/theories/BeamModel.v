(* Model of generators/beamAndVertexGenerator.{h,cc} (C81).

   double is R (no rounding).  [None] is an abort, undefined behaviour or a number that is not
   finite.  The random number generator is a stream of uniform numbers, a stream of standard normal
   numbers and a position; each draw advances the position by one (TRandom::Gaus, which consumes
   several uniform numbers in ROOT, returns mean + sigma * (standard normal number)).

   Simplifications: a beam file is given by the branches of its tree and the values of its entries;
   the eigenvalues and eigenvectors of the covariance matrix (ROOT's TMatrixDSymEigen) are a parameter;
   the arguments of a function call are evaluated from left to right; messages are left out. *)
From Coq Require Import String List ZArith Reals Bool.
From Verif Require Import ArrayModel CGBoxModel PhysModel PhaseModel ProdModel.
Import ListNotations.
Open Scope R_scope.

(* ---- ROOT ---- *)
(* TRandom3, used in beamAndVertexGenerator.cc 271: uniform and standard normal numbers *)
Record rng := Rng { uni : nat -> R; nor : nat -> R }.
(* TRandom::Gaus, used in beamAndVertexGenerator.cc 275 *)
Definition gaus (s : rng) (mean sigma : R) (pos : nat) : R := mean + sigma * nor s pos.
(* TRandom::Exp, used in beamAndVertexGenerator.cc 422: - tau * log(Rndm()) *)
Definition expo (s : rng) (tau : R) (pos : nat) : R := - tau * ln (uni s pos).
(* conversion of a double to long, beamAndVertexGenerator.cc 215 and 405: C++ truncates towards zero *)
Definition toLong (x : R) : Z := if rltb x 0 then (- Int_part (- x))%Z else Int_part x.
(* TLorentzVector::SetXYZM, used in beamAndVertexGenerator.cc 308 *)
Definition setXYZM (x y z m : R) : lv :=
  let p2 := x * x + y * y + z * z in
  Lv x y z (if rltb m 0 then sqrt (Rmax (p2 - m * m) 0) else sqrt (p2 + m * m)).

(* ---- data ---- *)
(* one entry of the tree, and the members it is read into, beamAndVertexGenerator.h 107-126: vertex,
   momentum, inclinations, absolute momentum, their uncertainties, covariance matrix (size and
   elements) *)
Record row := Row {
  rX : R; rY : R; rZ : R; rPx : R; rPy : R; rPz : R; rDx : R; rDy : R; rP : R;
  rXs : R; rYs : R; rPxs : R; rPys : R; rPzs : R; rPs : R; rCovN : nat; rCov : nat -> nat -> R }.
(* the tree of a beam file, beamAndVertexGenerator.cc 78-79 *)
Record tree := Tree { tBranches : list string; tRows : list row }.
(* what TFile::Open finds, beamAndVertexGenerator.cc 71-84 *)
Inductive beamFile := NoFile | NoTree | WithTree (t : tree).
(* beamAndVertexGenerator.h 99 *)
Inductive simMode := Simple | FromMomenta | FromInclinations | FromMomentaCorrect.
(* generatorParameters.hpp 41-47: mass of the target, position, length, radius, interactionLength *)
Record target := Tgt { tPos : v3; tLength : R; tRadius : R; tIntLength : R }.
(* generatorParameters.hpp 10-17: the beam; mass of its particle *)
Record beamPar := BeamPar { bpMass : R; bpMom : R; bpMomSigma : R; bpDx : R; bpDxSigma : R; bpDy : R; bpDySigma : R }.
(* beamAndVertexGenerator.h 69-133: the object; bFile is whether _beamFileName is not empty,
   bBound whether branches of the current tree are connected to members (SetBranchAddress), bHasZ
   whether that of the z-position is *)
Record bvg := Bvg {
  bFile : bool; bTree : option tree; bSeq : bool; bCur : Z; bMode : simMode; bVals : row; bBound : bool; bHasZ : bool;
  bSig : bool; bScale : R; bTakeZ : bool; bRes : R; bPdfS : R; bPdfM : R; bVertex : v3; bBeam : lv }.
(* beamAndVertexGenerator.cc 33-50: initial values of the members that are read from the tree *)
Definition zeroRow : row := Row 0 0 0 0 0 0 0 0 0 0 0 0 0 0 0 0 (fun _ _ => 0).
(* beamAndVertexGenerator.cc 26-58: the constructor *)
Definition newBvg : bvg :=
  Bvg false None false 0 Simple zeroRow false false false 1 false 0 0 0 (V3 0 0 0) (Lv 0 0 0 0).

(* glue: update of single members *)
Definition withVals (v : row) (b : bvg) : bvg :=
  Bvg (bFile b) (bTree b) (bSeq b) (bCur b) (bMode b) v (bBound b) (bHasZ b) (bSig b) (bScale b) (bTakeZ b) (bRes b) (bPdfS b) (bPdfM b) (bVertex b) (bBeam b).
(* glue: update of _currentBeamfileEntry *)
Definition withCur (c : Z) (b : bvg) : bvg :=
  Bvg (bFile b) (bTree b) (bSeq b) c (bMode b) (bVals b) (bBound b) (bHasZ b) (bSig b) (bScale b) (bTakeZ b) (bRes b) (bPdfS b) (bPdfM b) (bVertex b) (bBeam b).
(* glue: update of _vertex and _beam *)
Definition withEvent (v : v3) (p : lv) (b : bvg) : bvg :=
  Bvg (bFile b) (bTree b) (bSeq b) (bCur b) (bMode b) (bVals b) (bBound b) (bHasZ b) (bSig b) (bScale b) (bTakeZ b) (bRes b) (bPdfS b) (bPdfM b) v p.
(* glue: update of file name and tree; whether branches of the tree are connected *)
Definition withTree (t : option tree) (bound : bool) (b : bvg) : bvg :=
  Bvg true t (bSeq b) (bCur b) (bMode b) (bVals b) bound (bHasZ b) (bSig b) (bScale b) (bTakeZ b) (bRes b) (bPdfS b) (bPdfM b) (bVertex b) (bBeam b).
(* glue: update of simulation mode, connection of the z-position and _sigmasPresent *)
Definition withMode (m : simMode) (hasZ sig : bool) (v : row) (b : bvg) : bvg :=
  Bvg (bFile b) (bTree b) (bSeq b) (bCur b) m v true hasZ sig (bScale b) (bTakeZ b) (bRes b) (bPdfS b) (bPdfM b) (bVertex b) (bBeam b).
(* glue: _vertexZ *)
Definition withZ (z : R) (v : row) : row :=
  Row (rX v) (rY v) z (rPx v) (rPy v) (rPz v) (rDx v) (rDy v) (rP v) (rXs v) (rYs v) (rPxs v) (rPys v) (rPzs v) (rPs v) (rCovN v) (rCov v).
(* glue: _beamMomentum *)
Definition withP (p : R) (v : row) : row :=
  Row (rX v) (rY v) (rZ v) (rPx v) (rPy v) (rPz v) (rDx v) (rDy v) p (rXs v) (rYs v) (rPxs v) (rPys v) (rPzs v) (rPs v) (rCovN v) (rCov v).
(* beamAndVertexGenerator.h 39: setBeamfileSequentialReading *)
Definition setSeq (seq : bool) (b : bvg) : bvg :=
  Bvg (bFile b) (bTree b) seq (bCur b) (bMode b) (bVals b) (bBound b) (bHasZ b) (bSig b) (bScale b) (bTakeZ b) (bRes b) (bPdfS b) (bPdfM b) (bVertex b) (bBeam b).
(* beamAndVertexGenerator.h 50: setSigmaScalingFactor *)
Definition setScale (f : R) (b : bvg) : bvg :=
  Bvg (bFile b) (bTree b) (bSeq b) (bCur b) (bMode b) (bVals b) (bBound b) (bHasZ b) (bSig b) f (bTakeZ b) (bRes b) (bPdfS b) (bPdfM b) (bVertex b) (bBeam b).
(* beamAndVertexGenerator.cc 430-438: setTakeZpositionFromData *)
Definition setTakeZ (take : bool) (b : bvg) : option bvg :=
  if take && negb (bFile b) then None
  else Some (Bvg (bFile b) (bTree b) (bSeq b) (bCur b) (bMode b) (bVals b) (bBound b) (bHasZ b) (bSig b) (bScale b) take (bRes b) (bPdfS b) (bPdfM b) (bVertex b) (bBeam b)).
(* beamAndVertexGenerator.cc 441-449: setMomentumResolutionCorrection *)
Definition setCorrection (res pdfSigma pdfMean : R) (b : bvg) : bvg :=
  Bvg (bFile b) (bTree b) (bSeq b) (bCur b) (bMode b) (bVals b) (bBound b) (bHasZ b) (bSig b) (bScale b) (bTakeZ b) res pdfSigma pdfMean (bVertex b) (bBeam b).

(* beamAndVertexGenerator.cc 219-235: check *)
Definition check (b : bvg) : bool :=
  if negb ((match bTree b with Some _ => true | None => false end) || (match bMode b with Simple => true | _ => false end)) then false
  else if negb (reqb (bPdfM b) 0) then
    match bMode b with
    | FromMomentaCorrect => negb (reqb (bPdfS b) 0 || reqb (bRes b) 0)
    | _ => false
    end
  else true.
(* TTree::FindBranch, used in beamAndVertexGenerator.cc 85 *)
Definition hasBranch (t : tree) (name : string) : bool := existsb (String.eqb name) (tBranches t).
(* glue: conjunction of FindBranch for several branches *)
Definition hasAll (t : tree) (names : list string) : bool := forallb (hasBranch t) names.
(* beamAndVertexGenerator.cc 99-165: loadBeamFileWithMomenta; if a branch is missing the file, which
   owns the tree, is closed and deleted, and then the tree is deleted again (None) *)
Definition loadMomenta (t : tree) (b : bvg) : option (bool * bvg) :=
  if negb (hasAll t ["vertex_x_position"; "vertex_y_position"; "beam_momentum_x"; "beam_momentum_y"; "beam_momentum_z"]%string) then None
  else
    let hasZ := hasBranch t "vertex_z_position" in
    let vals := if hasZ then bVals b else withZ 0 (bVals b) in
    let sig := hasAll t ["vertex_x_position_sigma"; "vertex_y_position_sigma"; "beam_momentum_x_sigma"; "beam_momentum_y_sigma"; "beam_momentum_z_sigma"]%string in
    let mode := if reqb (bPdfM b) 0 then FromMomenta else FromMomentaCorrect in
    let b := withMode mode hasZ sig vals b in
    Some (check b, b).
(* beamAndVertexGenerator.cc 168-204: loadBeamFileWithInclinations; as above if a branch is missing *)
Definition loadInclinations (t : tree) (b : bvg) : option (bool * bvg) :=
  if negb (hasAll t ["vertex_x_position"; "vertex_y_position"; "vertex_z_position"; "beam_dXdZ"; "beam_dYdZ"; "beam_momentum"; "vertex_XYdXdY_cov"; "beam_momentum_sigma"]%string) then None
  else
    let b := withMode FromInclinations true true (bVals b) b in
    Some (check b, b).
(* beamAndVertexGenerator.cc 68-96: loadBeamFile; if the file cannot be opened the old tree stays *)
Definition loadBeamFile (f : beamFile) (b : bvg) : option (bool * bvg) :=
  match f with
  | NoFile => Some (false, withTree (bTree b) (bBound b) b)
  | NoTree => Some (false, withTree None false b)
  | WithTree t =>
      let b := withTree (Some t) false b in
      if hasBranch t "beam_momentum_x" then loadMomenta t b
      else if hasBranch t "beam_dXdZ" then loadInclinations t b
      else Some (false, b)
  end.

(* beamAndVertexGenerator.cc 207-216: randomizeBeamfileStartingPosition *)
Definition randomizeStart (s : rng) (pos : nat) (b : bvg) : option (bvg * nat) :=
  do t <- bTree b;
  Some (withCur (toLong (- uniformIn (- INR (length (tRows t))) 0 (uni s pos))) b, S pos).
(* TTree::GetEntry, used in beamAndVertexGenerator.cc 402: the values of the connected branches;
   an entry outside the tree changes nothing *)
Definition getEntry (t : tree) (i : Z) (b : bvg) : bvg :=
  if (i <? 0)%Z || negb (bBound b) then b
  else
    match nth_error (tRows t) (Z.to_nat i) with
    | None => b
    | Some e =>
        let v := bVals b in
        withVals
          (match bMode b with
           | Simple => v
           | FromMomenta | FromMomentaCorrect =>
               Row (rX e) (rY e) (if bHasZ b then rZ e else rZ v) (rPx e) (rPy e) (rPz e) (rDx v) (rDy v) (rP v)
                   (if bSig b then rXs e else rXs v) (if bSig b then rYs e else rYs v) (if bSig b then rPxs e else rPxs v)
                   (if bSig b then rPys e else rPys v) (if bSig b then rPzs e else rPzs v) (rPs v) (rCovN v) (rCov v)
           | FromInclinations =>
               Row (rX e) (rY e) (rZ e) (rPx v) (rPy v) (rPz v) (rDx e) (rDy e) (rP e)
                   (rXs v) (rYs v) (rPxs v) (rPys v) (rPzs v) (rPs e) (rCovN e) (rCov e)
           end) b
    end.
(* beamAndVertexGenerator.cc 392-410: loadNextEventFromBeamfile *)
Definition loadNext (s : rng) (pos : nat) (b : bvg) : option (bvg * nat) :=
  do t <- bTree b;
  let nEntries := Z.of_nat (length (tRows t)) in
  if bSeq b then
    let cur := if (bCur b >=? nEntries)%Z then 0%Z else bCur b in
    Some (getEntry t cur (withCur (cur + 1) b), pos)
  else
    let cur := toLong (uniformIn 0 (INR (length (tRows t))) (uni s pos)) in
    Some (getEntry t cur (withCur cur b), S (S pos)).
(* beamAndVertexGenerator.cc 418-423: draw z until it is inside the target; None if that has not
   happened after [fuel] draws *)
Fixpoint drawZ (fuel : nat) (s : rng) (tg : target) (pos : nat) : option (R * nat) :=
  match fuel with
  | O => None
  | S fuel =>
      let z := expo s (tIntLength tg) pos in
      if rltb (tLength tg) z then drawZ fuel s tg (S pos) else Some (z, S pos)
  end.
(* beamAndVertexGenerator.cc 413-427: getVertexZ *)
Definition vertexZ (fuel : nat) (s : rng) (tg : target) (pos : nat) (b : bvg) : option (R * nat) :=
  if bTakeZ b then Some (rZ (bVals b), pos)
  else
    do (z, pos) <- drawZ fuel s tg pos;
    Some ((vz (tPos tg) - tLength tg * 0.5) + z, pos).
(* beamAndVertexGenerator.cc 263-286: eventSimple *)
Definition eventSimple (fuel : nat) (s : rng) (tg : target) (bp : beamPar) (pos : nat) (b : bvg) : option (bool * bvg * nat) :=
  do (z, pos) <- vertexZ fuel s tg pos b;
  do radius <- osqrt (uniformIn 0 (tRadius tg * tRadius tg) (uni s pos));
  let phi := uniformIn 0 (2 * PI) (uni s (pos + 1)) in
  let vertex := V3 (vx (tPos tg) + radius * cos phi) (vy (tPos tg) + radius * sin phi) z in
  let pBeam := gaus s (bpMom bp) (bpMomSigma bp) (pos + 2) in
  let dxdz := gaus s (bpDx bp) (bpDxSigma bp) (pos + 3) in
  let dydz := gaus s (bpDy bp) (bpDySigma bp) (pos + 4) in
  let pz := pBeam / sqrt (1 + dxdz * dxdz + dydz * dydz) in
  let px := dxdz * pz in
  let py := dydz * pz in
  let EBeam := sqrt (pBeam * pBeam + bpMass bp * bpMass bp) in
  Some (true, withEvent vertex (Lv px py pz EBeam) b, (pos + 5)%nat).
(* beamAndVertexGenerator.cc 289-320: eventFromMomenta *)
Definition eventFromMomenta (fuel : nat) (s : rng) (tg : target) (bp : beamPar) (pos : nat) (b : bvg) : option (bool * bvg * nat) :=
  do (b, pos) <- loadNext s pos b;
  do (z, pos) <- vertexZ fuel s tg pos b;
  let v := bVals b in
  do dxdz <- rdiv (rPx v) (rPz v);
  do dydz <- rdiv (rPy v) (rPz v);
  let projX := rX v + dxdz * (z - rZ v) in
  let projY := rY v + dydz * (z - rZ v) in
  if bSig b && negb (reqb (bScale b) 0) then
    let f := bScale b in
    Some (true, withEvent (V3 (gaus s projX (f * rXs v) pos) (gaus s projY (f * rYs v) (pos + 1)) z)
                  (setXYZM (gaus s (rPx v) (f * rPxs v) (pos + 2)) (gaus s (rPy v) (f * rPys v) (pos + 3))
                           (gaus s (rPz v) (f * rPzs v) (pos + 4)) (bpMass bp)) b, (pos + 5)%nat)
  else Some (true, withEvent (V3 projX projY z) (setXYZM (rPx v) (rPy v) (rPz v) (bpMass bp)) b, pos).
(* beamAndVertexGenerator.cc 323-352: eventFromMomentaCorrectMomentumResolution *)
Definition eventCorrect (fuel : nat) (s : rng) (tg : target) (bp : beamPar) (pos : nat) (b : bvg) : option (bool * bvg * nat) :=
  do (b, pos) <- loadNext s pos b;
  do (z, pos) <- vertexZ fuel s tg pos b;
  let v := bVals b in
  do dxdz <- rdiv (rPx v) (rPz v);
  do dydz <- rdiv (rPy v) (rPz v);
  let projX := rX v + dxdz * (z - rZ v) in
  let projY := rY v + dydz * (z - rZ v) in
  let p := sqrt (rPx v * rPx v + rPy v * rPy v + rPz v * rPz v) in
  let b := withVals (withP p v) b in
  let res2 := bRes b * bRes b in
  let pdf2 := bPdfS b * bPdfS b in
  do ires <- rdiv 1 res2;
  do ipdf <- rdiv 1 pdf2;
  let truthSigma := 1 / sqrt (ires + ipdf) in
  do a <- rdiv p res2;
  do c <- rdiv (bPdfM b) pdf2;
  let truthMean := truthSigma * truthSigma * (a + c) in
  let truth := gaus s truthMean truthSigma pos in
  let norm := sqrt (dxdz * dxdz + dydz * dydz + 1) in
  Some (true, withEvent (V3 projX projY z) (setXYZM (truth * dxdz / norm) (truth * dydz / norm) (truth / norm) (bpMass bp)) b, S pos).

(* glue: sum over i < n *)
Definition sumTo (n : nat) (f : nat -> R) : R := fold_right Rplus 0 (map f (seq 0 n)).
(* eigenvalues and eigenvectors (columns) of a symmetric matrix, TMatrixDSymEigen, used in
   beamAndVertexGenerator.cc 496-498 *)
Definition eigen := (nat -> nat -> R) -> (nat -> R) * (nat -> nat -> R).
(* beamAndVertexGenerator.cc 485-508: multivariateGauss, for a mean of n elements *)
Definition multivariateGauss (eig : eigen) (s : rng) (n : nat) (mean : nat -> R) (covN : nat) (cov : nat -> nat -> R) (scale : R) (pos : nat)
  : option ((nat -> R) * nat) :=
  if negb (n =? covN)%nat then None
  else
    let '(vals, vecs) := eig cov in
    if negb (forallb (fun i => negb (rltb (vals i) 0)) (seq 0 n)) then None
    else
      let sample := fun i => gaus s 0 (scale * sqrt (vals i)) (pos + i) in
      Some (fun i => sumTo n (fun j => vecs i j * sample j) + mean i, (pos + n)%nat).
(* beamAndVertexGenerator.cc 355-389: eventFromInclinations *)
Definition eventFromInclinations (eig : eigen) (fuel : nat) (s : rng) (tg : target) (bp : beamPar) (pos : nat) (b : bvg) : option (bool * bvg * nat) :=
  do (b, pos) <- loadNext s pos b;
  do (z, pos) <- vertexZ fuel s tg pos b;
  let v := bVals b in
  let smearing := bSig b && negb (reqb (bScale b) 0) in
  let mean := fun i => nth i [rX v; rY v; rDx v; rDy v] 0 in
  do (sample, pos) <- (if smearing then multivariateGauss eig s 4 mean (rCovN v) (rCov v) (bScale b) pos else Some (mean, pos));
  let x := sample 0%nat in
  let y := sample 1%nat in
  let dxdz := sample 2%nat in
  let dydz := sample 3%nat in
  let norm := sqrt (dxdz * dxdz + dydz * dydz + 1) in
  let projX := x + dxdz * (z - rZ v) in
  let projY := y + dydz * (z - rZ v) in
  let p := if smearing then gaus s (rP v) (bScale b * rPs v) pos else rP v in
  let pos := if smearing then S pos else pos in
  Some (true, withEvent (V3 projX projY z) (setXYZM (p * dxdz / norm) (p * dydz / norm) (p / norm) (bpMass bp)) b, pos).
(* beamAndVertexGenerator.cc 238-260: event *)
Definition beamEvent (eig : eigen) (fuel : nat) (s : rng) (tg : target) (bp : beamPar) (pos : nat) (b : bvg) : option (bool * bvg * nat) :=
  match bMode b with
  | Simple => eventSimple fuel s tg bp pos b
  | FromMomenta => eventFromMomenta fuel s tg bp pos b
  | FromMomentaCorrect => eventCorrect fuel s tg bp pos b
  | FromInclinations => eventFromInclinations eig fuel s tg bp pos b
  end.
