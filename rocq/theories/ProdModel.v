(* Model of the event generator for diffractive production, generators/diffractivePhaseSpace.{h,cc},
   of tPrime in utilities/physUtils.hpp and of the functions of ROOT's TVector3 that they call (C80).

   double is R (no rounding).  [None] is an abort ([throw;] without active exception), an access
   outside a vector, or a number that is not finite.  The random number generator is a stream of
   numbers and the position of the next one.

   Simplifications: of a particle only its mass and its Lorentz vector are kept; the generators of
   beam and vertex and of mass and t' are parameters of the model (functions of the random
   numbers; C81 and C82 model those of the code); messages and the production vertex are left
   out. *)
From Coq Require Import List ZArith Reals Bool.
From Verif Require Import ArrayModel CGBoxModel PhysModel PhaseModel FrameModel.
Import ListNotations.
Open Scope R_scope.

(* ---- ROOT ---- *)
(* TVector3::Mag2, TLorentzVector::P; used in diffractivePhaseSpace.cc 142 *)
Definition vMag2 (a : v3) : R := vx a * vx a + vy a * vy a + vz a * vz a.
(* TVector3::Mag, TLorentzVector::P; used in diffractivePhaseSpace.cc 142 and physUtils.hpp 66 *)
Definition vMag (a : v3) : R := sqrt (vMag2 a).
(* TVector3::Unit, used in diffractivePhaseSpace.cc 158: the zero vector is returned unchanged *)
Definition vUnit (a : v3) : v3 :=
  let tot2 := vMag2 a in
  let tot := if rltb 0 tot2 then 1 / sqrt tot2 else 1 in
  V3 (vx a * tot) (vy a * tot) (vz a * tot).
(* TVector3::RotateUz, used in diffractivePhaseSpace.cc 159 via TLorentzVector::RotateUz: z-axis to u *)
Definition rotateUz (u : v3) (p : lv) : lv :=
  let u1 := vx u in let u2 := vy u in let u3 := vz u in
  let up := u1 * u1 + u2 * u2 in
  let px := lx p in let py := ly p in let pz := lz p in
  if rltb 0 up then
    let up := sqrt up in
    Lv ((u1 * u3 * px - u2 * py + u1 * up * pz) / up)
       ((u2 * u3 * px + u1 * py + u2 * up * pz) / up)
       ((u3 * u3 * px - px + u3 * up * pz) / up)
       (lt p)
  else if rltb u3 0 then Lv (- px) py (- pz) (lt p)
  else p.
(* TRandom::Uniform(a, b): a + (b - a) * Rndm(); used in diffractivePhaseSpace.cc 150 *)
Definition uniformIn (a b r : R) : R := a + (b - a) * r.

(* ---- physUtils.hpp ---- *)
(* physUtils.hpp 52-69: tPrime *)
Definition tPrimeOf (lvBeam lvTarget lvOut : lv) : option R :=
  do b <- boostVector (lvAdd lvBeam lvTarget);
  let boostCm := vneg b in
  do lvBeam <- boost boostCm lvBeam;
  do lvOut <- boost boostCm lvOut;
  Some (2 * (vMag (vect lvBeam) * vMag (vect lvOut) - vdot (vect lvBeam) (vect lvOut))).

(* ---- diffractivePhaseSpace ---- *)
(* diffractivePhaseSpace.cc 114-163: calculateXSystemLab; r is the random number of line 150 *)
Definition calculateXSystemLab (beam : lv) (targetMass xMass recoilMass s tPrime r : R) : option lv :=
  do sqrtS <- osqrt s;
  let recoilMass2 := recoilMass * recoilMass in
  let xMass2 := xMass * xMass in
  do xEnergyCM <- rdiv (s - recoilMass2 + xMass2) (2 * sqrtS);
  do xMomCM <- osqrt (xEnergyCM * xEnergyCM - xMass2);
  let beamMass2 := lvM2 beam in
  let targetMass2 := targetMass * targetMass in
  do beamEnergyCM <- rdiv (s - targetMass2 + beamMass2) (2 * sqrtS);
  do beamMomCM <- osqrt (beamEnergyCM * beamEnergyCM - beamMass2);
  let t0 := (xEnergyCM - beamEnergyCM) * (xEnergyCM - beamEnergyCM) - (xMomCM - beamMomCM) * (xMomCM - beamMomCM) in
  let t := t0 - tPrime in
  let beamEnergy := lt beam in
  let beamMomentum := vMag (vect beam) in
  do reggeonEnergyLab <- rdiv (targetMass2 - recoilMass2 + t) (2 * targetMass);
  let xEnergyLab := beamEnergy + reggeonEnergyLab in
  do xMomLab <- osqrt (xEnergyLab * xEnergyLab - xMass2);
  do xCosThetaLab <- (if reqb tPrime 0 then Some 1
                      else rdiv (t - xMass2 - beamMass2 + 2 * beamEnergy * xEnergyLab) (2 * beamMomentum * xMomLab));
  do xSinThetaLab <- osqrt (1 - xCosThetaLab * xCosThetaLab);
  let xPtLab := xMomLab * xSinThetaLab in
  let xPhiLab := uniformIn 0 (2 * PI) r in
  let xSystemLab := Lv (xPtLab * cos xPhiLab) (xPtLab * sin xPhiLab) (xMomLab * xCosThetaLab) xEnergyLab in
  Some (rotateUz (vUnit (vect beam)) xSystemLab).

(* diffractivePhaseSpace.h 84-89, generator.h 70-77: the generator; masses and Lorentz vectors of
   _decayProducts, _phaseSpace, _maxXMassSlices, _maxWeightsForXMasses, Lorentz vectors of the beam
   and the recoil particle, _xMass, _tPrime *)
Record dps := Dps {
  dMasses : list R; dMom : list lv; dGen : gen; dSlices : list R; dWeights : list R;
  dBeam : lv; dRecoil : lv; dXMass : R; dTPrime : R }.
(* diffractivePhaseSpace.cc 45-53: construction; the other members are not initialized (zero here) *)
Definition newDps : dps :=
  Dps [] [] (setKinematicsType BLOCK (setWeightType S_U_CHUNG newGen)) [] [] (Lv 0 0 0 0) (Lv 0 0 0 0) 0 0.
(* diffractivePhaseSpace.h 89: _numberOfMassSlices *)
Definition maxSlices : nat := 10.
(* diffractivePhaseSpace.cc 94-101: the upper limits of the slices in mass *)
Definition sliceEdges (xMassMin xMassMax : R) : list R :=
  let n := if rltb (xMassMax - xMassMin) 0.5 then 1%nat else maxSlices in
  let width := (xMassMax - xMassMin) / INR n in
  map (fun i => xMassMin + width * INR i) (seq 1 n).
(* diffractivePhaseSpace.cc 102-108: maximal weight at the upper limit of each slice; nIter is
   1000000 in the code; a weight that is not finite is not modelled *)
Definition sliceWeights (fuel : nat) (rnd : nat -> R) (nIter : nat) (edges : list R) (s : gen * list R * nat)
  : option (gen * list R * nat) :=
  foldO (fun edge s =>
    let '(g, ws, pos) := s in
    do (w, g, pos) <- estimateMaxWeight fuel rnd edge nIter pos g (Fin 0);
    match w with
    | Fin x => let g := setMaxWeight (1.01 * x) g in Some (g, ws ++ [gMaxW g], pos)
    | _ => None
    end) edges s.
(* diffractivePhaseSpace.cc 73-111: buildDaughterList; [range] is massRange() of the picker, None if
   there is no picker *)
Definition buildDaughterList (fuel : nat) (rnd : nat -> R) (nIter : nat) (range : option (R * R)) (pos : nat) (d : dps)
  : option (dps * nat) :=
  if (1 <? length (dMasses d))%nat then
    do (_, g) <- setDecay (dMasses d) (dGen d);
    do (xMassMin, xMassMax) <- range;
    if rltb xMassMax xMassMin || negb (rltb 0 xMassMax) then None
    else
      let slices := dSlices d ++ sliceEdges xMassMin xMassMax in
      do (g, ws, pos) <- sliceWeights fuel rnd nIter slices (g, dWeights d, pos);
      Some (Dps (dMasses d) (dMom d) g slices ws (dBeam d) (dRecoil d) (dXMass d) (dTPrime d), pos)
  else Some (d, pos).
(* diffractivePhaseSpace.cc 56-62: setDecayProducts, for particles given by masses and Lorentz vectors *)
Definition setDecayProducts (fuel : nat) (rnd : nat -> R) (nIter : nat) (range : option (R * R))
    (particles : list (R * lv)) (pos : nat) (d : dps) : option (dps * nat) :=
  buildDaughterList fuel rnd nIter range pos
    (Dps (map fst particles) (map snd particles) (dGen d) (dSlices d) (dWeights d) (dBeam d) (dRecoil d) (dXMass d) (dTPrime d)).
(* diffractivePhaseSpace.cc 65-70: addDecayProduct *)
Definition addDecayProduct (fuel : nat) (rnd : nat -> R) (nIter : nat) (range : option (R * R))
    (particle : R * lv) (pos : nat) (d : dps) : option (dps * nat) :=
  buildDaughterList fuel rnd nIter range pos
    (Dps (dMasses d ++ [fst particle]) (dMom d ++ [snd particle]) (dGen d) (dSlices d) (dWeights d) (dBeam d) (dRecoil d)
         (dXMass d) (dTPrime d)).

(* diffractivePhaseSpace.cc 214-218: for(; _xMass > _maxXMassSlices[i]; ++i); and the weight found *)
Fixpoint sliceWeight (xMass : R) (slices ws : list R) : option R :=
  match slices, ws with
  | edge :: slices, w :: ws => if rltb edge xMass then sliceWeight xMass slices ws else Some w
  | _, _ => None
  end.
(* diffractivePhaseSpace.cc 234-256: one attempt to generate a decay; whether it was accepted *)
Definition attempt (fuel : nat) (rnd : nat -> R) (sqrtS targetMass xMassMax xMass : R) (X : lv) (pos : nat) (g : gen)
  : option (bool * gen * nat) :=
  do (g, pos) <- pickMasses fuel rnd xMass pos g;
  do qMax <- breakupMomentum sqrtS xMassMax targetMass;
  do ps2bodyWMax <- rdiv qMax sqrtS;
  do q <- breakupMomentum sqrtS xMass targetMass;
  do ps2bodyW <- rdiv q sqrtS;
  let maxPsWeight := gMaxW g * xMassMax * ps2bodyWMax in
  do g <- calcWeight g;
  let psWeight := imul (imul (gW g) (Fin xMass)) (Fin ps2bodyW) in
  if igtb (Fin (rnd pos)) (idiv psWeight (Fin maxPsWeight)) then Some (false, g, S pos)
  else
    do (g, pos) <- pickAngles rnd (S pos) g;
    do g <- calcEventKinematics X g;
    Some (true, g, pos).
(* diffractivePhaseSpace.cc 234-257: attempts until one is accepted; the number of attempts; None if
   the loop has not ended after [tries] rounds *)
Fixpoint attempts (tries fuel : nat) (rnd : nat -> R) (sqrtS targetMass xMassMax xMass : R) (X : lv) (pos : nat) (g : gen)
  : option (nat * gen * nat) :=
  match tries with
  | O => None
  | S tries =>
      do (ok, g, pos) <- attempt fuel rnd sqrtS targetMass xMassMax xMass X pos g;
      if ok : bool then Some (1%nat, g, pos)
      else
        do (n, g, pos) <- attempts tries fuel rnd sqrtS targetMass xMassMax xMass X pos g;
        Some (S n, g, pos)
  end.
(* the function object of the picker (generatorPickerFunctions.h 47): result, mass, t', position of
   the next random number *)
Definition picker := (nat -> R) -> nat -> option (bool * R * R * nat).
(* diffractivePhaseSpace.cc 207-212: pick mass and t' until they are allowed; None if the loop has
   not ended after [tries] rounds *)
Fixpoint pickMassAndT (tries : nat) (pick : picker) (rnd : nat -> R) (recoilMass sqrtS : R) (pos : nat) : option (R * R * nat) :=
  match tries with
  | O => None
  | S tries =>
      do (ok, m, t, pos) <- pick rnd pos;
      if negb ok then None
      else if rltb sqrtS (m + recoilMass) || rltb t 0 then pickMassAndT tries pick rnd recoilMass sqrtS pos
      else Some (m, t, pos)
  end.
(* diffractivePhaseSpace.cc 167-271: event; [beamGen] is the beam and vertex generator (result, beam,
   position of the next random number), xMassMax the upper end of massRange() of the picker *)
Definition event (tries fuel : nat) (rnd : nat -> R) (beamGen : (nat -> R) -> nat -> option (bool * lv * nat))
    (pick : picker) (xMassMax targetMass recoilMass : R) (pos : nat) (d : dps) : option (nat * dps * nat) :=
  do (ok, beam, pos) <- beamGen rnd pos;
  if negb ok then None
  else
    let targetLab := Lv 0 0 0 targetMass in
    let overallCm := lvAdd beam targetLab in
    if rltb (lvM overallCm) (xMassMax + targetMass) then None
    else
      do (xMass, tPrime, pos) <- pickMassAndT tries pick rnd recoilMass (lvM overallCm) pos;
      do w <- sliceWeight xMass (dSlices d) (dWeights d);
      let g := setMaxWeight w (dGen d) in
      let s := lvM2 overallCm in
      do sqrtS <- osqrt s;
      do X <- calculateXSystemLab beam targetMass xMass recoilMass s tPrime (rnd pos);
      let pos := S pos in
      let recoil := lvSub (lvAdd beam targetLab) X in
      do (n, g, pos) <- attempts tries fuel rnd sqrtS targetMass xMassMax xMass X pos g;
      if negb (length (gDau g) =? length (dMasses d))%nat then None
      else Some (n, Dps (dMasses d) (gDau g) g (dSlices d) (dWeights d) beam recoil xMass tPrime, pos).
