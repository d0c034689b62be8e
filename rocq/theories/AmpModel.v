(* Model of the calculation of a decay amplitude from the final-state momenta:
   decayAmplitude/isobarDecayTopology.cc (calcIsobarLzVec), isobarHelicityAmplitude.cc and
   isobarCanonicalAmplitude.cc (transformDaughters, twoBodyDecayAmplitude), isobarAmplitude.cc
   (spaceInvertDecay, reflectDecay, twoBodyDecayAmplitudeSum, symTermAmp) and utilities/dFunction.hpp
   (DFunction, DFunctionConj, DFunctionRefl, DFunctionReflConj, sphericalHarmonic).

   double is R and std::complex<double> is C (no rounding); [None] is a division by zero, the
   square root of a negative number or a call of [throw;].  Messages are left out.  Particles are
   numbers; what a particle object holds besides its momentum and its spin projection is constant
   during the calculation.  The answers of the caches of the Clebsch-Gordan coefficients and of the
   d-functions are those of a fresh cache (C04, C09). *)
From Coq Require Import List ZArith Reals Bool QArith Qreals.
From Coquelicot Require Import Complex.
From Verif Require Import CGBoxModel CGModel DFuncModel PhysModel PhaseModel FrameModel.
Import ListNotations.
Open Scope R_scope.

(* isobarDecayVertex.h 88-93: L, S and the mass dependence of a vertex; the mass dependence is a
   function of the masses of the parent and of the daughters (massDependence.cc 199-1010 read
   nothing else from the momenta of the vertex) *)
Record vtx := Vtx { vL : Z; vS : Z; vMassDep : R -> R -> R -> C }.
(* decayTopology.h 158-163: tree of the decay below a particle; final-state particle, or isobar
   (resp. X) with its decay vertex and the two daughters *)
Inductive topo := Fs (p : nat) | Iso (p : nat) (v : vtx) (d1 d2 : topo).
(* particleProperties.h 191-202, particle.h 131-139: J, P and reflectivity of the particles *)
Record parts := Parts { pJ : nat -> Z; pP : nat -> Z; pRefl : nat -> Z }.
(* isobarDecayVertex.h 70-76: parent(), daughter1(), daughter2() *)
Definition root (t : topo) : nat := match t with Fs p => p | Iso p _ _ _ => p end.
(* decayTopology.cc 1001-1020, decayGraph.hpp 637-654, 903-911: the decay vertices, depth first
   (a vertex is listed with the tree below it) *)
Fixpoint vertices (t : topo) : list topo :=
  match t with Fs _ => [] | Iso _ _ a b => t :: vertices a ++ vertices b end.
(* decayTopology.cc 1001-1020: the final-state particles *)
Fixpoint fsParts (t : topo) : list nat :=
  match t with Fs p => [p] | Iso _ _ a b => fsParts a ++ fsParts b end.
(* decayGraph.hpp 683-745: the edges of the subgraph that starts at a vertex *)
Fixpoint below (t : topo) : list nat :=
  match t with Fs _ => [] | Iso _ _ a b => root a :: below a ++ root b :: below b end.

(* particle.h 100-106: the momenta of the particles *)
Definition lvs := nat -> lv.
(* particle::setLzVec, particle.h 98; particle::setSpinProj, particle.h 92 *)
Definition upd {A} (s : nat -> A) (p : nat) (x : A) : nat -> A := fun q => if Nat.eqb q p then x else s q.

(* isobarDecayVertex.cc 164-175 *)
Definition calcParentLzVec (t : topo) (s : lvs) : lvs :=
  match t with Fs _ => s | Iso p _ a b => upd s p (lvAdd (s (root a)) (s (root b))) end.
(* isobarDecayTopology.cc 259-271 *)
Definition calcIsobarLzVec (t : topo) (s : lvs) : lvs := fold_left (fun s v => calcParentLzVec v s) (rev (vertices t)) s.
(* interactionVertex.cc 143-148, decayTopology.cc 239-245: loop over particles that are changed one by one *)
Definition mapParts (f : lv -> lv) (ps : list nat) (s : lvs) : lvs := fold_left (fun s p => upd s p (f (s p))) ps s.
(* the same where the change can fail, isobarHelicityAmplitude.cc 127-133, isobarCanonicalAmplitude.cc 104-110 *)
Definition mapPartsO (f : lv -> option lv) (ps : list nat) (s : lvs) : option lvs :=
  foldO (fun p s => do q <- f (s p); Some (upd s p q)) ps s.

(* isobarAmplitude.cc 182-200 *)
Definition spaceInvertState (ref : lv) (t : topo) (s : lvs) : option lvs :=
  do G <- gjTransform ref (s (root t));
  Some (mapParts (lapply (linv G)) (fsParts t) (mapParts spaceInvert (fsParts t) (mapParts (lapply G) (fsParts t) s))).
(* isobarAmplitude.cc 203-221 *)
Definition reflectState (ref : lv) (t : topo) (s : lvs) : option lvs :=
  do G <- gjTransform ref (s (root t));
  Some (mapParts (lapply (linv G)) (fsParts t) (mapParts reflectY (fsParts t) (mapParts (lapply G) (fsParts t) s))).

(* isobarHelicityAmplitude.cc 119-132: transformation of a particle below an isobar of momentum d *)
Definition helStep (d p : lv) : option lv := do H <- hfTransform d; Some (lapply H p).
(* isobarCanonicalAmplitude.cc 97-110, particle.h 102-106 *)
Definition canStep (d p : lv) : option lv := do b <- boostVector d; boost (vneg b) p.
(* isobarHelicityAmplitude.cc 91-135 with [step] = helStep, isobarCanonicalAmplitude.cc 65-112 with
   [step] = canStep; [ref] is the momentum that production vertex gives as reference *)
Definition transformDaughters (step : lv -> lv -> option lv) (inversion reflection : bool) (ref : lv) (t : topo) (s : lvs) : option lvs :=
  let s := calcIsobarLzVec t s in
  do s <- (if inversion then do s <- spaceInvertState ref t s; Some (calcIsobarLzVec t s) else Some s);
  do s <- (if reflection then do s <- reflectState ref t s; Some (calcIsobarLzVec t s) else Some s);
  do G <- gjTransform ref (s (root t));
  let s := fold_left (fun s v => match v with Fs _ => s | Iso _ _ a b => mapParts (lapply G) [root a; root b] s end) (vertices t) s in
  foldO (fun v s => mapPartsO (step (s (root v))) (below v) s) (tl (vertices t)) s.

(* spinUtils.hpp 375-411: clebschGordanCoeff *)
Definition clebsch (j1 m1 j2 m2 J M : Z) : option R :=
  match snd (cgCall cgInit j1 m1 j2 m2 J M) with
  | CGTerminate => None
  | CGVal CGZero => Some 0
  | CGVal (CGRoot A s) => Some (sqrt (Q2R A) * Q2R s)
  end.
(* dFunction.hpp 212-227 *)
Definition dFunction (j m n : Z) (theta : R) : option R :=
  match snd (dCall dInit j m n theta) with DTerm => None | DVal v => Some v end.
(* exp of an imaginary number, mathUtils.hpp 62 *)
Definition expI (x : R) : C := (cos x, sin x).
(* dFunction.hpp 253-275 *)
Definition DFunction (j m n : Z) (alpha beta gamma : R) : option C :=
  let arg := IZR m / 2 * alpha + IZR n / 2 * gamma in
  do d <- dFunction j m n beta; Some (expI (- arg) * d)%C.
(* dFunction.hpp 278-297 *)
Definition DFunctionConj (j m n : Z) (alpha beta gamma : R) : option C :=
  do D <- DFunction j m n alpha beta gamma; Some (Cconj D).
(* dFunction.hpp 300-340 *)
Definition DFunctionRefl (j m n P refl : Z) (alpha beta gamma : R) : option C :=
  let reflFactor := reflectivityFactor j P m refl in
  if (m =? 0)%Z then
    if (reflFactor =? 1)%Z then Some (RtoC 0) else DFunction j 0 n alpha beta gamma
  else
    do D1 <- DFunction j m n alpha beta gamma;
    do D2 <- DFunction j (- m) n alpha beta gamma;
    Some (RtoC (1 / sqrt 2) * (D1 - RtoC (IZR reflFactor) * D2))%C.
(* dFunction.hpp 343-368 *)
Definition DFunctionReflConj (j m n P refl : Z) (alpha beta gamma : R) : option C :=
  do D <- DFunctionRefl j m n P refl alpha beta gamma; Some (Cconj D).
(* dFunction.hpp 230-250 *)
Definition sphericalHarmonic (l m : Z) (theta phi : R) : option C :=
  do d <- dFunction l m 0 theta;
  Some (RtoC (sqrt (IZR (l + 1) / (4 * PI))) * expI (IZR m / 2 * phi) * RtoC d)%C.

(* TVector3::Mag, isobarHelicityAmplitude.cc 180 *)
Definition vMag (a : v3) : R := sqrt (vx a * vx a + vy a * vy a + vz a * vz a).
(* isobarDecayVertex.h 84: massDepAmplitude with the masses read as in massDependence.cc 222-224 *)
Definition massDepAmplitude (v : vtx) (parent d1 d2 : lv) : C := vMassDep v (lvM parent) (lvM d1) (lvM d2).

(* isobarHelicityAmplitude.cc 138-195; [pr], [a], [b]: parent and daughters of the vertex [v];
   [s] momenta, [h] spin projections *)
Definition helTwoBody (ps : parts) (useRefl top : bool) (s : lvs) (h : nat -> Z) (pr : nat) (v : vtx) (a b : nat) : option C :=
  let L := vL v in let S := vS v in let J := pJ ps pr in
  let lambda1 := h a in let lambda2 := h b in let lambda := (lambda1 - lambda2)%Z in
  do lsClebsch <- clebsch L 0 S lambda J lambda;
  if reqb lsClebsch 0 then Some (RtoC 0) else
  do ssClebsch <- clebsch (pJ ps a) lambda1 (pJ ps b) (- lambda2) S lambda;
  if reqb ssClebsch 0 then Some (RtoC 0) else
  let phi := vPhi (vect (s a)) in let theta := vTheta (vect (s a)) in
  do DFunc <- (if top && useRefl then DFunctionReflConj J (h pr) lambda (pP ps pr) (pRefl ps pr) phi theta 0
               else DFunctionConj J (h pr) lambda phi theta 0);
  let bf := barrierFactor L (vMag (vect (s a))) defaultPr in
  let bw := massDepAmplitude v (s pr) (s a) (s b) in
  let norm := sqrt (IZR (L + 1)) in
  Some (RtoC norm * DFunc * RtoC lsClebsch * RtoC ssClebsch * RtoC bf * bw)%C.

(* isobarCanonicalAmplitude.cc 155-171 *)
Definition lsCanonical (ps : parts) (useRefl top : bool) (pr : nat) (L S mL mS M : Z) : option R :=
  let J := pJ ps pr in
  if useRefl && top then
    let reflFactor := reflectivityFactor J (pP ps pr) M (pRefl ps pr) in
    if (M =? 0)%Z then
      if (reflFactor =? 1)%Z then Some 0 else clebsch L mL S mS J 0
    else
      do c1 <- clebsch L mL S mS J M;
      do c2 <- clebsch L mL S mS J (- M);
      Some (1 / sqrt 2 * (c1 - IZR reflFactor * c2))
  else clebsch L mL S mS J M.
(* isobarCanonicalAmplitude.cc 115-185 *)
Definition canTwoBody (ps : parts) (useRefl top : bool) (s : lvs) (h : nat -> Z) (pr : nat) (v : vtx) (a b : nat) : option C :=
  let S := vS v in let m1 := h a in let m2 := h b in let mS := (m1 + m2)%Z in
  do ssClebsch <- clebsch (pJ ps a) m1 (pJ ps b) m2 S mS;
  if reqb ssClebsch 0 then Some (RtoC 0) else
  let L := vL v in
  let bf := barrierFactor L (vMag (vect (s a))) defaultPr in
  let bw := massDepAmplitude v (s pr) (s a) (s b) in
  let norm := sqrt (4 * PI) in
  let phi := vPhi (vect (s a)) in let theta := vTheta (vect (s a)) in
  do amp <- foldO (fun mL amp =>
    do LSClebsch <- lsCanonical ps useRefl top pr L S mL mS (h pr);
    if reqb LSClebsch 0 then Some amp else
    do Y <- sphericalHarmonic L mL theta phi;
    Some (amp + RtoC LSClebsch * Y)%C) (stepUp (- L) L) (RtoC 0);
  Some (amp * (RtoC norm * RtoC ssClebsch * RtoC bf * bw))%C.

(* isobarAmplitude.cc 224-278: [tb top h p v a b] = twoBodyDecayAmplitude; the spin projections [h]
   are changed and read on the way *)
Fixpoint ampSum (ps : parts) (tb : bool -> (nat -> Z) -> nat -> vtx -> nat -> nat -> option C) (top : bool) (t : topo) (h : nat -> Z) : option ((nat -> Z) * C) :=
  match t with
  | Fs _ => Some (h, RtoC 1)   (* no decay vertex: lines 244, 254 *)
  | Iso p v a b =>
    foldO (fun lambda1 (st : (nat -> Z) * C) =>
      do (da : (nat -> Z) * C) <- ampSum ps tb false a (upd (fst st) (root a) lambda1);
      foldO (fun lambda2 (st : (nat -> Z) * C) =>
        do (db : (nat -> Z) * C) <- ampSum ps tb false b (upd (fst st) (root b) lambda2);
        do parentAmp <- tb top (fst db) p v (root a) (root b);
        Some (fst db, (snd st + parentAmp * snd da * snd db)%C))
        (stepUp (- pJ ps (root b)) (pJ ps (root b))) (fst da, snd st))
      (stepUp (- pJ ps (root a)) (pJ ps (root a))) (h, RtoC 0)
  end.

(* isobarHelicityAmplitude.h 47, isobarCanonicalAmplitude.h 48: the two classes *)
Inductive formalism := Helicity | Canonical.
(* isobarAmplitude.cc 281-294: amplitude for the final-state momenta [s] (of a symmetrisation term);
   [M] spin projection of X *)
Definition termAmp (f : formalism) (ps : parts) (useRefl inversion reflection : bool) (ref : lv) (t : topo) (s : lvs) (h : nat -> Z) : option C :=
  do s' <- transformDaughters (match f with Helicity => helStep | Canonical => canStep end) inversion reflection ref t s;
  do r <- ampSum ps (fun top h => (match f with Helicity => helTwoBody | Canonical => canTwoBody end) ps useRefl top s' h) true t h;
  Some (snd r).
