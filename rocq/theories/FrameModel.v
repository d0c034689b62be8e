(* Model of the reference frames in which decay amplitudes are calculated:
   decayAmplitude/isobarAmplitude.cc (gjTransform, spaceInvertDecay, reflectDecay),
   decayAmplitude/isobarHelicityAmplitude.cc (hfTransform, transformDaughters),
   decayAmplitude/isobarCanonicalAmplitude.cc (transformDaughters),
   decayAmplitude/isobarDecayTopology.cc (calcIsobarLzVec), and of ROOT's TRotation and
   TLorentzRotation, as far as they are used there (C73, C74).

   double is R (no rounding); [None] is a division by zero or the square root of a negative
   number (the code would go on with inf or NaN).  Messages are left out. *)
From Coq Require Import List ZArith Reals Bool.
From Verif Require Import CGBoxModel PhysModel PhaseModel.
Import ListNotations.
Open Scope R_scope.

(* ---- C library and ROOT ---- *)
(* C library atan2, called by TVector3::Phi and Theta, isobarAmplitude.cc 163, 164 *)
Definition atan2 (y x : R) : R :=
  if rltb 0 x then atan (y / x)
  else if rltb x 0 then (if rltb y 0 then atan (y / x) - PI else atan (y / x) + PI)
  else if rltb 0 y then PI / 2 else if rltb y 0 then - (PI / 2) else 0.
(* TLorentzVector::Vect, isobarAmplitude.cc 160 *)
Definition vect (p : lv) : v3 := V3 (lx p) (ly p) (lz p).
(* TVector3::Cross, isobarAmplitude.cc 160 *)
Definition cross (a b : v3) : v3 :=
  V3 (vy a * vz b - vz a * vy b) (vz a * vx b - vx a * vz b) (vx a * vy b - vy a * vx b).
(* TVector3::Perp, used by Theta *)
Definition vPerp (a : v3) : R := sqrt (vx a * vx a + vy a * vy a).
(* TVector3::Phi, isobarAmplitude.cc 163 *)
Definition vPhi (a : v3) : R := if reqb (vx a) 0 && reqb (vy a) 0 then 0 else atan2 (vy a) (vx a).
(* TVector3::Theta, TLorentzVector::Theta, isobarAmplitude.cc 164, 173 *)
Definition vTheta (a : v3) : R :=
  if reqb (vx a) 0 && reqb (vy a) 0 && reqb (vz a) 0 then 0 else atan2 (vPerp a) (vz a).
(* signum, mathUtils.hpp 106-115 *)
Definition signum (x : R) : R := if rltb x 0 then -1 else if rltb 0 x then 1 else 0.

(* TRotation: the rows of a 3x3 matrix, isobarAmplitude.cc 162 *)
Record rot3 := R3 { rX : v3; rY : v3; rZ : v3 }.
(* TRotation::TRotation *)
Definition rotId : rot3 := R3 (V3 1 0 0) (V3 0 1 0) (V3 0 0 1).
(* linear combination of two rows, as in TRotation::RotateX etc. *)
Definition comb (a : R) (u : v3) (b : R) (v : v3) : v3 :=
  V3 (a * vx u + b * vx v) (a * vy u + b * vy v) (a * vz u + b * vz v).
(* TRotation::RotateX, isobarAmplitude.cc 164 *)
Definition rotateX (a : R) (r : rot3) : rot3 :=
  R3 (rX r) (comb (cos a) (rY r) (- sin a) (rZ r)) (comb (sin a) (rY r) (cos a) (rZ r)).
(* TRotation::RotateY, isobarAmplitude.cc 173 *)
Definition rotateY (a : R) (r : rot3) : rot3 :=
  R3 (comb (cos a) (rX r) (sin a) (rZ r)) (rY r) (comb (- sin a) (rX r) (cos a) (rZ r)).
(* TRotation::RotateZ, isobarAmplitude.cc 163 *)
Definition rotateZ (a : R) (r : rot3) : rot3 :=
  R3 (comb (cos a) (rX r) (- sin a) (rY r)) (comb (sin a) (rX r) (cos a) (rY r)) (rZ r).
(* scalar product of three-vectors *)
Definition vdot (a b : v3) : R := vx a * vx b + vy a * vy b + vz a * vz b.
(* TRotation::operator* applied to a TVector3; TLorentzVector::operator*=(const TRotation&),
   isobarAmplitude.cc 165, 166 *)
Definition rotVec (r : rot3) (p : lv) : lv :=
  Lv (vdot (rX r) (vect p)) (vdot (rY r) (vect p)) (vdot (rZ r) (vect p)) (lt p).

(* TRotation::operator*(const TRotation&) *)
Definition rotMul (a b : rot3) : rot3 :=
  let row u := V3 (vx u * vx (rX b) + vy u * vx (rY b) + vz u * vx (rZ b))
                  (vx u * vy (rX b) + vy u * vy (rY b) + vz u * vy (rZ b))
                  (vx u * vz (rX b) + vy u * vz (rY b) + vz u * vz (rZ b)) in
  R3 (row (rX a)) (row (rY a)) (row (rZ a)).
(* TRotation::Transform: multiply from the left, isobarHelicityAmplitude.cc 82 *)
Definition rotTransform (r b : rot3) : rot3 := rotMul b r.

(* TLorentzRotation: the rows x, y, z, t of a 4x4 matrix, isobarAmplitude.cc 168 *)
Record lrot := LR { qX : lv; qY : lv; qZ : lv; qT : lv }.
(* TLorentzRotation::TLorentzRotation *)
Definition lrotId : lrot := LR (Lv 1 0 0 0) (Lv 0 1 0 0) (Lv 0 0 1 0) (Lv 0 0 0 1).
(* product of a row with a vector, as in TLorentzRotation::VectorMultiplication, particle.h 101 *)
Definition rowDot (r p : lv) : R := lx r * lx p + ly r * ly p + lz r * lz p + lt r * lt p.
(* TLorentzRotation::VectorMultiplication; TLorentzVector::Transform and operator*= with a
   TLorentzRotation, isobarAmplitude.cc 170, particle.h 101 *)
Definition lapply (L : lrot) (p : lv) : lv :=
  Lv (rowDot (qX L) p) (rowDot (qY L) p) (rowDot (qZ L) p) (rowDot (qT L) p).
(* a row times a matrix, as in TLorentzRotation::MatrixMultiplication, isobarAmplitude.cc 176 *)
Definition rowMul (r : lv) (L : lrot) : lv :=
  Lv (lx r * lx (qX L) + ly r * lx (qY L) + lz r * lx (qZ L) + lt r * lx (qT L))
     (lx r * ly (qX L) + ly r * ly (qY L) + lz r * ly (qZ L) + lt r * ly (qT L))
     (lx r * lz (qX L) + ly r * lz (qY L) + lz r * lz (qZ L) + lt r * lz (qT L))
     (lx r * lt (qX L) + ly r * lt (qY L) + lz r * lt (qZ L) + lt r * lt (qT L)).
(* TLorentzRotation::MatrixMultiplication, isobarAmplitude.cc 176 *)
Definition lmul (A B : lrot) : lrot := LR (rowMul (qX A) B) (rowMul (qY A) B) (rowMul (qZ A) B) (rowMul (qT A) B).
(* TLorentzRotation::TLorentzRotation(const TRotation&), isobarAmplitude.cc 175 *)
Definition ofRot (r : rot3) : lrot :=
  LR (Lv (vx (rX r)) (vy (rX r)) (vz (rX r)) 0) (Lv (vx (rY r)) (vy (rY r)) (vz (rY r)) 0)
     (Lv (vx (rZ r)) (vy (rZ r)) (vz (rZ r)) 0) (Lv 0 0 0 1).
(* TLorentzRotation::SetBoost *)
Definition boostMat (b : v3) : option lrot :=
  let bp2 := vx b * vx b + vy b * vy b + vz b * vz b in
  do s <- osqrt (1 - bp2);
  do gamma <- rdiv 1 s;
  do bgamma <- rdiv (gamma * gamma) (1 + gamma);
  Some (LR (Lv (1 + bgamma * vx b * vx b) (bgamma * vx b * vy b) (bgamma * vx b * vz b) (gamma * vx b))
           (Lv (bgamma * vx b * vy b) (1 + bgamma * vy b * vy b) (bgamma * vy b * vz b) (gamma * vy b))
           (Lv (bgamma * vx b * vz b) (bgamma * vy b * vz b) (1 + bgamma * vz b * vz b) (gamma * vz b))
           (Lv (gamma * vx b) (gamma * vy b) (gamma * vz b) gamma)).
(* TLorentzRotation::Transform(const TLorentzRotation&) and Transform(const TRotation&): multiply
   from the left, isobarAmplitude.cc 176, 177 *)
Definition transform (L : lrot) (B : lrot) : lrot := lmul B L.
(* TLorentzRotation::Boost(const TVector3&), isobarAmplitude.cc 153, 169 *)
Definition lboost (L : lrot) (b : v3) : option lrot := do B <- boostMat b; Some (transform L B).
(* TLorentzRotation::Inverse, isobarAmplitude.cc 199, 220 *)
Definition linv (L : lrot) : lrot :=
  LR (Lv (lx (qX L)) (lx (qY L)) (lx (qZ L)) (- lx (qT L)))
     (Lv (ly (qX L)) (ly (qY L)) (ly (qZ L)) (- ly (qT L)))
     (Lv (lz (qX L)) (lz (qY L)) (lz (qZ L)) (- lz (qT L)))
     (Lv (- lt (qX L)) (- lt (qY L)) (- lt (qZ L)) (lt (qT L))).
(* TVector3 unary minus, isobarAmplitude.cc 147 *)
Definition vneg (b : v3) : v3 := V3 (- vx b) (- vy b) (- vz b).
(* TLorentzVector::operator==, isobarAmplitude.cc 139 *)
Definition lvEqb (p q : lv) : bool := reqb (lx p) (lx q) && reqb (ly p) (ly q) && reqb (lz p) (lz q) && reqb (lt p) (lt q).
(* TLorentzVector::operator+, isobarDecayVertex.cc 170 *)
Definition lvAdd (p q : lv) : lv := Lv (lx p + lx q) (ly p + ly q) (lz p + lz q) (lt p + lt q).

(* ---- frames ---- *)
(* isobarAmplitude.cc 162-164 and isobarHelicityAmplitude.cc 73-75: rotation that turns the given
   direction into the y direction *)
Definition rotToY (y : v3) : rot3 := rotateX (vTheta y - PI / 2) (rotateZ (PI / 2 - vPhi y) rotId).
(* isobarAmplitude.cc 172-173 and isobarHelicityAmplitude.cc 78-79 *)
Definition rotToZ (p : lv) : rot3 := rotateY (- signum (lx p) * vTheta (vect p)) rotId.

(* isobarAmplitude.cc 135-179 *)
Definition gjTransform (beamLv XLv : lv) : option lrot :=
  if lvEqb beamLv XLv then
    do b <- boostVector XLv;
    lboost lrotId (vneg b)
  else
    let rot1 := rotToY (cross (vect beamLv) (vect XLv)) in
    let beam := rotVec rot1 beamLv in
    let X := rotVec rot1 XLv in
    do b <- boostVector X;
    do boost <- lboost lrotId (vneg b);
    let rot2 := rotToZ (lapply boost beam) in
    Some (transform (transform (ofRot rot1) boost) (ofRot rot2)).

(* isobarHelicityAmplitude.cc 66-86 *)
Definition hfTransform (daughterLv : lv) : option lrot :=
  let rot1 := rotToY (cross (V3 0 0 1) (vect daughterLv)) in
  let daughter1 := rotVec rot1 daughterLv in
  let rot2 := rotToZ daughter1 in
  let daughter := rotVec rot2 daughter1 in
  do b <- boostVector daughter;
  lboost (ofRot (rotTransform rot1 rot2)) (vneg b).

(* isobarAmplitude.cc 193-197: TLorentzVector(-fsPartLv.Vect(), fsPartLv.E()) *)
Definition spaceInvert (p : lv) : lv := Lv (- lx p) (- ly p) (- lz p) (lt p).
(* isobarAmplitude.cc 214-218 *)
Definition reflectY (p : lv) : lv := Lv (lx p) (- ly p) (lz p) (lt p).
(* isobarAmplitude.cc 182-200: [ref] = referenceLzVec of the production vertex, [X] = momentum of
   X, [fs] = momenta of the final-state particles *)
Definition spaceInvertDecay (ref X : lv) (fs : list lv) : option (list lv) :=
  do G <- gjTransform ref X;
  Some (map (lapply (linv G)) (map spaceInvert (map (lapply G) fs))).
(* isobarAmplitude.cc 203-221 *)
Definition reflectDecay (ref X : lv) (fs : list lv) : option (list lv) :=
  do G <- gjTransform ref X;
  Some (map (lapply (linv G)) (map reflectY (map (lapply G) fs))).
