(* Specification for C73: what a reference frame has to be. *)
From Coq Require Import Reals List.
From Verif Require Import PhaseModel PhaseSpec FrameModel.
Open Scope R_scope.

(* Minkowski product *)
Definition mink (p q : lv) : R := lt p * lt q - (lx p * lx q + ly p * ly q + lz p * lz q).
Definition det3 (a1 a2 a3 b1 b2 b3 c1 c2 c3 : R) : R :=
  a1 * (b2 * c3 - b3 * c2) - a2 * (b1 * c3 - b3 * c1) + a3 * (b1 * c2 - b2 * c1).
(* determinant of a 4x4 matrix, expanded along the first row *)
Definition det4 (L : lrot) : R :=
  let '(LR a b c d) := L in
  lx a * det3 (ly b) (lz b) (lt b) (ly c) (lz c) (lt c) (ly d) (lz d) (lt d)
  - ly a * det3 (lx b) (lz b) (lt b) (lx c) (lz c) (lt c) (lx d) (lz d) (lt d)
  + lz a * det3 (lx b) (ly b) (lt b) (lx c) (ly c) (lt c) (lx d) (ly d) (lt d)
  - lt a * det3 (lx b) (ly b) (lz b) (lx c) (ly c) (lz c) (lx d) (ly d) (lz d).
(* proper orthochronous Lorentz transformation *)
Record isLorentz (L : lrot) : Prop := {
  isl_mink : forall p q, mink (lapply L p) (lapply L q) = mink p q;
  isl_det : det4 L = 1;
  isl_future : forall p, 0 < lt p -> 0 < mink p p -> 0 < lt (lapply L p) }.

(* length of a three-vector *)
Definition norm3 (v : v3) : R := sqrt (vx v * vx v + vy v * vy v + vz v * vz v).
(* three-vector as four-vector without time component *)
Definition ofV3 (v : v3) : lv := Lv (vx v) (vy v) (vz v) 0.
(* a particle of mass M and positive energy *)
Definition massive (M : R) (p : lv) : Prop := 0 < M /\ 0 < lt p /\ hasMass M p.

(* the Gottfried-Jackson frame of X: X is at rest, the beam goes along z, the normal of the
   production plane spanned by the beam and X points along y *)
Record isGottfriedJackson (beam X : lv) (M : R) (G : lrot) : Prop := {
  gj_lorentz : isLorentz G;
  gj_X : lapply G X = Lv 0 0 0 M;
  gj_beam : exists p, 0 < p /\ lapply G beam = Lv 0 0 p (lt (lapply G beam));
  gj_normal : lapply G (ofV3 (cross (vect beam) (vect X))) = Lv 0 (norm3 (cross (vect beam) (vect X))) 0 0 }.

(* the helicity frame of a daughter of momentum d, given in the rest frame of its parent: the
   daughter is at rest, the parent goes along -z, and the y axis is z(parent) x d *)
Record isHelicityFrame (d : lv) (m : R) (H : lrot) : Prop := {
  hf_lorentz : isLorentz H;
  hf_daughter : lapply H d = Lv 0 0 0 m;
  hf_parent : lapply H (Lv 0 0 0 1) = Lv 0 0 (- (norm3 (vect d) / m)) (lt d / m);
  hf_normal : lapply H (ofV3 (cross (V3 0 0 1) (vect d))) = Lv 0 (norm3 (cross (V3 0 0 1) (vect d))) 0 0 }.

(* three-momentum of a particle in the rest frame of X, reached by a boost along X *)
Definition restMomentum (X : lv) (M : R) (p : lv) : v3 :=
  let k := (lx p * lx X + ly p * ly X + lz p * lz X) / (M * (lt X + M)) - lt p / M in
  V3 (lx p + k * lx X) (ly p + k * ly X) (lz p + k * lz X).
(* the horizontal direction in the production plane with normal n *)
Definition inPlane (n : v3) : v3 :=
  if Req_EM_T (vx n) 0 then if Req_EM_T (vy n) 0 then V3 0 (-1) 0 else V3 (vy n) (- vx n) 0 else V3 (vy n) (- vx n) 0.

(* four-vector times number *)
Definition scale4 (k : R) (p : lv) : lv := Lv (k * lx p) (k * ly p) (k * lz p) (k * lt p).
(* fs' has the same total momentum X and the same masses of all combinations as fs *)
Definition sameEvent (X : lv) (fs fs' : list lv) : Prop :=
  sum4 fs' = X /\ length fs' = length fs /\ (forall i j, mink (nth i fs' (Lv 0 0 0 0)) (nth j fs' (Lv 0 0 0 0)) = mink (nth i fs (Lv 0 0 0 0)) (nth j fs (Lv 0 0 0 0))).
