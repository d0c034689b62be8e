(* Specification for C80: kinematics of the production beam + target -> X + recoil, independent of
   the algorithm. *)
From Coq Require Import List ZArith Reals Bool.
From Verif Require Import PhaseModel PhaseSpec FrameSpec ProdModel.
Import ListNotations.
Open Scope R_scope.

(* difference of four-momenta *)
Definition minus4 (p q : lv) : lv := Lv (lx p - lx q) (ly p - ly q) (lz p - lz q) (lt p - lt q).
(* square of a four-momentum *)
Definition inv2 (p : lv) : R := lt p ^ 2 - lx p ^ 2 - ly p ^ 2 - lz p ^ 2.
(* four-momentum transfer squared from the beam to X *)
Definition transfer (beam X : lv) : R := inv2 (minus4 X beam).
(* X is a possible outgoing system of mass mx if the recoil particle has mass mr: four-momentum is
   conserved, both are on their mass shells and have positive energy *)
Definition possible (beam target : lv) (mx mr : R) (X : lv) : Prop :=
  hasMass mx X /\ 0 <= lt X /\ hasMass mr (minus4 (plus4 beam target) X) /\ 0 <= lt (minus4 (plus4 beam target) X).
(* t' of X: by how much the four-momentum transfer squared differs from its largest possible value
   (that of smallest modulus) *)
Definition isTPrime (beam target : lv) (mx mr : R) (X : lv) (t' : R) : Prop :=
  (forall Y, possible beam target mx mr Y -> transfer beam Y <= transfer beam X + t')
  /\ exists Y, possible beam target mx mr Y /\ transfer beam Y = transfer beam X + t'.
(* a beam particle of mass mb that moves *)
Definition isBeam (mb : R) (beam : lv) : Prop :=
  0 <= mb /\ hasMass mb beam /\ 0 < lt beam /\ 0 < lx beam ^ 2 + ly beam ^ 2 + lz beam ^ 2.
(* a target particle at rest *)
Definition atRest (m : R) : lv := Lv 0 0 0 m.
(* an outgoing final state: on shell, positive energies *)
Definition onShell (ms : list R) (ds : list lv) : Prop :=
  length ds = length ms
  /\ forall i, (i < length ms)%nat -> hasMass (nth i ms 0) (nth i ds (Lv 0 0 0 0)) /\ 0 <= lt (nth i ds (Lv 0 0 0 0)).

(* objects that can be reached by calls of the interface, with any random numbers, mass ranges,
   pickers and beam generators; particles have masses that are not negative *)
Inductive reached : dps -> Prop :=
  | RNew : reached newDps
  | RSet d fuel rnd nIter range particles pos d' pos' : reached d -> Forall (fun q => 0 <= fst q) particles ->
      setDecayProducts fuel rnd nIter range particles pos d = Some (d', pos') -> reached d'
  | RAdd d fuel rnd nIter range q pos d' pos' : reached d -> 0 <= fst q ->
      addDecayProduct fuel rnd nIter range q pos d = Some (d', pos') -> reached d'
  | REvent d tries fuel rnd beamGen pick xMassMax mt mr pos n d' pos' : reached d ->
      event tries fuel rnd beamGen pick xMassMax mt mr pos d = Some (n, d', pos') -> reached d'.
(* the upper end of the slice of the mass range that contains m: of n equidistant points the first
   that is not smaller than m *)
Definition isSliceEnd (xMassMin xMassMax : R) (n : nat) (m e : R) : Prop :=
  m <= e /\ exists k, (1 <= k <= n)%nat /\ e = xMassMin + (xMassMax - xMassMin) / INR n * INR k
    /\ forall j, (1 <= j < k)%nat -> xMassMin + (xMassMax - xMassMin) / INR n * INR j < m.
(* a right-handed system of three orthogonal unit vectors, the third along the momentum of the beam *)
Definition beamAxes (beam : lv) (e1 e2 e3 : v3) : Prop :=
  vx e1 * vx e1 + vy e1 * vy e1 + vz e1 * vz e1 = 1 /\ vx e2 * vx e2 + vy e2 * vy e2 + vz e2 * vz e2 = 1
  /\ vx e1 * vx e2 + vy e1 * vy e2 + vz e1 * vz e2 = 0
  /\ vx e3 = vy e1 * vz e2 - vz e1 * vy e2 /\ vy e3 = vz e1 * vx e2 - vx e1 * vz e2 /\ vz e3 = vx e1 * vy e2 - vy e1 * vx e2
  /\ exists p, 0 < p /\ lx beam = p * vx e3 /\ ly beam = p * vy e3 /\ lz beam = p * vz e3.
