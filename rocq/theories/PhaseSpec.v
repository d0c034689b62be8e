(* Specification for C72: what a generated event has to look like, independent of the algorithm. *)
From Coq Require Import List ZArith Reals Bool.
From Coquelicot Require Import Hierarchy RInt.
From Verif Require Import CGBoxModel PhysModel PhaseModel.
Import ListNotations.
Open Scope R_scope.

(* sum of four-momenta *)
Definition plus4 (p q : lv) : lv := Lv (lx p + lx q) (ly p + ly q) (lz p + lz q) (lt p + lt q).
Definition sum4 (l : list lv) : lv := fold_right plus4 (Lv 0 0 0 0) l.
(* E^2 - p^2 = m^2 *)
Definition hasMass (m : R) (p : lv) : Prop := lt p ^ 2 - lx p ^ 2 - ly p ^ 2 - lz p ^ 2 = m ^ 2.
Definition sumR (l : list R) : R := fold_right Rplus 0 l.

(* the sequence of two-body decays with effective masses Ms is possible: M[0] = m[0] and
   M[i-1] + m[i] <= M[i] *)
Definition allowedMasses (ms Ms : list R) : Prop :=
  length Ms = length ms /\ nth 0 Ms 0 = nth 0 ms 0
  /\ forall i, (1 <= i < length ms)%nat -> nth (i - 1) Ms 0 + nth i ms 0 <= nth i Ms 0.

(* an event of a decay of a system of momentum P into daughters of masses ms: energy and momentum
   are conserved, every daughter is on its mass shell and has positive energy, and the first
   i + 1 daughters together have mass Ms[i] *)
Definition isEvent (ms Ms : list R) (P : lv) (ds : list lv) : Prop :=
  length ds = length ms /\ sum4 ds = P
  /\ (forall i, (i < length ms)%nat -> hasMass (nth i ms 0) (nth i ds (Lv 0 0 0 0)) /\ 0 <= lt (nth i ds (Lv 0 0 0 0)))
  /\ (forall i, (i < length ms)%nat -> hasMass (nth i Ms 0) (sum4 (firstn (S i) ds))).

(* the decaying system can decay: positive energy, mass M at least the sum of the masses of the
   daughters; if the first two daughters are massless there must be some kinetic energy *)
Definition canDecay (ms : list R) (P : lv) (M : R) : Prop :=
  (2 <= length ms)%nat /\ Forall (fun m => 0 <= m) ms /\ 0 < lt P /\ 0 <= M /\ hasMass M P /\ sumR ms <= M
  /\ (sumR ms < M \/ 0 < nth 0 ms 0 + nth 1 ms 0).

(* random numbers lie in ]0, 1], randomNumberGenerator.h 18 *)
Definition uniform (rnd : nat -> R) : Prop := forall i, 0 < rnd i <= 1.
(* among the next [fuel] groups of k random numbers there is one without repetitions (this has
   probability one for large fuel) *)
Definition someDistinct (fuel : nat) (rnd : nat -> R) (pos k : nat) : Prop :=
  exists j, (j < fuel)%nat /\ NoDup (map rnd (seq (pos + j * k) k)).

(* the other functions of the interface *)
Inductive call :=
  | CWeightType (t : weightType) | CKinematicsType (t : kinematicsType) | CMaxWeight (w : R) | CReset
  | CMasses (M : list R) | CAngles (c p : list R) | CBreakup | CWeight | CKinematics (P : lv)
  | CPickMasses (M : R) | CPickAngles | CGenerate (P : lv) | CAccepted (P : lv) (w : R) | CEstimate (M : R) (n : nat).
Definition doCall (fuel : nat) (rnd : nat -> R) (c : call) (s : gen * nat) : option (gen * nat) :=
  let '(g, pos) := s in
  match c with
  | CWeightType t => Some (setWeightType t g, pos)
  | CKinematicsType t => Some (setKinematicsType t g, pos)
  | CMaxWeight w => Some (setMaxWeight w g, pos)
  | CReset => Some (resetMaxWeightObserved g, pos)
  | CMasses M => do g <- setMasses M g; Some (g, pos)
  | CAngles c p => do g <- setAngles c p g; Some (g, pos)
  | CBreakup => do g <- calcBreakupMomenta g; Some (g, pos)
  | CWeight => do g <- calcWeight g; Some (g, pos)
  | CKinematics P => do g <- calcEventKinematics P g; Some (g, pos)
  | CPickMasses M => pickMasses fuel rnd M pos g
  | CPickAngles => pickAngles rnd pos g
  | CGenerate P => do r <- generateDecay fuel rnd P pos g; Some (snd (fst r), snd r)
  | CAccepted P w => do r <- generateDecayAccepted fuel rnd P w pos g; Some (snd (fst r), snd r)
  | CEstimate M n => do r <- estimateMaxWeight fuel rnd M n pos g (Fin 0); Some (snd (fst r), snd r)
  end.
(* setMasses is called with the mass of the first daughter as mass of the one-body system *)
Definition respects (ms : list R) (c : call) : Prop := match c with CMasses M => nth 0 M 0 = nth 0 ms 0 | _ => True end.
(* an object whose last setDecay was given the masses ms, after any earlier and later calls *)
Definition usedFor (ms : list R) (g : gen) : Prop :=
  exists g0 g1 fuel rnd calls pos pos',
    setDecay ms g0 = Some (true, g1) /\ Forall (respects ms) calls
    /\ foldO (doCall fuel rnd) calls (g1, pos) = Some (g, pos').

(* as [usedFor], with the weight type unchanged since setDecay *)
Definition usedForSameType (ms : list R) (g : gen) : Prop :=
  exists g0 g1 fuel rnd calls pos pos',
    setDecay ms g0 = Some (true, g1) /\ Forall (respects ms) calls
    /\ Forall (fun c => match c with CWeightType _ => False | _ => True end) calls
    /\ foldO (doCall fuel rnd) calls (g1, pos) = Some (g, pos').

Definition prodR (l : list R) : R := fold_right Rmult 1 l.
(* break-up momentum of a two-body decay, from energy conservation *)
Definition isBreakup (M m1 m2 q : R) : Prop := 0 <= q /\ sqrt (m1 ^ 2 + q ^ 2) + sqrt (m2 ^ 2 + q ^ 2) = M.
(* the element of n-body phase space (Review of Particle Physics, "Kinematics"), integrated over
   all angles, per dM[1] ... dM[n-2]: the product of the two-body phase spaces
   q / (4 M) * 4 pi / (2 pi)^6 and of (2 pi)^3 d(M[i]^2) = (2 pi)^3 2 M[i] dM[i] *)
Definition phaseSpace (n : nat) (Ms qs : list R) : R :=
  prodR (map (fun i => nth i qs 0 / (4 * nth i Ms 0) * (4 * PI) / (2 * PI) ^ 6) (seq 1 (n - 1)))
  * prodR (map (fun i => (2 * PI) ^ 3 * (2 * nth i Ms 0)) (seq 1 (n - 2))).
(* the density with which the masses M[1] ... M[n-2] are generated as an ordered set of n - 2
   uniform random numbers in an interval of length M - (m[0] + ... + m[n-1]) *)
Definition orderedDensity (ms : list R) (M : R) : R :=
  INR (fact (length ms - 2)) / (M - sumR ms) ^ (length ms - 2).
(* the density of the mass y of the first i particles, of total mass s, in a system of mass M
   with a last particle of mass m *)
Definition oneMassDensity (i : nat) (m s M y : R) : R :=
  let u := (m / M) ^ 2 in let xMin := (s / M) ^ 2 in let x := (y / M) ^ 2 in
  let d := (1 - m / M) ^ 2 - xMin in let T := 1 + u - xMin in
  let p := 1 / (INR i - INR (i - 1) * d / T) in
  INR i * INR (i - 1) * p * ((x - xMin) / d) ^ (i - 2) * (1 + u - x) / (T * d) * (2 * y / M ^ 2).
Definition nuphazDensity (ms Ms : list R) : R :=
  prodR (map (fun i => oneMassDensity i (nth i ms 0) (sumR (firstn i ms)) (nth i Ms 0) (nth (i - 1) Ms 0)) (seq 2 (length ms - 2))).
(* The volume of the set of (r0, r1, r2) in the unit cube described by [ins] is v: the set is
   { r1 <= L r2 } for r0 < p and { r1 <= L0 } for p <= r0 *)
Definition hasVolume (ins : R -> R -> R -> Prop) (v : R) : Prop :=
  exists (p L0 : R) (L : R -> R) (I : R), 0 <= p <= 1 /\ 0 <= L0 <= 1 /\ (forall r2, 0 < r2 <= 1 -> 0 <= L r2 <= 1)
    /\ (forall r0 r1 r2, 0 < r0 <= 1 -> 0 < r1 <= 1 -> 0 < r2 <= 1 -> ins r0 r1 r2 <-> (r0 < p /\ r1 <= L r2) \/ (p <= r0 /\ r1 <= L0))
    /\ @is_RInt R_NormedModule L 0 1 I /\ v = p * I + (1 - p) * L0.
