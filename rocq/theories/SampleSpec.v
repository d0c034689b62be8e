(* Specification for C84: points of the sampled space, and what they stand for. *)
From Coq Require Import List ZArith Reals Bool.
From Verif Require Import CGBoxModel PhysModel PhaseModel PhaseSpec FrameModel ProdModel SampleModel.
Import ListNotations.
Open Scope R_scope.

(* a sampler constructed for daughters of masses ms and a range of the mass of X, after any calls of the
   other functions *)
Inductive made (ms : list R) (range : R * R) : sampler -> Prop :=
  | MNew model beam tp target recoil s : newSampler model beam tp target recoil ms range = Some s -> made ms range s
  | MPhase b s : made ms range s -> made ms range (setPhaseSpaceOnly b s)
  | MPrior f s : made ms range s -> made ms range (setMassPrior f s)
  | MFile ok store s : made ms range s -> made ms range (initializeFileWriter ok store s).

(* what a point means: three parameters for each daughter after the first one: the mass of the first
   i + 1 daughters, and the direction of daughter i in their rest frame *)
Definition pointMasses (ms pars : list R) : list R := nth 0 ms 0 :: map (fun i => nth (3 * i - 3) pars 0) (seq 1 (length ms - 1)).
Definition pointCos (ms pars : list R) (i : nat) : R := nth (3 * i - 2) pars 0.
Definition pointPhi (ms pars : list R) (i : nat) : R := nth (3 * i - 1) pars 0.
Definition massX (ms pars : list R) : R := nth (length ms - 1) (pointMasses ms pars) 0.
Definition isPoint (ms pars : list R) : Prop := length pars = (3 * (length ms - 1))%nat.
(* every decay of the chain has some kinetic energy *)
Definition insideMasses (ms Ms : list R) : Prop :=
  forall i, (1 <= i < length ms)%nat -> nth (i - 1) Ms 0 + nth i ms 0 < nth i Ms 0.
(* within the limits of a parameter; a fixed parameter has its value *)
Definition within (b : bcPar) (x : R) : Prop := match bFixed b with Some v => x = v | None => bLow b <= x <= bHigh b end.
(* the momentum given to the amplitude has the energy of its mass *)
Definition withMass (m : R) (v : v3) : lv := Lv (vx v) (vy v) (vz v) (sqrt (m * m + (vx v * vx v + vy v * vy v + vz v * vz v))).
(* calls of BAT for which an event is stored *)
Definition stored (lag : nat) (c : bool * nat * list R) : bool := fst (fst c) && (snd (fst c) mod lag =? 0)%nat.
(* momenta of the daughters with the index of the pair (a, b), b < a, of the list of all pairs
   (1, 0), (2, 0), (2, 1), (3, 0), ... *)
Definition pairIndex (a b : nat) : nat := a * (a - 1) / 2 + b.
(* natural logarithm of a probability density; that of zero is minus infinity *)
Definition isLog (x : R) (l : ieee) : Prop := (0 < x /\ l = Fin (ln x)) \/ (x = 0 /\ l = Inf true).
