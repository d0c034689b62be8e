(* Specification for C83: histories of a model intensity and the intensity of a set of waves. *)
From Coq Require Import String Ascii List ZArith Bool Reals.
From Coquelicot Require Import Complex.
From Verif Require Import PathModel StrModel ParticleModel FitResultModel AmpIntModel AmpIntProofs IntensModel.
Import ListNotations.
Open Scope list_scope.
Open Scope nat_scope.

(* calls of a user and their results, the object after them *)
Inductive op := OAdd (a : decAmp) | OLoad (mat : aim) | OInit (fromX : bool) (prodNames decNames : list str).
Definition call (o : op) (m : mi) : option (bool * mi) :=
  match o with
  | OAdd a => addDecayAmplitude a m
  | OLoad mat => loadPhaseSpaceIntegral mat m
  | OInit fx pr de => initDecayAmplitudes fx pr de m
  end.
Inductive hist (fr : fitResult) : list (op * bool) -> mi -> Prop :=
  | HNew : hist fr [] (newMI fr)
  | HCall t m o b m' : hist fr t m -> call o m = Some (b, m') -> hist fr (t ++ [(o, b)]) m'.

(* the initialisation that counts: the last one, if it succeeded and no amplitude was added since *)
Definition initStep (s : option (bool * list str)) (ob : op * bool) : option (bool * list str) :=
  match ob with
  | (OAdd _, true) => None
  | (OInit fx _ de, true) => Some (fx, de)
  | (OInit _ _ _, false) => None
  | _ => s
  end.
Definition lastInit (t : list (op * bool)) : option (bool * list str) := fold_left initStep t None.
(* the phase-space integral of a wave in a matrix: root of the diagonal element, 1 for the flat wave *)
Definition normIn (mat : aim) (w : str) : R :=
  if str_eqb w (lit "flat") then 1%R
  else match waveIndex mat w with
       | Some k => match element mat k k with Some x => sqrt (Re x) | None => 0%R end
       | None => 0%R
       end.
(* the integrals that count: those of the last matrix if it had all waves, before that those of the fit
   result if it has as many as waves *)
Definition normStep (waves : list str) (s : option (list R)) (ob : op * bool) : option (list R) :=
  match ob with
  | (OLoad mat, true) => Some (map (normIn mat) waves)
  | (OLoad _, false) => None
  | _ => s
  end.
Definition lastNorms (fr : fitResult) (t : list (op * bool)) : option (list R) :=
  fold_left (normStep (frWaveNames fr)) t (if length (frPhaseSpace fr) =? length (frWaveNames fr) then Some (frPhaseSpace fr) else None).
(* the amplitude of wave number i, as added by the user *)
Definition addedAs (fr : fitResult) (t : list (op * bool)) (i : nat) (a : decAmp) : Prop :=
  nth_error (frWaveNames fr) i = Some (daName a) /\ In (OAdd a, true) t.
Definition isFlat (fr : fitResult) (i : nat) : Prop := nth_error (frWaveNames fr) i = Some (lit "flat").
(* whether the amplitude starts at the decay of X: always after initialising so, never if that was
   never asked for *)
Definition startsAtX (t : list (op * bool)) (fx c : bool) : Prop :=
  (fx = true -> c = true) /\ ((forall pr de b, ~ In (OInit true pr de, b) t) -> c = false).
(* waves of the same reflectivity interfere, waves of different reflectivity do not:
   sum over all pairs of equal reflectivity of z_i conj(z_j) *)
Definition interference (refl : nat -> Z) (z : nat -> C) (l : list nat) : C :=
  csumA (fun i => csumA (fun j => if (refl i =? refl j)%Z then z i * Cconj (z j) else RtoC 0)%C l) l.
(* reflectivity and contribution of a wave to the sum: production amplitude times normalised decay
   amplitude for the momenta; [fx], [de]: the initialisation that counts, [ps]: the integrals *)
Definition waveTerm (fr : fitResult) (t : list (op * bool)) (fx : bool) (de : list str) (ps : list R) (prod dec : list vec) (i : nat) (r : Z) (z : C) : Prop :=
  exists a c y n T, addedAs fr t i a /\ startsAtX t fx c /\ daEval a c de prod dec = Some y /\ nth_error ps i = Some n /\ n <> 0%R
    /\ nth_error (frAmps fr) i = Some T /\ r = daRefl a /\ z = (T * (y / RtoC n))%C.
(* indices of waves other than the flat wave *)
Definition proper (fr : fitResult) (idx : list nat) : Prop := forall i, In i idx -> exists w, nth_error (frWaveNames fr) i = Some w /\ w <> lit "flat".
(* mean over a sample *)
Definition mean {A} (f : A -> C) (l : list A) : C := (csumA f l / RtoC (INR (length l)))%C.
