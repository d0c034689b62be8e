(* What a user relies on in the fit of resonances to production amplitudes (C87), stated without the functions of
   PaChiModel. *)
From Coq Require Import List Reals Bool Arith ZArith.
From Coquelicot Require Import Hierarchy Complex Derive.
From Verif Require Import ChiModel ChiSpec PaChiModel.
Import ListNotations.
Open Scope R_scope.

(* a real number of the data: wave and part, 0 for the real, 1 for the imaginary part *)
Definition comp := (nat * nat)%type.
Definition part (e : nat) (z : C) : R := match e with O => Re z | _ => Im z end.
(* waves fitted in a mass bin *)
Definition fittedWaves (p : paIn) (m : nat) : list nat := filter (fitted (paBin p) m) (seq 0 (nrWaves (paBin p))).
(* the real numbers compared: the anchor wave is real *)
Definition comps (p : paIn) (m : nat) : list comp :=
  flat_map (fun w => if Nat.eqb w (paAnchor p) then [(w, 0%nat)] else [(w, 0%nat); (w, 1%nat)]) (fittedWaves p m).
(* real and imaginary parts of all waves *)
Definition allParts (p : paIn) : list comp := flat_map (fun w => [(w, 0%nat); (w, 1%nat)]) (seq 0 (nrWaves (paBin p))).
(* all amplitudes with the phase of the anchor wave taken out *)
Definition rotated (a : nat) (A : nat -> C) (w : nat) : C := (A w / (A a / RtoC (Cmod (A a))))%C.
(* one part of one amplitude changed by t *)
Definition bump (A : nat -> C) (k : comp) (t : R) : nat -> C :=
  fun w => if Nat.eqb w (fst k) then Cplus (A w) (match snd k with O => (t, 0%R) | _ => (0%R, t) end) else A w.
(* J holds the derivatives of the rotated amplitudes with respect to the measured ones *)
Definition isJacobian (p : paIn) (m : nat) (J : comp -> comp -> R) : Prop :=
  forall c k, In c (comps p m) -> In k (allParts p) ->
    is_derive (K := R_AbsRing) (V := R_NormedModule) (fun t : R => part (snd c) (rotated (paAnchor p) (bump (paAmp p m) k t) (fst c))) 0 (J c k).
(* sum over a list *)
Definition sumOver (l : list comp) (f : comp -> R) : R := total (map f l).
(* measured covariance, with the error scale *)
Definition measured (p : paIn) (m : nat) (c c' : comp) : R :=
  paCovRead p m (2 * fst c + snd c)%nat (2 * fst c' + snd c')%nat * bRescale (paBin p).
(* covariance of the rotated amplitudes: linear propagation *)
Definition propagated (p : paIn) (m : nat) (J : comp -> comp -> R) (c c' : comp) : R :=
  sumOver (allParts p) (fun k => sumOver (allParts p) (fun l => J c k * measured p m k l * J c' l)).
(* the anchor wave was not real in the analysis of the mass bin *)
Definition complexAmp (p : paIn) (m w : nat) : Prop :=
  Im (paAmp p m w) <> 0 \/ measured p m (w, 0%nat) (w, 1%nat) <> 0 \/ measured p m (w, 1%nat) (w, 0%nat) <> 0 \/ measured p m (w, 1%nat) (w, 1%nat) <> 0.
(* no data at all *)
Definition noData (p : paIn) (m w : nat) : Prop :=
  paAmp p m w = (0, 0) /\ (forall e e', (e < 2)%nat -> (e' < 2)%nat -> measured p m (w, e) (w, e') = 0).
(* part of the covariance that is used *)
Definition masked (uc : covUse) (V : comp -> comp -> R) (c c' : comp) : R :=
  match uc with
  | UseFull => V c c'
  | UseComplexDiagonal => if Nat.eqb (fst c) (fst c') then V c c' else 0
  | UseDiagonal => if Nat.eqb (fst c) (fst c') && Nat.eqb (snd c) (snd c') then V c c' else 0
  end.
(* V and W are inverse to each other *)
Definition inverseOn (l : list comp) (V W : comp -> comp -> R) : Prop :=
  forall c c', In c l -> In c' l ->
    let one := if Nat.eqb (fst c) (fst c') && Nat.eqb (snd c) (snd c') then 1 else 0 in
    sumOver l (fun k => V c k * W k c') = one /\ sumOver l (fun k => W c k * V k c') = one.
(* deviation of the model from the data, both with the anchor wave real and positive *)
Definition deviation (p : paIn) (m : nat) (fit : nat -> C) (c : comp) : R :=
  part (snd c) (rotated (paAnchor p) fit (fst c) - rotated (paAnchor p) (paAmp p m) (fst c))%C.
(* chi-square of one mass bin with the inverse covariance W *)
Definition quadratic (p : paIn) (m : nat) (W : comp -> comp -> R) (fit : nat -> C) : R :=
  sumOver (comps p m) (fun c => sumOver (comps p m) (fun c' => deviation p m fit c * W c c' * deviation p m fit c')).
(* sum over bins and mass bins *)
Definition chiProdOf (bins : list paIn) (Ws : list (nat -> comp -> comp -> R)) (fits : list (nat -> nat -> C)) : R :=
  total (map (fun x => let '(p, (W, fit)) := x in total (map (fun m => quadratic p m (W m) (fit m)) (seq 0 (nrMassBins (paBin p)))))
             (combine bins (combine Ws fits))).
(* the covariance used in a mass bin is V: as measured if the anchor wave was real and positive, propagated otherwise *)
Definition covarianceOf (p : paIn) (m : nat) (V : comp -> comp -> R) : Prop :=
  (~ complexAmp p m (paAnchor p) /\ 0 < Re (paAmp p m (paAnchor p)) /\ V = measured p m) \/
  (complexAmp p m (paAnchor p) /\ exists J, isJacobian p m J /\ V = propagated p m J).
(* a complex anchor wave is fitted where any wave is *)
Definition anchorUsed (p : paIn) : Prop := forall m w, (m < nrMassBins (paBin p))%nat -> complexAmp p m (paAnchor p) ->
  (w < nrWaves (paBin p))%nat -> fitted (paBin p) m w = true -> fitted (paBin p) m (paAnchor p) = true.
(* amplitudes that can be fitted: the anchor wave does not vanish, no other wave is real, fitted waves have data *)
Definition amplitudesGiven (p : paIn) : Prop :=
  (paAnchor p < nrWaves (paBin p))%nat /\
  forall m, (m < nrMassBins (paBin p))%nat -> paAmp p m (paAnchor p) <> (0, 0) /\
    forall w, (w < nrWaves (paBin p))%nat -> w <> paAnchor p -> complexAmp p m w \/ (noData p m w /\ fitted (paBin p) m w = false).
(* W m is the inverse of the used covariance for every mass bin *)
Definition weights (uc : covUse) (p : paIn) (W : nat -> comp -> comp -> R) : Prop :=
  forall m, (m < nrMassBins (paBin p))%nat -> exists V, covarianceOf p m V /\ inverseOn (comps p m) (masked uc V) (W m).
(* number of real numbers compared *)
Definition dataPointsProd (bins : list paIn) : nat :=
  list_sum (map (fun p => list_sum (map (fun m => length (comps p m)) (seq 0 (nrMassBins (paBin p))))) bins).
(* every wave is fitted in at least one mass bin *)
Definition everyWaveFitted (b : binIn) : Prop := forall w, (w < nrWaves b)%nat -> exists m, (m < nrMassBins b)%nat /\ fitted b m w = true.
