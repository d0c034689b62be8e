(* Specification for C82: intensities, quantiles, interpolation, settings. *)
From Coq Require Import List ZArith Reals Bool.
From Coquelicot Require Import Coquelicot.
From Verif Require Import PhaseSpec PickModel.
Import ListNotations.
Open Scope R_scope.

(* parameters p0, c1, a1, c2, a2, ... of the intensity exp(p0 t) + c1 exp(a1 t) + c2 exp(a2 t) + ... *)
Fixpoint pairsOf (l : list R) : list (R * R) := match l with c :: a :: r => (c, a) :: pairsOf r | _ => [] end.
Definition termsOf (p : list R) : list (R * R) := match p with [] => [] | a :: r => (1, a) :: pairsOf r end.
Definition sumTerms (f : R * R -> R) (l : list (R * R)) : R := fold_right Rplus 0 (map f l).
Definition intensity (p : list R) (t : R) : R := sumTerms (fun ca => fst ca * exp (snd ca * t)) (termsOf p).
(* all slopes are negative, all coefficients at least zero *)
Definition goodParams (p : list R) : Prop := p <> [] /\ List.Forall (fun ca => 0 <= fst ca /\ snd ca < 0) (termsOf p).
(* t is the point below which the intensity f has the fraction r of its integral over [lo, hi]: if r is
   uniform, t is distributed like f *)
Definition quantile (f : R -> R) (lo hi r t : R) : Prop :=
  lo <= t <= hi /\ exists N, is_RInt f lo hi N /\ is_RInt f lo t (r * N).
(* increasing masses *)
Fixpoint ordered (l : list (R * list R)) : Prop :=
  match l with [] => True | x :: r => (forall y, In y r -> fst x < fst y) /\ ordered r end.
(* parameters at a mass: linear between neighbouring masses, constant outside *)
Definition slopesAt (l : list (R * list R)) (m : R) (p : list R) : Prop :=
  (exists x, In x l /\ snd x = p /\ (forall y, In y l -> fst x <= fst y) /\ m <= fst x)
  \/ (exists x, In x l /\ snd x = p /\ (forall y, In y l -> fst y <= fst x) /\ fst x <= m)
  \/ (exists i m1 p1 m2 p2, nth_error l i = Some (m1, p1) /\ nth_error l (S i) = Some (m2, p2) /\ m1 < m <= m2 /\ length p = length p1
        /\ forall j, (j < length p)%nat -> nth j p 0 = nth j p1 0 + (nth j p2 0 - nth j p1 0) * ((m - m1) / (m2 - m1))).
(* value of an optional setting: the default if it is missing or not a floating-point number *)
Definition floatOr (e : option entry) (d : R) : R := match e with Some (EFloat x) => x | _ => d end.
(* the setting gives the masses and parameters [rows], as numbers or as arrays *)
Definition slopesEntry (arr : bool) (p : list R) : entry := if arr then EArray (map EFloat p) else EFloat (hd 0 p).
Definition describes (c : pconf) (arr : bool) (rows : list (R * list R)) : Prop :=
  cMasses c = Some (EArray (map (fun x => EFloat (fst x)) rows)) /\ cSlopes c = Some (EList (map (fun x => slopesEntry arr (snd x)) rows))
  /\ rows <> [] /\ (arr = false -> List.Forall (fun x => length (snd x) = 1%nat) rows) /\ (arr = true -> snd (hd (0, []) rows) <> []).
(* what is accepted *)
Definition acceptable (lo hi tlo thi : R) (rows : list (R * list R)) : Prop :=
  lo <= hi /\ tlo <= thi /\ Nat.odd (length (snd (hd (0, []) rows))) = true
  /\ List.Forall (fun x => ((length (snd x) + 1) / 2 = (length (snd (hd (0%R, []) rows)) + 1) / 2)%nat /\ goodParams (snd x)) rows.
(* parameters of the first row with that mass *)
Definition firstRow (rows : list (R * list R)) (m : R) (p : list R) : Prop :=
  exists i, nth_error rows i = Some (m, p) /\ forall j x, (j < i)%nat -> nth_error rows j = Some x -> fst x <> m.
(* a picker after a successful first initialisation and any changes of its mass range *)
Inductive ready : pk -> Prop :=
  | RdInit c k : initExp c newPk = Some (true, k) -> ready k
  | RdOver k lo hi k' : ready k -> overrideMassRange lo hi k = Some k' -> ready k'.
(* all parameter lists have the same length *)
Definition sameLengths (k : pk) : Prop := forall x y, In x (kSlopes k) -> In y (kSlopes k) -> length (snd x) = length (snd y).
(* the mass is not exactly the smallest of several masses *)
Definition notFirst (k : pk) (m : R) : Prop := (2 <= length (kSlopes k))%nat -> forall x, hd_error (kSlopes k) = Some x -> m <> fst x.
