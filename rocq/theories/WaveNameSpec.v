(* Specification for C77: when two decay topologies describe the same wave as far as its name goes. *)
From Coq Require Import String Ascii List ZArith Bool Reals.
From Verif Require Import PathModel StrModel DecModel ParticleModel WaveSetModel WaveDescModel WaveNameModel.
Import ListNotations.
Open Scope list_scope. Open Scope Z_scope.

(* characters with a meaning in a wave name *)
Definition clean (s : str) : Prop := forall c, In c s -> c <> "["%char /\ c <> "]"%char /\ c <> "="%char /\ c <> ","%char.
(* a tag of a mass dependence: no characters with a meaning except a comma *)
Definition cleanTag (s : str) : Prop := forall c, In c s -> tagChar c = false.
(* the text of a number consists of digits, signs, points and exponents *)
Definition numText (s : str) : Prop := forall c, In c s -> numChar c = true.
(* parities are -1, 0 or 1; the parity of a state is known *)
Definition parities (p : pprops) : Prop := signum (pG p) = pG p /\ (pP p = 1 \/ pP p = -1) /\ signum (pC p) = pC p.
(* isobars and final-state particles with usable names *)
Fixpoint nameable (showD : R -> str) (d : wdecay) : Prop :=
  match d with
  | WFs p => clean (name (ptP p))
  | WNode p L Sp md d1 d2 => clean (name (ptP p)) /\ parities (ptP p) /\
      match md with MGlass g => cleanTag (gTag g) | MBinned lo hi => numText (showD lo) /\ numText (showD hi) | MPalano m => numText (showD m) | _ => True end /\
      nameable showD d1 /\ nameable showD d2
  end.
(* X particle *)
Definition nameableX (showD : R -> str) (d : wdecay) : Prop :=
  match d with
  | WFs _ => False
  | WNode p L Sp md d1 d2 => parities (ptP p) /\ signum (ptRefl p) = ptRefl p /\ nameable showD d1 /\ nameable showD d2
  end.

(* the same name, where parentheses and underscores are not distinguished *)
Definition sameName (p q : pprops) : Prop := repl (name p) = repl (name q).
(* the same isospin, spin and parities *)
Definition sameQn (p q : pprops) : Prop := pI p = pI q /\ pG p = pG q /\ pJ p = pJ q /\ pP p = pP q /\ pC p = pC q.
(* the same mass dependence of the same kind of isobar; a flat or binned isobar is known by its quantum numbers, any other
   one by its name *)
Definition sameIsobar (showD : R -> str) (m n : mdep) (p q : pprops) : Prop :=
  match m, n with
  | MFlat, MFlat => sameQn p q
  | MBinned lo hi, MBinned lo' hi' => sameQn p q /\ showD lo = showD lo' /\ showD hi = showD hi'
  | MGlass g, MGlass g' => repl (gTag g) = repl (gTag g') /\ sameName p q
  | MPalano mm, MPalano mm' => showD mm = showD mm' /\ sameName p q
  | MFlat, _ | _, MFlat | MBinned _ _, _ | _, MBinned _ _ | MGlass _, _ | _, MGlass _ | MPalano _, _ | _, MPalano _ => False
  | _, _ => mdName m = mdName n /\ sameName p q
  end.
(* the same final-state particle, or the same isobar with the same decay *)
Fixpoint sameDaughter (showD : R -> str) (d e : wdecay) : Prop :=
  match d, e with
  | WFs p, WFs q => sameName (ptP p) (ptP q)
  | WNode p L Sp md d1 d2, WNode q L' Sp' md' e1 e2 =>
      sameIsobar showD md md' (ptP p) (ptP q) /\ L = L' /\ Sp = Sp' /\ sameDaughter showD d1 e1 /\ sameDaughter showD d2 e2
  | _, _ => False
  end.
(* the same quantum numbers of X and the same decay *)
Definition sameWave (showD : R -> str) (d e : wdecay) : Prop :=
  match d, e with
  | WNode p L Sp md d1 d2, WNode q L' Sp' md' e1 e2 =>
      sameQn (ptP p) (ptP q) /\ ptM p = ptM q /\ ptRefl p = ptRefl q /\
      L = L' /\ Sp = Sp' /\ sameDaughter showD d1 e1 /\ sameDaughter showD d2 e2
  | _, _ => False
  end.

(* decays of isobars whose name survives a key file: a final-state particle next to an isobar comes second, and the upper
   limit of a Palano-Pennington amplitude prints as 2.4 *)
Fixpoint nameKept (showD : R -> str) (d : wdecay) : Prop :=
  match d with
  | WFs _ => True
  | WNode p L Sp md d1 d2 => match md with MPalano m => showD m = showD (24 / 10)%R | _ => True end /\ ~ (isFs d1 = true /\ isFs d2 = false) /\ nameKept showD d1 /\ nameKept showD d2
  end.
(* the same for the decay of X, whose mass dependence is not in the name *)
Definition nameKeptX (showD : R -> str) (d : wdecay) : Prop :=
  match d with
  | WFs _ => False
  | WNode p L Sp md d1 d2 => ~ (isFs d1 = true /\ isFs d2 = false) /\ nameKept showD d1 /\ nameKept showD d2
  end.
