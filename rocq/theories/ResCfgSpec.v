(* What a user relies on in the configuration files of the resonance fit (C88). *)
From Coq Require Import Ascii String List Bool Arith ZArith.
From Verif Require Import ResCfgModel.
Import ListNotations.
Open Scope list_scope.
Open Scope nat_scope.

(* numbers are read as they were written, equality of numbers is equality *)
Definition lawful {D} (L : lib D) : Prop :=
  (forall x, readD L (showD L x) = Some x) /\ (forall z, readI L (showI L z) = Some z) /\ (forall b, readB L (showB L b) = Some b) /\
  (forall x y, numEq L x y = true <-> x = y).
Section S.
Context {D : Type} (L : lib D).
(* a mass limit; a negative number is none *)
Definition limit (x : D) : option D := if numGe0 L x then Some x else None.
(* the limit or the number for none *)
Definition limitOr (x : D) : D := if numGe0 L x then x else minusOne L.
Definition sameWave (a b : wave D) : Prop := wName b = wName a /\ wLow b = limitOr (wLow a) /\ wUp b = limitOr (wUp a).
Definition sameBin (a b : inBin D) : Prop :=
  bName b = bName a /\ bTPrime b = bTPrime a /\ bRescale b = bRescale a /\ bSys b = bSys a /\ Forall2 sameWave (bWaves a) (bWaves b).
(* a limit of a parameter *)
Definition lower (p : param D) : option D := if pHasLower p then Some (pLower p) else None.
Definition upper (p : param D) : option D := if pHasUpper p then Some (pUpper p) else None.
(* b is the parameter a after the fit: the fitted value and its error are the values to start with *)
Definition sameParam (value error : D) (a b : param D) : Prop :=
  pName b = pName a /\ pFix b = pFix a /\ lower b = lower a /\ upper b = upper a /\ pStep b = pStep a /\ pStart b = value /\ pError b = error.
(* parameters of a component or formula with numbers off, off+1, ... *)
Definition sameParams (id off : nat) (fp fe : pars D) (a b : list (param D)) : Prop :=
  length b = length a /\ forall i p q, nth_error a i = Some p -> nth_error b i = Some q -> sameParam (fPar fp id (off + i)) (fPar fe id (off + i)) p q.
Definition sameComponent (fp fe : pars D) (a b : component D) : Prop :=
  cId b = cId a /\ cName b = cName a /\ cKind b = cKind a /\ cChans b = cChans a /\ cMaps b = cMaps a /\
  sameParams (cId a) 0 fp fe (cPars a) (cPars b).
(* number of the first parameter of the formula of a bin *)
Definition offset (fs : list (string * list (param D))) (n : nat) : nat := list_sum (map (fun f => length (snd f)) (firstn n fs)).
Definition sameFsmd (fp fe : pars D) (a b : fsmd D) : Prop :=
  fId b = fId a /\ fSame b = fSame a /\ length (fFuns b) = length (fFuns a) /\
  forall n f g, nth_error (fFuns a) n = Some f -> nth_error (fFuns b) n = Some g ->
    fst g = fst f /\ sameParams (fId a) (offset (fFuns a) n) fp fe (snd f) (snd g).
(* the numbers of a component that a fit determines: its parameters, its couplings, its branchings *)
Definition samePars (fp fp' : pars D) (c : component D) : Prop :=
  (forall i, i < length (cPars c) -> fPar fp' (cId c) i = fPar fp (cId c) i) /\
  (forall k ch b, k < length (mFromCoup (cMaps c)) -> nth_error (cChans c) (nth k (mFromCoup (cMaps c)) 0) = Some ch -> In b (snd ch) ->
     fCoup fp' (cId c) k b = fCoup fp (cId c) k b) /\
  (cChans c <> [] -> forall k, k < nrBranchings c -> fBr fp' (cId c) k = fBr fp (cId c) k).

(* ---- fits that can exist ---- *)
(* the constructor accepts the data of the component, its branching ratios have been normalised *)
Definition constructed (useBr : bool) (nrBins : nat) (c : component D) : Prop :=
  construct L useBr nrBins (cId c) (cName c) (cKind c) (cPars c) (cChans c) = Some c.
(* decay channels: every wave once, the bins are those with the wave *)
Definition binsWith (input : list (inBin D)) (w : string) (b : nat) : Prop := exists x, nth_error input b = Some x /\ In w (map (@wName D) (bWaves x)).
Definition increasing (l : list nat) : Prop := forall i j a b, i < j -> nth_error l i = Some a -> nth_error l j = Some b -> a < b.
Definition goodChannels (input : list (inBin D)) (chans : list (string * list nat)) : Prop :=
  NoDup (map fst chans) /\ forall ch, In ch chans -> snd ch <> [] /\ increasing (snd ch) /\ forall b, In b (snd ch) <-> binsWith input (fst ch) b.
(* a phase-space integral has two points or more, masses do not decrease *)
Definition goodIntegral (ig : list (D * D)) : Prop :=
  2 <= length ig /\ forall i x y, nth_error ig i = Some x -> nth_error ig (S i) = Some y -> numGt L (fst x) (fst y) = false.
Definition goodKind (input : list (inBin D)) (k : kind D) : Prop :=
  match k with
  | IntegralWidth _ igs => Forall goodIntegral igs
  | ExpBgInt ig _ => goodIntegral ig
  | TPrimeBgInt tm ig _ => goodIntegral ig /\ tm = map (@bTPrime D) input
  | TPrimeBg tm _ _ _ _ => tm = map (@bTPrime D) input
  | _ => True
  end.
Definition goodInput (input : list (inBin D)) : Prop := forall b, In b input -> NoDup (map (@wName D) (bWaves b)).
Definition goodComponent (useBr : bool) (input : list (inBin D)) (fp : pars D) (c : component D) : Prop :=
  constructed useBr (length input) c /\ goodChannels input (cChans c) /\ goodKind input (cKind c) /\
  forall k, k = 0 \/ nth k (mFixed (cMaps c)) false = true -> fBr fp (cId c) k = (numOne L, numZero L).
Definition goodFsmd (nrBins nrComps : nat) (f : fsmd D) : Prop :=
  fId f = nrComps /\ length (fFuns f) = (if fSame f then 1 else nrBins) /\
  forall g, In g (fFuns f) -> map (@pName D) (snd g) = formulaPars L (fst g) /\ NoDup (formulaPars L (fst g)) /\ ~ In "formula"%string (formulaPars L (fst g)).
Definition goodModel (useBr : bool) (input : list (inBin D)) (fp : pars D) (m : fitModel D) : Prop :=
  map (@cId D) (mComps m) = seq 0 (length (mComps m)) /\ NoDup (map (@cName D) (mComps m)) /\
  Forall (goodComponent useBr input fp) (mComps m) /\ (forall f, mFsmd m = Some f -> goodFsmd (length input) (length (mComps m)) f).
(* everything the fit determines is the same *)
Definition sameFit (m m' : fitModel D) (fp fe fp' fe' : pars D) : Prop :=
  mAnchors m' = mAnchors m /\ Forall2 (sameComponent fp fe) (mComps m) (mComps m') /\
  (forall f, mFsmd m = Some f -> exists f', mFsmd m' = Some f' /\ sameFsmd fp fe f f' /\
     forall i, i < list_sum (map (fun g => length (snd g)) (fFuns f)) -> fPar fp' (fId f) i = fPar fp (fId f) i /\ fPar fe' (fId f) i = fPar fe (fId f) i) /\
  Forall (samePars fp fp') (mComps m) /\
  (forall c i, In c (mComps m) -> i < length (cPars c) -> fPar fe' (cId c) i = fPar fe (cId c) i).
End S.
