(* Specification for C65: what the resonance fit computes without a cache. *)
From Coq Require Import String Ascii List ZArith Bool Reals Lia.
From Coquelicot Require Import Complex.
From Verif Require Import PathModel StrModel CGBoxModel ParticleModel AmpIntModel ResCacheModel.
Import ListNotations.
Open Scope list_scope. Open Scope nat_scope.

(* ---- amplitudes as functions of the parameters ---- *)
(* the component's line shape *)
Definition directComp (md : model) (p : params) (i b : nat) (x : R) : C :=
  match nth_error (mComps md) i with Some o => oVal o (pPar p i) b x | None => RtoC 0 end.
(* coupling times branching times phase space *)
Definition directCoup (md : model) (p : params) (i ch b : nat) (x : R) (m : option nat) : C :=
  match nth_error (mComps md) i with
  | None => RtoC 0
  | Some o =>
      match nth_error (oChans o) ch with
      | None => RtoC 0
      | Some chan => (pCoup p i (nth ch (oChCoup o) 0) b * pBran p i (nth ch (oChBran o) 0) * RtoC (phaseSpaceAt chan b x m))%C
      end
  end.
(* the final-state mass-dependence: stored behind the last component *)
Definition directFsmd (md : model) (p : params) (b : nat) (x : R) : C :=
  match mFsmd md with
  | None => RtoC 1
  | Some f => match nth b (fFun f) None with
              | None => RtoC 1
              | Some fn => fn (fun i => pPar p (length (mComps md)) (nth b (fIndex f) 0 + i)) x
              end
  end.
Definition csum (l : list C) : C := fold_left Cplus l (RtoC 0).
(* sum over all decay channels, in any component, with the name of the wave *)
Definition directAmp (md : model) (p : params) (w b : nat) (x : R) (m : option nat) : C :=
  (csum (map (fun ic => directComp md p (fst ic) b x * directCoup md p (fst ic) (snd ic) b x m) (waveComponentChannel md b w))
   * directFsmd md p b x)%C.

(* ---- parameters as a function of the imported vector ---- *)
Inductive assign := AC (i k b : nat) (v : C) | AB (i k : nat) (v : C) | AP (i k : nat) (v : R).
Definition doAssign (p : params) (a : assign) : params :=
  match a with AC i k b v => setPCoup i k b v p | AB i k v => setPBran i k v p | AP i k v => setPPar i k v p end.
Definition assignAll (l : list assign) (p : params) : params := fold_left doAssign l p.

(* consecutive elements of par, from position off *)
Fixpoint takePairs (par : nat -> R) (off : nat) (l : list (nat * nat * nat)) : list assign :=
  match l with [] => [] | (i, k, b) :: t => AC i k b (par off, par (off + 1)) :: takePairs par (off + 2) t end.
Fixpoint takeBran (par : nat -> R) (off : nat) (l : list (nat * nat * bool)) : list assign :=
  match l with
  | [] => []
  | (i, k, true) :: t => AB i k (RtoC 1) :: takeBran par off t
  | (i, k, false) :: t => AB i k (par off, par (off + 1)) :: takeBran par (off + 2) t
  end.
Fixpoint takeSingle (par : nat -> R) (off : nat) (l : list (nat * nat)) : list assign :=
  match l with [] => [] | (i, k) :: t => AP i k (par off) :: takeSingle par (off + 1) t end.

(* couplings of one component: for each coupling, for each bin of the channel that defines it *)
Definition compCoup (o : component) : list (nat * nat * nat) :=
  flat_map (fun k => match nth_error (oFromCoup o) k with
    | Some master => match nth_error (oChans o) master with Some chan => map (fun b => (oId o, k, b)) (getBins chan) | None => [] end
    | None => [] end) (upTo (length (oFromCoup o))).
Definition compBran (o : component) : list (nat * nat * bool) := map (fun k => (oId o, k, nth k (oFixed o) true)) (upTo (length (oFixed o))).
Definition compPars (o : component) : list (nat * nat) := map (fun k => (oId o, k)) (upTo (oNPar o)).
Definition fsmdPars (n : nat) (f : fsmd) : list (nat * nat) :=
  map (fun k => (n, k)) (upTo (if fSame f then nth 0 (fNPar f) 0 else fold_left Nat.add (fNPar f) 0)).

Definition couplingCells (md : model) := flat_map compCoup (mComps md).
Definition branchingCells (md : model) := flat_map compBran (mComps md).
Definition parameterCells (md : model) :=
  flat_map compPars (mComps md) ++ match mFsmd md with Some f => fsmdPars (length (mComps md)) f | None => [] end.
Definition nFree (l : list (nat * nat * bool)) : nat := length (filter (fun x => negb (snd x)) l).

(* first all couplings, then all free branchings, then all other parameters *)
Definition assigns (md : model) (par : nat -> R) : list assign :=
  let o1 := 2 * length (couplingCells md) in
  let o2 := o1 + 2 * nFree (branchingCells md) in
  takePairs par 0 (couplingCells md) ++ takeBran par o1 (branchingCells md) ++ takeSingle par o2 (parameterCells md).
Definition paramsOf (md : model) (par : nat -> R) : params := assignAll (assigns md par) newParams.

(* results of a sequence of calls, starting with the parameters p *)
Fixpoint expected (md : model) (mc : nat -> nat -> R) (p : params) (h : list rcall) : list C :=
  match h with
  | [] => []
  | Import par :: t => expected md mc (paramsOf md par) t
  | Eval w b m :: t => directAmp md p w b (mc b m) (Some m) :: expected md mc p t
  | EvalAt w b x :: t => directAmp md p w b x None :: expected md mc p t
  end.

(* ---- well-formed fits ---- *)
(* groups of bins sharing a cached value: either every bin for itself, or bins with the same mass bins *)
Definition wfComp (md : model) (nm : list nat) (mc : nat -> nat -> R) (nch : nat) (o : component) : Prop :=
  length (oChans o) <= nch /\ length (oChCoup o) = length (oChans o) /\ length (oChBran o) = length (oChans o) /\
  Forall (fun k => k < length (oChans o)) (oFromCoup o) /\
  Forall (fun chan => chWave chan = readIndices (mWaves md) (chName chan)) (oChans o) /\
  (oEqual o = singleBins (length nm) \/ (oEqual o = massBinning nm mc /\ forall q b b' x, oVal o q b x = oVal o q b' x)).
Definition wfFsmd (nm : list nat) (mc : nat -> nat -> R) (id : nat) (f : fsmd) : Prop :=
  (exists fn npar, f = fsmdSame id nm mc fn npar) \/
  (exists fs npar, f = fsmdPerBin id fs npar /\ length fs = length nm /\ length npar = length nm /\
    forall b fn, nth_error fs b = Some fn -> forall q q' x, (forall i, i < nth b npar 0 -> q i = q' i) -> fn q x = fn q' x).
Record wfFit (md : model) (nm : list nat) (mc : nat -> nat -> R) (nw nch nmass : nat) : Prop := {
  wfIds : forall i o, nth_error (mComps md) i = Some o -> oId o = i;
  wfBins : length (mWaves md) = length nm;
  wfNm : Forall (fun n => n <= nmass) nm;
  wfWaves : Forall (fun l => NoDup l /\ length l <= nw) (mWaves md);
  wfComps : Forall (wfComp md nm mc nch) (mComps md);
  wfFs : forall f, mFsmd md = Some f -> wfFsmd nm mc (length (mComps md)) f }.
(* evaluations address an existing wave, bin and mass bin *)
Definition validCall (md : model) (nm : list nat) (c : rcall) : Prop :=
  match c with
  | Import _ => True
  | Eval w b m => b < length nm /\ w < length (nth b (mWaves md) []) /\ m < nth b nm 0
  | EvalAt w b _ => b < length nm /\ w < length (nth b (mWaves md) [])
  end.
(* the objects a new thread starts with *)
Definition fresh (md : model) (nm : list nat) (nw nch nmass : nat) : params * rcache :=
  (newParams, newCache nw (length (mComps md) + 1) nch (length nm) nmass).
