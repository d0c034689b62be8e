(* C91: release orders, layout of the variables and histories of minimisation steps. *)
From Coq Require Import String Ascii List ZArith Bool Reals.
From Coquelicot Require Import Complex.
From Verif Require Import PathModel StrModel DecModel CGBoxModel ParticleModel AmpIntModel ResCacheModel ResTransSpec MinimModel.
Import ListNotations.
Open Scope list_scope. Open Scope nat_scope.

(* t is one of the words of a release order: not empty, without blanks, between blanks or the ends of the text *)
Definition blank (c : ascii) : Prop := c = " "%char \/ c = "009"%char \/ c = "010"%char.
Definition isWord (rel t : str) : Prop :=
  t <> [] /\ (forall c, In c t -> ~ blank c) /\ exists pre post, rel = pre ++ t ++ post
  /\ (pre = [] \/ exists q c, pre = q ++ [c] /\ blank c) /\ (post = [] \/ exists c q, post = c :: q /\ blank c).
(* text before and after the first "=" *)
Definition cutAt (s a b : str) : Prop := (s = a ++ "="%char :: b /\ ~ In "="%char a) \/ (~ In "="%char s /\ a = s /\ b = s).

(* a fit that can be started: that of C65 with parameters for each component and formula *)
Record wfMin (f : fitModel) (nm : list nat) (mc : nat -> nat -> R) (nw nch nmass : nat) : Prop := {
  wmFit : wfFit (fmModel f) nm mc nw nch nmass;
  wmCache : fmCache f = newCache nw (length (mComps (fmModel f)) + 1) nch (length nm) nmass;
  wmComps : length (fmComps f) = length (mComps (fmModel f));
  wmPars : forall i o c, nth_error (mComps (fmModel f)) i = Some o -> nth_error (fmComps f) i = Some c ->
    length (mcPars c) = oNPar o /\ length (mcFromBran c) = length (oFixed o) /\ Forall (fun ms => ms < length (oChans o)) (mcFromBran c);
  wmFsmd : forall d, mFsmd (fmModel f) = Some d -> forall b, b < (if fSame d then 1 else length (fFun d)) -> length (nth b (fmFsmd f) []) = nth b (fNPar d) 0 }.
(* the model was accepted by model.cc, couplings belong to the first of the decay channels that share them, and these have
   the same bins *)
Definition accepted (f : fitModel) : Prop := forall b, b < length (mWaves (fmModel f)) -> anchorOf f b <> None.
Definition sharing (f : fitModel) : Prop := forall i o, nth_error (mComps (fmModel f)) i = Some o ->
  (forall ch k, nth_error (oChCoup o) ch = Some k -> exists ms chan chan', nth_error (oFromCoup o) k = Some ms /\ ms <= ch
     /\ nth_error (oChans o) ms = Some chan /\ nth_error (oChans o) ch = Some chan' /\ getBins chan = getBins chan')
  /\ (forall k ms, nth_error (oFromCoup o) k = Some ms -> nth_error (oChCoup o) ms = Some k).
(* the channel of a coupling or branching *)
Definition coupChan (f : fitModel) (i k : nat) (o : component) (c : minComp) (chan : channel) : Prop :=
  nth_error (mComps (fmModel f)) i = Some o /\ nth_error (fmComps f) i = Some c /\ exists ms, nth_error (oFromCoup o) k = Some ms /\ nth_error (oChans o) ms = Some chan.
Definition branChan (f : fitModel) (i k : nat) (o : component) (c : minComp) (chan : channel) : Prop :=
  nth_error (mComps (fmModel f)) i = Some o /\ nth_error (fmComps f) i = Some c /\ exists ms, nth_error (mcFromBran c) k = Some ms /\ nth_error (oChans o) ms = Some chan.
Definition isAnchorCoupling (f : fitModel) (b : nat) (c : minComp) (chan : channel) : Prop := nth b (fmAnchors f) ([], []) = (chName chan, mcName c).

(* number of calls of the first t requests; parameters after t requests, imported from what [sel] takes of each outcome *)
Definition outAt (run : list request -> outcome) (reqs : list request) (t : nat) : outcome := run (firstn (S t) reqs).
Fixpoint used (run : list request -> outcome) (reqs : list request) (t : nat) : nat :=
  match t with 0 => 0 | S u => used run reqs u + oCalls (outAt run reqs u) end.
Inductive after (f : fitModel) (run : list request -> outcome) (sel : outcome -> nat -> R) (reqs : list request) (P : params) : nat -> params -> Prop :=
| after0 : after f run sel reqs P 0 P
| afterS t Q Q' : after f run sel reqs P t Q -> importPars f (sel (outAt run reqs t)) Q = Some Q' -> after f run sel reqs P (S t) Q'.
(* a minimizer that keeps fixed variables, and Hesse keeps all *)
Definition respects (run : list request -> outcome) : Prop :=
  (forall reqs n vs j v, nth_error vs j = Some v -> vSet v = Fixed -> oX (run (reqs ++ [(n, Some vs)])) j = vStart v)
  /\ forall reqs n j, reqs <> [] -> oX (run (reqs ++ [(n, None)])) j = oX (run reqs) j.
