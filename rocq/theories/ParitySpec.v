(* Specification for C75: decays that conserve parity. *)
From Coq Require Import List ZArith Reals.
From Verif Require Import SpinSpec CGBoxModel PhaseModel FrameModel AmpModel.
Import ListNotations.
Open Scope Z_scope.

(* parity is conserved in every decay: P(parent) = P(daughter 1) P(daughter 2) (-1)^L (L in units
   of hbar/2); parities are signs *)
Definition parityConserved (ps : parts) (t : topo) : Prop :=
  (forall p, In p (root t :: below t) -> isSign (pP ps p))
  /\ (forall p v a b, In (Iso p v a b) (vertices t) -> pP ps p = pP ps (root a) * pP ps (root b) * minusOnePow (vL v / 2)).
(* mesons that decay into (pseudo)scalars *)
Definition integerSpins (ps : parts) (t : topo) : Prop := forall p, In p (root t :: below t) -> Z.even (pJ ps p) = true.
Definition spinlessFinalState (ps : parts) (t : topo) : Prop := forall p, In p (fsParts t) -> pJ ps p = 0.
(* the momentum of a particle points along (or against) the z axis, or vanishes *)
Definition alongZ (p : lv) : Prop := lx p = 0%R /\ ly p = 0%R.
