(* Model of the symmetry eigenvalues of a decay, decayAmplitude/decayTopology.cc.  They are what
   checkKeyFile.cc 224-275 compares the amplitudes of the inverted and of the reflected event with.
   [None] is an integer division by zero. *)
From Coq Require Import List ZArith.
From Verif Require Import AmpModel.
Import ListNotations.
Open Scope Z_scope.

(* decayTopology.cc 210-219 *)
Definition fsParticlesIntrinsicParity (ps : parts) (t : topo) : Z := fold_left (fun r p => r * pP ps p) (fsParts t) 1.
(* int division of C++, used in decayTopology.cc 226, 235 *)
Definition intDiv (a b : Z) : option Z := if b =? 0 then None else Some (Z.quot a b).
(* decayTopology.cc 222-227 *)
Definition spaceInvEigenValue (ps : parts) (t : topo) : option Z := intDiv (pP ps (root t)) (fsParticlesIntrinsicParity ps t).
(* decayTopology.cc 230-236 *)
Definition reflectionEigenValue (ps : parts) (t : topo) : option Z := intDiv (-1) (pRefl ps (root t) * fsParticlesIntrinsicParity ps t).
