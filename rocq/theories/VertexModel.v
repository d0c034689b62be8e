(* Model of decayAmplitude/isobarDecayVertex.cc.

   Simplifications: int and unsigned int are Z (L and S are not negative in the
   code); a vertex holds its three particles by value instead of by shared
   pointer; the mass dependence and all printing are dropped; the
   Clebsch-Gordan coefficient is the one of CGModel ([None] = the process
   terminates, because an isospin exceeds the range of the cache). *)
From Coq Require Import String List ZArith Bool Reals.
From Verif Require Import SpinModel CGModel ParticleModel.
Import ListNotations.
Open Scope Z_scope.

(* isobarDecayVertex.h 110-128 *)
Record vertex := Vtx { vParent : pprops; vD1 : pprops; vD2 : pprops; vL : Z; vS : Z }.

(* isobarDecayVertex.cc 203-221 *)
Definition checkMultiplicativeQn (mQn d1Qn d2Qn : Z) : bool := mQn =? d1Qn * d2Qn.
(* isobarDecayVertex.cc 224-244 *)
Definition checkAdditiveQn (mQn d1Qn d2Qn : Z) : bool := mQn =? d1Qn + d2Qn.

(* isobarDecayVertex.cc 320-331: one particle's part of the C-parity condition is violated *)
Definition cInconsistent (p : pprops) : bool :=
  ((pCharge p =? 0) && negb (pC p =? pG p * (if Z.rem (pI p) 4 =? 0 then 1 else -1)))
  || (negb (pCharge p =? 0) && negb (pC p =? 0)).

(* isobarDecayVertex.cc 247-347 *)
Definition checkConsistency (v : vertex) : option bool :=
  let m := vParent v in let d1 := vD1 v in let d2 := vD2 v in
  let angMomParity := if Z.rem (vL v) 4 =? 0 then 1 else -1 in
  doP iso <- spinStatesCanCouple (pI d1) (isospinProj d1) (pI d2) (isospinProj d2) (pI m) (isospinProj m);
  Some (checkMultiplicativeQn (pG m) (pG d1) (pG d2)
        && (pP m =? pP d1 * pP d2 * angMomParity)
        && checkAdditiveQn (pCharge m) (pCharge d1) (pCharge d2)
        && checkAdditiveQn (pB m) (pB d1) (pB d2)
        && checkAdditiveQn (pS m) (pS d1) (pS d2)
        && checkAdditiveQn (pCharm m) (pCharm d1) (pCharm d2)
        && checkAdditiveQn (pBeauty m) (pBeauty d1) (pBeauty d2)
        && isEven (vL v)
        && spinsCanCouple (pJ d1) (pJ d2) (vS v)
        && spinsCanCouple (vL v) (vS v) (pJ m)
        && iso
        && negb (cInconsistent d1 || cInconsistent d2 || cInconsistent m)).

(* isobarDecayVertex.cc 176-186: the charge setter aborts for more than 9 elementary charges *)
Definition calcParentCharge (v : vertex) : option vertex :=
  doP m <- setCharge (pCharge (vD1 v) + pCharge (vD2 v)) (vParent v);
  Some (Vtx m (vD1 v) (vD2 v) (vL v) (vS v)).

(* isobarDecayVertex.cc 189-199 *)
Definition calcParentBaryonNmb (v : vertex) : vertex :=
  Vtx (setBaryonNmb (pB (vD1 v) + pB (vD2 v)) (vParent v)) (vD1 v) (vD2 v) (vL v) (vS v).
