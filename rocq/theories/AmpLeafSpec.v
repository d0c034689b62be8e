(* C90: histories of calls on amplitude leaves and what they should hold. *)
From Coq Require Import String Ascii List Bool Arith Reals.
From Coquelicot Require Import Complex.
From Verif Require Import PathModel StrModel ParticleModel AmpLeafModel.
Import ListNotations.
Open Scope list_scope.
Open Scope nat_scope.

(* Leaves that a program can have: made, changed and combined by calls that do not abort. Only a vector of labels that is
   empty is never passed to defineIncohSubAmps. *)
Inductive madeBy : leaf -> Prop :=
| mNew : madeBy leafNew
| mClear a : madeBy a -> madeBy (leafClear a)
| mDefine a labels b : madeBy a -> labels <> [] -> defineSubAmps labels a = Some b -> madeBy b
| mSet a z i b : madeBy a -> setSubAmp z i a = Some b -> madeBy b
| mAdd a b s : madeBy a -> madeBy b -> leafAdd a b = Some s -> madeBy s
| mSub a b s : madeBy a -> madeBy b -> leafSub a b = Some s -> madeBy s
| mMul a c : madeBy a -> madeBy (leafMul c a)
| mDiv a c b : madeBy a -> leafDiv c a = Some b -> madeBy b
| mAssign a b : madeBy a -> madeBy b -> madeBy (leafAssign a b)
| mRead a b : madeBy a -> madeBy b -> madeBy (leafRead (leafWrite a) b)
| mRebuild a : madeBy a -> madeBy (rebuildMap a).
(* two leaves that no accessor tells apart *)
Definition sameLeaf (a b : leaf) : Prop :=
  (forall i, subAmp a i = subAmp b i) /\ (forall i, labelName a i = labelName b i)
  /\ forall l, containsLabel a l = containsLabel b l /\ labelIndex a l = labelIndex b l.
