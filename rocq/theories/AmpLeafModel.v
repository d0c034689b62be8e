(* Model of storageFormats/amplitudeTreeLeaf.{h,cc}: one decay amplitude of an event, with labelled incoherent sub-amplitudes
   (C90). Simplifications: double is R; factors are complex numbers (real and integer factors are those with imaginary part
   zero); throw without an exception, an access outside of a vector and a result that is not a number are None; messages and
   TObject are left out. *)
From Coq Require Import String Ascii List Bool Arith Reals.
From Coquelicot Require Import Complex.
From Verif Require Import PathModel StrModel ParticleModel AmpIntModel.
Import ListNotations.
Open Scope list_scope.
Open Scope nat_scope.

(* amplitudeTreeLeaf.h 119-121; the map from labels to indices as pairs, the first entry counts *)
Record leaf := Leaf { lfAmps : list C; lfLabels : list str; lfMap : list (str * nat) }.
(* amplitudeTreeLeaf.cc 52-59 *)
Definition leafNew : leaf := Leaf [RtoC 0] [] [].
(* amplitudeTreeLeaf.cc 66-72 *)
Definition leafClear (_ : leaf) : leaf := Leaf [RtoC 0] [] [].
(* amplitudeTreeLeaf.cc 196-202; later entries overwrite earlier ones *)
Fixpoint labelMap (i : nat) (labels : list str) (m : list (str * nat)) : list (str * nat) :=
  match labels with [] => m | l :: r => labelMap (S i) r ((l, i) :: m) end.
(* amplitudeTreeLeaf.cc 196-202 *)
Definition rebuildMap (a : leaf) : leaf := Leaf (lfAmps a) (lfLabels a) (labelMap 0 (lfLabels a) []).
(* amplitudeTreeLeaf.cc 75-85; the object itself or a copy *)
Definition leafAssign (_ amp : leaf) : leaf := Leaf (lfAmps amp) (lfLabels amp) (lfMap amp).
(* library: std::sort and std::unique: is a label twice in the vector *)
Fixpoint hasTwice (l : list str) : bool := match l with [] => false | x :: r => existsb (str_eqb x) r || hasTwice r end.
(* library: std::vector::resize *)
Definition resized {A} (n : nat) (d : A) (l : list A) : list A := firstn n l ++ repeat d (n - length l).
(* amplitudeTreeLeaf.cc 151-171 *)
Definition defineSubAmps (labels : list str) (a : leaf) : option leaf :=
  if hasTwice labels then None else Some (rebuildMap (Leaf (resized (length labels) (RtoC 0) (lfAmps a)) labels (lfMap a))).
(* amplitudeTreeLeaf.h 102-103 *)
Definition setSubAmp (z : C) (i : nat) (a : leaf) : option leaf :=
  if i <? length (lfAmps a) then Some (Leaf (firstn i (lfAmps a) ++ z :: skipn (S i) (lfAmps a)) (lfLabels a) (lfMap a)) else None.
(* glue: same vectors of labels *)
Fixpoint sameLabels (l k : list str) : bool :=
  match l, k with [], [] => true | x :: r, y :: s => str_eqb x y && sameLabels r s | _, _ => false end.
(* glue: the loop over the sub-amplitudes; None: the other amplitude has fewer *)
Fixpoint zipWith (f : C -> C -> C) (l k : list C) : option (list C) :=
  match l, k with [] , _ => Some [] | x :: r, y :: s => doP t <- zipWith f r s; Some (f x y :: t) | _, _ => None end.
(* amplitudeTreeLeaf.cc 88-100 *)
Definition leafAdd (a b : leaf) : option leaf :=
  if sameLabels (lfLabels a) (lfLabels b) then doP l <- zipWith Cplus (lfAmps a) (lfAmps b); Some (Leaf l (lfLabels a) (lfMap a)) else None.
(* amplitudeTreeLeaf.cc 103-115 *)
Definition leafSub (a b : leaf) : option leaf :=
  if sameLabels (lfLabels a) (lfLabels b) then doP l <- zipWith Cminus (lfAmps a) (lfAmps b); Some (Leaf l (lfLabels a) (lfMap a)) else None.
(* amplitudeTreeLeaf.h 158-166 *)
Definition leafMul (c : C) (a : leaf) : leaf := Leaf (map (fun z => z * c)%C (lfAmps a)) (lfLabels a) (lfMap a).
(* amplitudeTreeLeaf.h 169-177 *)
Definition leafDiv (c : C) (a : leaf) : option leaf :=
  if Ceqb c (RtoC 0) then None else Some (Leaf (map (fun z => z / c)%C (lfAmps a)) (lfLabels a) (lfMap a)).
(* glue: std::map::find *)
Fixpoint findLabel (l : str) (m : list (str * nat)) : option nat :=
  match m with [] => None | (k, i) :: r => if str_eqb k l then Some i else findLabel l r end.
(* amplitudeTreeLeaf.cc 118-125 *)
Definition containsLabel (a : leaf) (l : str) : bool := match findLabel l (lfMap a) with Some _ => true | None => false end.
(* amplitudeTreeLeaf.cc 128-137 *)
Definition labelIndex (a : leaf) (l : str) : option nat := findLabel l (lfMap a).
(* amplitudeTreeLeaf.cc 140-148 *)
Definition labelName (a : leaf) (i : nat) : option str := nth_error (lfLabels a) i.
(* amplitudeTreeLeaf.h 84-92 *)
Definition subAmp (a : leaf) (i : nat) : option C := nth_error (lfAmps a) i.
(* amplitudeTreeLeaf.h 94-95 *)
Definition subAmpByLabel (a : leaf) (l : str) : option C := doP i <- labelIndex a l; subAmp a i.
(* amplitudeTreeLeaf.h 97-98 *)
Definition oneAmp (a : leaf) : option C := subAmp a 0.
(* amplitudeTreeLeaf.h 136-140: the loop of the comparison *)
Fixpoint eqLoop (l k : list C) : option bool :=
  match l, k with [], _ => Some true | x :: r, y :: s => if Ceqb x y then eqLoop r s else Some false | _, _ => None end.
(* amplitudeTreeLeaf.h 129-141; line 134 compares the left size with itself *)
Definition leafEq (a b : leaf) : option bool :=
  if negb (length (lfAmps a) =? length (lfAmps a)) then Some false else eqLoop (lfAmps a) (lfAmps b).
(* amplitudeTreeLeaf.h 121 (the map is not stored), linkdef.h 75-79: object written to a file and read into [old] *)
Definition leafRead (stored : list C * list str) (old : leaf) : leaf := rebuildMap (Leaf (fst stored) (snd stored) (lfMap old)).
(* amplitudeTreeLeaf.h 119-121 *)
Definition leafWrite (a : leaf) : list C * list str := (lfAmps a, lfLabels a).
