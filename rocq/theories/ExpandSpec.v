(* Specification for C78: what a key file with binnings stands for. *)
From Coq Require Import String Ascii List ZArith Bool Reals.
From Verif Require Import PathModel StrModel DecModel ParticleModel WaveSetModel WaveDescModel ExpandModel.
Import ListNotations.
Open Scope list_scope.

(* the pairs of neighbours of a list of edges *)
Fixpoint neighbours (edges : list R) : list (R * R) :=
  match edges with
  | a :: (b :: _) as r => (a, b) :: neighbours r
  | _ => []
  end.
(* an entry  name = (a, b) *)
Definition binEntry (n : str) (b : R * R) : str * setting := (n, SList [SFloat (fst b); SFloat (snd b)]).
(* expand = { type = "binning"; name = n; bins = (e1, ..., ek) } *)
Definition binningOf (e : setting) (n : str) (edges : list R) : Prop :=
  lookStr (lit "type"%string) e = Some (lit "binning"%string) /\ lookStr (lit "name"%string) e = Some n /\
  edges <> [] /\ exists l, field (lit "bins"%string) e = Some (SList l) /\ l = map SFloat edges.
(* the group 'expand' of a list of entries *)
Definition ownExpand (l : list (str * setting)) : option setting := match findKey expandKey l with Some (SGroup e) => Some (SGroup e) | _ => None end.

(* key files in which every binning is complete: names are used once per group, the name of the new entry is a name that is
   not used, and there is at least one edge; [ok] is a condition on the edges of all binnings *)
Inductive wellFormed (ok : list R -> Prop) : setting -> Prop :=
| wfInt z : wellFormed ok (SInt z) | wfFloat r : wellFormed ok (SFloat r) | wfString t : wellFormed ok (SString t) | wfBool b : wellFormed ok (SBool b)
| wfList l : Forall (wellFormed ok) l -> wellFormed ok (SList l)
| wfGroup l : NoDup (map fst l) -> ownExpand l = None -> Forall (fun kv => wellFormed ok (snd kv)) l -> wellFormed ok (SGroup l)
| wfExpand l1 e l2 n edges : NoDup (map fst (l1 ++ (expandKey, SGroup e) :: l2)) -> binningOf (SGroup e) n edges -> ok edges ->
    validName n = true -> ~ In n (map fst (l1 ++ l2)) -> Forall (fun kv => wellFormed ok (snd kv)) (l1 ++ l2) ->
    wellFormed ok (SGroup (l1 ++ (expandKey, SGroup e) :: l2)).

(* [instance s c]: c is s with one bin chosen for every binning; the chosen bin is the last entry of its group *)
Inductive instance : setting -> setting -> Prop :=
| inInt z : instance (SInt z) (SInt z) | inFloat r : instance (SFloat r) (SFloat r) | inString t : instance (SString t) (SString t)
| inBool b : instance (SBool b) (SBool b)
| inList l m : Forall2 instance l m -> instance (SList l) (SList m)
| inGroup l m : ownExpand l = None -> Forall2 (fun x y => fst x = fst y /\ instance (snd x) (snd y)) l m -> instance (SGroup l) (SGroup m)
| inExpand l1 e l2 m n edges b : binningOf (SGroup e) n edges -> In b (neighbours edges) ->
    Forall2 (fun x y => fst x = fst y /\ instance (snd x) (snd y)) (l1 ++ l2) m ->
    instance (SGroup (l1 ++ (expandKey, SGroup e) :: l2)) (SGroup (m ++ [binEntry n b])).

(* all edges of all binnings are in increasing order *)
Inductive increasing : list R -> Prop :=
| incNil : increasing [] | incOne a : increasing [a] | incCons a b l : (a < b)%R -> increasing (b :: l) -> increasing (a :: b :: l).
(* no group 'expand' anywhere *)
Inductive noBinning : setting -> Prop :=
| nbInt z : noBinning (SInt z) | nbFloat r : noBinning (SFloat r) | nbString t : noBinning (SString t) | nbBool b : noBinning (SBool b)
| nbList l : Forall noBinning l -> noBinning (SList l)
| nbGroup l : (forall e, ~ In (expandKey, SGroup e) l) -> Forall (fun kv => noBinning (snd kv)) l -> noBinning (SGroup l).
