(* Model of dFunctionCached (utilities/dFunction.hpp 55-211) and of the factorial
   cache (utilities/factorial.hpp 52-76).

   Numbers: exact reals.  The cached constTerm, a double in the code, is kept as the
   pair (sign, radicand) it was computed from; the three parallel vectors of a cache
   entry are one list of triples (they are only ever extended in lockstep, lines
   149-153).  [throw;] without active exception and the factorial of a negative
   argument abort the program: outcome [DTerm]. *)
From Coq Require Import ZArith Reals List Bool.
From Verif Require Import SpinModel CGModel.
Import ListNotations.
Open Scope Z_scope.

(* dFunction.hpp 60-71 *)
Record dEntry := { eSign : Z; eRad : Z; eTerms : list (Z * Z * Z) }. (* kmn1, jmnk, factor *)
Definition emptyEntry : dEntry := {| eSign := 0; eRad := 0; eTerms := [] |}.

(* dFunction.hpp 200, 203, 208: _useCache = true initially, all pointers null; the index
   space [41][42][42] is a function, bounds are proved separately *)
Record dState := { dUse : bool; dCache : Z -> Z -> Z -> option dEntry }.
(* dFunction.hpp 200-208 *)
Definition dInit : dState := {| dUse := true; dCache := fun _ _ _ => None |}.
(* dFunction.hpp 167: setUseCache *)
Definition dSetUse (s : dState) (b : bool) : dState := {| dUse := b; dCache := dCache s |}.
(* C++ assignment to an element of _cache, dFunction.hpp 124-125 *)
Definition dUpd (c : Z -> Z -> Z -> option dEntry) (i j k : Z) (e : option dEntry) :=
  fun i' j' k' => if (i =? i') && (j =? j') && (k =? k') then e else c i' j' k'.

(* all k with lo <= k <= hi, ascending: for (k = lo; k <= hi; ++k) *)
(* the loop idiom of dFunction.hpp 142 *)
Definition zrange (lo hi : Z) : list Z :=
  map (fun i => lo + Z.of_nat i) (seq 0 (Z.to_nat (hi - lo + 1))).

(* dFunction.hpp 139-148: one summand *)
Definition dTerm (j m n k : Z) : option (Z * Z * Z) :=
  let mpn := Z.quot (m + n) 2 in
  let kmn1 := 2 * k - mpn in
  let jmnk := j + mpn - 2 * k in
  bindO (facZ k) (fun f1 =>
  bindO (facZ (Z.quot (j + m) 2 - k)) (fun f2 =>
  bindO (facZ (Z.quot (j + n) 2 - k)) (fun f3 =>
  bindO (facZ (k - mpn)) (fun f4 =>
    (* dividing by (-1)^k = multiplying by it *)
    Some (kmn1, jmnk, f1 * f2 * f3 * f4 * powMinusOne k))))).

(* glue: no counterpart in /repo, map of a possibly aborting function *)
Fixpoint mapO {A B} (f : A -> option B) (l : list A) : option (list B) :=
  match l with
  | [] => Some []
  | x :: r => bindO (f x) (fun y => bindO (mapO f r) (fun ys => Some (y :: ys)))
  end.

(* dFunction.hpp 126-136: everything the uncached branch computes *)
Definition dFresh (j m n : Z) : option dEntry :=
  let jpm := Z.quot (j + m) 2 in
  let jpn := Z.quot (j + n) 2 in
  let jmm := Z.quot (j - m) 2 in
  let jmn := Z.quot (j - n) 2 in
  bindO (facZ jpm) (fun a => bindO (facZ jmm) (fun b =>
  bindO (facZ jpn) (fun c => bindO (facZ jmn) (fun d =>
  bindO (mapO (dTerm j m n) (zrange (Z.max 0 (Z.quot (m + n) 2)) (Z.min jpm jpn))) (fun ts =>
    Some {| eSign := powMinusOne jpm; eRad := a * b * c * d; eTerms := ts |}))))).

(* dFunction.hpp 116-121 resp. 158-160: constTerm * sum of cos^kmn1 * sin^jmnk / factor *)
Definition termVal (c s : R) (t : Z * Z * Z) : R :=
  let '(a, b, f) := t in (powerRZ c a * powerRZ s b / IZR f)%R.
(* dFunction.hpp 116-121, 158-160 *)
Definition entryVal (e : dEntry) (c s : R) : R :=
  (IZR (eSign e) * sqrt (IZR (eRad e)) * fold_right Rplus 0 (map (termVal c s) (eTerms e)))%R.

(* dFunction.hpp 74-164: value or throw *)
Inductive dOutcome := DTerm | DVal (v : R).

(* theta < 0 *)
Definition isNeg (x : R) : bool := if Rlt_dec x 0 then true else false.

(* dFunction.hpp 78-164: operator () *)
Definition dCall (s : dState) (j m n : Z) (theta : R) : dState * dOutcome :=
  if 41 <=? j then (s, DTerm)
  else if (j <? 0) || (j <? Z.abs m) || (j <? Z.abs n) then (s, DTerm)
  else if j =? 0 then (s, DVal 1%R)
  else
    let '(m', n') := if isNeg theta then (n, m) else (m, n) in
    let th := if isNeg theta then Rabs (theta / 2) else (theta / 2)%R in
    let c := cos th in
    let sn := sin th in
    let i1 := Z.quot (j + m') 2 in
    let i2 := Z.quot (j + n') 2 in
    match (if dUse s then dCache s j i1 i2 else None) with
    | Some e => (s, DVal (entryVal e c sn))
    | None =>
      match dFresh j m' n' with
      | None => (s, DTerm)
      | Some e =>
        (* line 124-125: with the cache on the cell gets a new, empty entry; with the
           cache off an old entry stays and is extended (lines 129, 149) *)
        let old := if dUse s then Some emptyEntry else dCache s j i1 i2 in
        let new := match old with
                   | None => None
                   | Some o => Some {| eSign := eSign e; eRad := eRad e; eTerms := eTerms o ++ eTerms e |}
                   end in
        ({| dUse := dUse s; dCache := dUpd (dCache s) j i1 i2 new |}, DVal (entryVal e c sn))
      end
    end.

(* the public calls of dFunction.hpp 74-167 *)
Inductive dOp := DSetUse (b : bool) | DCall (j m n : Z) (theta : R).
(* outcomes of the calls of a history; a terminated program answers nothing more *)
(* histories of the calls of dFunction.hpp 74-167 *)
Fixpoint dRun (s : dState) (ops : list dOp) : list dOutcome :=
  match ops with
  | [] => []
  | DSetUse b :: r => dRun (dSetUse s b) r
  | DCall j m n t :: r =>
      let '(s', o) := dCall s j m n t in
      o :: match o with DTerm => [] | DVal _ => dRun s' r end
  end.

(* utilities/factorial.hpp 52-76 for an integer or floating type whose largest value
   is maxT: state = the vector of known factorials (initially {1}, line 84) *)
Fixpoint facFill (maxT : Z) (cache : list Z) (i todo : nat) : option (list Z) :=
  match todo with
  | O => Some cache
  | S t =>
    let prev := nth (i - 1) cache 0 in
    if maxT / Z.of_nat i <? prev then None   (* throw; *)
    else facFill maxT (cache ++ [Z.of_nat i * prev]) (S i) t
  end.
(* utilities/factorial.hpp 52-76 *)
Definition facCall (maxT : Z) (cache : list Z) (n : nat) : option (list Z * Z) :=
  let size := length cache in
  if Nat.leb size n
  then bindO (facFill maxT cache size (S n - size)) (fun c => Some (c, nth n c 0))
  else Some (cache, nth n cache 0).
(* histories of the calls of utilities/factorial.hpp 52-76 *)
Fixpoint facRun (maxT : Z) (cache : list Z) (ns : list nat) : list (option Z) :=
  match ns with
  | [] => []
  | n :: r => match facCall maxT cache n with
              | None => [None]   (* aborted *)
              | Some (c, v) => Some v :: facRun maxT c r
              end
  end.
