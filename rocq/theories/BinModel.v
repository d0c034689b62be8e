(* Model of pyInterface/module/utils/_binning.py (class multiBin) and of the construction of the
   list of bins in pyInterface/module/_config.py (_readBinning).
   A dict {variable: (lower, upper)} is an association list sorted by key (equality of dicts is
   equality of these lists). Floats are real numbers (no NaN, no infinities, no rounding);
   uniqueStr and fromUniqueStr are generic in the type of numbers and its repr/float functions.
   None = a Python exception. *)
From Coq Require Import String Ascii List ZArith Reals Bool.
From Verif Require Import PathModel StrModel CGBoxModel EventMetaModel.
Import ListNotations.
Open Scope list_scope. Open Scope nat_scope.

(* representation of rpwa::multibinBoundariesType (a map from variable to a pair of doubles) and of the Python dict boundaries, _binning.py 6-28 *)
Definition bin := smap (R * R).
(* C++ / Python operator < of double *)
Definition Rltb (x y : R) : bool := if Rlt_dec x y then true else false.
(* C++ / Python operator <= of double *)
Definition Rleb (x y : R) : bool := if Rle_dec x y then true else false.

(* _binning.py 8-27: multiBin.__init__ (types of the entries are not modelled); ValueError if a lower
   bound is larger than the upper bound *)
Definition multiBin (boundaries : bin) : option bin :=
  if forallb (fun '(_, (lo, hi)) => negb (Rltb hi lo)) boundaries then Some boundaries else None.

(* _binning.py 106-110: variables *)
Definition variables (b : bin) : list str := map fst b.

(* _binning.py 33-40: the loop over the sorted keys, which are the same in both bins *)
Fixpoint ltLoop (a b : bin) : bool :=
  match a, b with
  | (_, (l, h)) :: a', (_, (l', h')) :: b' =>
      let selfCenter := ((l + h) / 2)%R in
      let otherCenter := ((l' + h') / 2)%R in
      if Rltb otherCenter selfCenter then false
      else if Rltb selfCenter otherCenter then true
      else ltLoop a' b'
  | _, _ => false
  end.
(* _binning.py 29-40: __lt__ *)
Definition binLt (a b : bin) : bool :=
  if negb (list_eqb (variables a) (variables b)) then false else ltLoop a b.
(* _binning.py 46-47: __eq__ *)
Definition binEq (a b : bin) : bool := bins_eqb a b.
(* _binning.py 42-43: __le__ *)
Definition binLe (a b : bin) : bool := binLt a b || binEq a b.
(* _binning.py 50-51: __ne__ *)
Definition binNe (a b : bin) : bool := negb (binEq a b).
(* _binning.py 54-55: __gt__ *)
Definition binGt (a b : bin) : bool := negb (binLe a b).
(* _binning.py 58-59: __ge__ *)
Definition binGe (a b : bin) : bool := negb (binLt a b).

(* _binning.py 80-104: __contains__: other in self *)
Definition binContains (self other : bin) : bool :=
  forallb (fun '(k, (lo, hi)) =>
             match m_find k other with
             | Some (lo', hi') => if negb (Rleb lo lo') then false else if negb (Rleb hi' hi) then false else true
             | None => false
             end) self.

(* _binning.py 151-156: comparator in overlapInVariable with direction "<" *)
Definition comparator (strict : bool) (left right : R) : bool := if strict then Rltb left right else Rleb left right.
(* _binning.py 147-162: overlapInVariable; None = KeyError *)
Definition overlapInVariable (self other : bin) (key : str) (strict : bool) : option bool :=
  do s <- m_find key self;
  do o <- m_find key other;
  if comparator strict (snd s) (fst o) then Some false
  else if comparator strict (snd o) (fst s) then Some false
  else Some true.
(* _binning.py 142-145: the loop of overlap *)
Fixpoint overlapLoop (self other : bin) (strict : bool) (ks : list str) : option bool :=
  match ks with
  | [] => Some true
  | k :: r => do b <- overlapInVariable self other k strict; if b then overlapLoop self other strict r else Some false
  end.
(* _binning.py 135-145: overlap *)
Definition overlap (self other : bin) (strict : bool) : option bool :=
  if negb (list_eqb (variables self) (variables other)) then Some false else overlapLoop self other strict (variables self).

(* _binning.py 164-165: sameBinningVariables *)
Definition sameBinningVariables (a b : bin) : bool := list_eqb (variables a) (variables b).

(* _binning.py 171-173: the loop of inBin; None = KeyError *)
Fixpoint inBinLoop (b : bin) (info : smap R) : option bool :=
  match info with
  | [] => Some true
  | (v, x) :: r => do lh <- m_find v b; if Rltb x (fst lh) || Rleb (snd lh) x then Some false else inBinLoop b r
  end.
(* _binning.py 167-174: inBin *)
Definition inBin (b : bin) (info : smap R) : option bool :=
  if negb (list_eqb (map fst info) (map fst b)) then Some false else inBinLoop b info.

(* _binning.py 176-191: getSubMultiBin; exception = list of variables (None and a single string are special cases) *)
Definition getSubMultiBin (b : bin) (exc : list str) : option bin :=
  multiBin (filter (fun '(k, _) => negb (existsb (str_eqb k) exc)) b).
(* _binning.py 193-194: getBinCenters *)
Definition getBinCenters (b : bin) : smap R := map (fun '(k, (lo, hi)) => (k, (1 / 2 * (lo + hi))%R)) b.

(* Python's sorted(): stable, compares with < only; insertion sort as any stable comparison sort.
   Used for configObject.integralBinning in _fileManager.py 136 *)
Fixpoint insertBin (x : bin) (l : list bin) : list bin :=
  match l with
  | [] => [x]
  | y :: r => if binLt x y then x :: l else y :: insertBin x r
  end.
(* Python sorted(), used in _config.py: cf. insertBin above, citing 2 places there *)
Definition sortBins (l : list bin) : list bin := fold_left (fun acc x => insertBin x acc) l [].

(* ---- unique strings ---- *)
(* the separators of _binning.py uniqueStr: cf. the definitions below *)
Definition comma : ascii := ","%char.
(* the separators of _binning.py uniqueStr: cf. the definitions below *)
Definition equals : ascii := "="%char.
(* Python str.split(sep) with a separator of one character *)
(* Python str.split, cf. fromUniqueStr below *)
Fixpoint split (c : ascii) (s : str) : list str :=
  match s with
  | [] => [[]]
  | x :: r => if Ascii.eqb x c then [] :: split c r
              else match split c r with w :: ws => (x :: w) :: ws | [] => [[x]] end
  end.
(* Python sep.join(l) *)
(* Python str.join, cf. uniqueStr below *)
Fixpoint join (c : ascii) (l : list str) : str :=
  match l with
  | [] => []
  | [w] => w
  | w :: r => w ++ c :: join c r
  end.
(* Python str.count(c) *)
(* Python str.count, cf. fromUniqueStr below *)
Fixpoint count (c : ascii) (s : str) : nat :=
  match s with [] => 0 | x :: r => (if Ascii.eqb x c then 1 else 0) + count c r end.

Section Numbers.
  Context {F : Type} (leb : F -> F -> bool) (repr : F -> str) (float : str -> option F).
  (* _binning.py 8-27 for numbers F *)
  Definition multiBinF (boundaries : smap (F * F)) : option (smap (F * F)) :=
    if forallb (fun '(_, (lo, hi)) => leb lo hi) boundaries then Some boundaries else None.
  (* _binning.py 119: one variable *)
  Definition variableStr (x : str * (F * F)) : str := fst x ++ equals :: repr (fst (snd x)) ++ equals :: repr (snd (snd x)).
  (* _binning.py 112-121: uniqueStr *)
  Definition uniqueStr (b : smap (F * F)) : str := join comma (map variableStr b).
  (* _binning.py 127-132: the loop over the parts; a part without exactly two '=' is reported and skipped *)
  Fixpoint partsLoop (parts : list str) (boundaries : smap (F * F)) : option (smap (F * F)) :=
    match parts with
    | [] => Some boundaries
    | p :: r =>
        if Nat.eqb (count equals p) 2 then
          match split equals p with
          | [name; lower; upper] => do lo <- float lower; do hi <- float upper; partsLoop r (m_set name (lo, hi) boundaries)
          | _ => None
          end
        else partsLoop r boundaries
    end.
  (* _binning.py 123-133: fromUniqueStr *)
  Definition fromUniqueStr (s : str) : option (smap (F * F)) :=
    do b <- (match s with [] => Some [] | _ => partsLoop (split comma s) [] end);
    multiBinF b.
End Numbers.

(* ---- _config.py: list of bins of a grid ---- *)
(* _config.py 194-197 (_roundToNSignificantDigits) is a rounding; here: round : R -> R for numbers other than 0,
   for 0 math.log10 raises ValueError (None) *)
Definition roundDigits (round : R -> R) (x : R) : option R := if Req_EM_T x 0 then None else Some (round x).
(* _config.py 223-231: case 3, edges of an equidistant axis; None = ValueError (n = 0: no edges are computed with n <= -1;
   ZeroDivisionError for n = 0, also None here) *)
Definition expandAxis (round : R -> R) (xMin xMax : R) (n : nat) : option (list R) :=
  match n with
  | O => None
  | _ => (fix loop (is : list nat) : option (list R) :=
            match is with [] => Some [] | i :: r => do x <- roundDigits round (xMin + (xMax - xMin) / INR n * INR i)%R; do l <- loop r; Some (x :: l) end)
         (List.seq 0 (S n))
  end.
(* _config.py 200-232: the two forms of an axis *)
Inductive axis := Edges (l : list R) | Equi (xMin xMax : R) (n : nat).
(* _config.py 200-232 *)
Definition axisEdges (round : R -> R) (a : axis) : option (list R) :=
  match a with Edges l => Some l | Equi x y n => expandAxis round x y n end.

(* _config.py 173-176: the bin at the current indices; keys in the order of the dict; None = IndexError *)
Fixpoint cell (axes : list (str * list R)) (indices : list nat) : option bin :=
  match axes, indices with
  | (k, edges) :: ax, i :: r => do lo <- nth_error edges (i - 1); do hi <- nth_error edges i; do b <- cell ax r; Some (m_set k (lo, hi) b)
  | _, _ => Some []
  end.
(* _config.py 179-182: carry; one pass of the loop over metaIndex *)
Fixpoint carry (indices limits : list nat) : list nat :=
  match indices, limits with
  | i :: ((j :: r) as t), l :: ls => if Nat.eqb i l then 1 :: carry (S j :: r) ls else i :: carry t ls
  | _, _ => indices
  end.
(* _config.py 178-182 *)
Definition next (indices limits : list nat) : list nat :=
  match indices with i :: r => carry (S i :: r) limits | [] => [] end.
(* _config.py 172-182: the while loop with fuel; None = exception (or out of fuel) *)
Fixpoint gridLoop (fuel : nat) (axes : list (str * list R)) (limits indices : list nat) (acc : list bin) : option (list bin) :=
  match fuel with
  | O => None
  | S f => if Nat.eqb (last indices 0) (last limits 0) then Some acc
           else do b <- cell axes indices; do b <- multiBin b; gridLoop f axes limits (next indices limits) (acc ++ [b])
  end.
(* number of iterations that suffices *)
Definition gridFuel (limits : list nat) : nat := S (fold_right (fun l a => l * a) 1 limits).
(* _config.py 170-182: cases 2 and 3 after the conversion of the axes; the empty dict is treated before (154-155).
   The ValueError of multiBin is not caught there *)
Definition gridBins (axes : list (str * list R)) : option (list bin) :=
  let limits := map (fun a => length (snd a)) axes in
  gridLoop (gridFuel limits) axes limits (repeat 1 (length axes)) [].
(* _config.py 165-169: an error in the conversion of the axes gives the empty list *)
Fixpoint convertAxes (round : R -> R) (axes : list (str * axis)) : option (list (str * list R)) :=
  match axes with
  | [] => Some []
  | (k, a) :: r => do e <- axisEdges round a; do l <- convertAxes round r; Some ((k, e) :: l)
  end.
(* _config.py 165-182 *)
Definition readGrid (round : R -> R) (axes : list (str * axis)) : option (list bin) :=
  match axes with
  | [] => Some []
  | _ => match convertAxes round axes with None => Some [] | Some ax => gridBins ax end
  end.
(* _config.py 158-164, 186-190: case 1, a list of bins *)
Fixpoint listLoop (l acc : list bin) : list bin :=
  match l with [] => acc | b :: r => match multiBin b with Some b => listLoop r (acc ++ [b]) | None => [] end end.
(* _config.py 158-164, 186-190 *)
Definition sameVariables (l : list bin) : list bin :=
  match l with [] => [] | b0 :: _ => if forallb (fun b => sameBinningVariables b b0) l then l else [] end.
(* _config.py 158-164, 186-190 *)
Definition readList (l : list bin) : list bin := sameVariables (listLoop l []).
