(** Model of the exact Clebsch-Gordan tables.
    /repo/relativisticAmpCorrections/ClebschGordanBox.cc and ClebschGordanBox.h
    None = abort (throw) or access outside of the table.  Debug output is dropped. *)
From Coq Require Import ZArith List Bool Lia.
From Verif Require Import ArrayModel FracModel.
Import ListNotations.
Open Scope Z_scope.

(** CGIndex  ClebschGordanBox.h:66-72 *)
Definition cgIndex (J1 m1 J2 m2 : Z) : Z := (J1 + m1) * (2 * J2 + 1) + J2 + m2.

(* glue: no counterpart in /repo, option monad *)
Definition bnd {A B} (x : option A) (f : A -> option B) : option B := match x with Some a => f a | None => None end.
Notation "'do' x <- e ; r" := (bnd e (fun x => r)) (at level 200, x pattern, e at level 100, r at level 200).

(** CG[i] with a signed index *)
Definition rdz (v : list frac) (i : Z) : option frac := if i <? 0 then None else rd v (Z.to_nat i).
(* C++ assignment to an array element with an int index: None = outside *)
Definition wrz (v : list frac) (i : Z) (x : frac) : option (list frac) := if i <? 0 then None else wr v (Z.to_nat i) x.

(** for (x = start; x <= stop; x += 2) *)
Definition stepUp (start stop : Z) : list Z :=
  map (fun k => start + 2 * Z.of_nat k) (seq 0 (Z.to_nat ((stop - start) / 2 + 1))).
(** for (x = start; x >= stop; x -= 2) *)
Definition stepDown (start stop : Z) : list Z :=
  map (fun k => start - 2 * Z.of_nat k) (seq 0 (Z.to_nat ((start - stop) / 2 + 1))).

(** The recurring combination: from a and b compute (|a| + |b| -/+ 2 sqrt(a b)), with the sign flipped if
    [cmp] and b > a.  ClebschGordanBox.cc:107-130, 167-185, 221-240 *)
Definition combine (ps : list Z) (two : frac) (cmp : bool) (a b : frac) : option frac :=
  do sq <- fracSqrt ps (fracMul a b);
  let '(mixed, ok) := sq in
  if ok then
    if cmp then
      do gt <- fracGt ps b a;
      let '(flipsign, b', a') := gt in
      do s <- fracAdd ps (fracAbs a') (fracAbs b');
      do r <- fracAdd ps s (fracMul two mixed);
      Some (if flipsign then flipSign r else r)
    else
      do s <- fracAdd ps (fracAbs a) (fracAbs b);
      fracAdd ps s (fracMul two mixed)
  else None.

(** body of the inner loop over twom2 < twoJ2  ClebschGordanBox.cc:73-140 *)
Definition innerStep (ps : list Z) (twoJ twoJ1 twoJ2 mintwom1 twom1 : Z) (mtwo : frac) (twom2 : Z)
  (CG : list frac) : option (list frac) :=
  let max2 := twoJ2 + 1 in
  let twom := twom1 + twom2 in
  let i := Z.quot ((twom1 + twoJ1) * max2 + (twom2 + twoJ2)) 2 in
  if (twom <? - twoJ) || (twom >? twoJ) then wrz CG i fracZero
  else if twom1 =? mintwom1 then
    do c <- rdz CG (i + 1);
    do q <- fracInt ps ((twoJ - twom) * (twoJ + twom + 2)) ((twoJ2 - twom2) * (twoJ2 + twom2 + 2));
    wrz CG i (fracMul c q)
  else if negb (twom =? - twoJ) then
    let denom := (twoJ1 + twom1) * (twoJ1 - twom1 + 2) in
    do c1 <- rdz CG (i - max2);
    do q1 <- fracInt ps ((twoJ + twom) * (twoJ - twom + 2)) denom;
    do c2 <- rdz CG (i - max2 + 1);
    do q2 <- fracInt ps ((twoJ2 - twom2) * (twoJ2 + twom2 + 2)) denom;
    do r <- combine ps mtwo true (fracMul c1 q1) (fracMul c2 q2);
    wrz CG i r
  else
    do c <- rdz CG (i - max2 + 1);
    do q <- fracInt ps (- (twoJ2 - twom2) * (twoJ2 + twom2 + 2)) ((twoJ1 + twom1) * (twoJ1 - twom1 + 2));
    wrz CG i (fracMul c q).

(** special case m2 = J2  ClebschGordanBox.cc:144-191 *)
Definition topStep (ps : list Z) (twoJ twoJ1 twoJ2 mintwom1 twom1 : Z) (two : frac) (CG : list frac) : option (list frac) :=
  let max2 := twoJ2 + 1 in
  let twom2 := twoJ2 in
  let twom := twom1 + twom2 in
  let i := Z.quot ((twom1 + twoJ1) * max2 + (twom2 + twoJ2)) 2 in
  if (twom <? - twoJ) || (twom >? twoJ) then wrz CG i fracZero
  else if (twom1 >? mintwom1) && (twom1 <=? - mintwom1) then
    let denom := (twoJ - twom + 2) * (twoJ + twom) in
    do c1 <- rdz CG (i - max2);
    do q1 <- fracInt ps ((twoJ1 + twom1) * (twoJ1 - twom1 + 2)) denom;
    do c2 <- rdz CG (i - 1);
    do q2 <- fracInt ps ((twoJ2 + twom2) * (twoJ2 - twom2 + 2)) denom;
    do r <- combine ps two false (fracMul c1 q1) (fracMul c2 q2);
    wrz CG i r
  else Some CG.

(** special case m2 = -J - m1  ClebschGordanBox.cc:195-238 *)
Definition lowStep (ps : list Z) (twoJ twoJ1 twoJ2 mintwom1 twom1 : Z) (mtwo : frac) (CG : list frac) : option (list frac) :=
  let max2 := twoJ2 + 1 in
  if (twoJ <? twoJ1 + twoJ2) && (twom1 >? mintwom1) && (twom1 <=? - mintwom1) && (twoJ + twom1 <=? twoJ2) then
    let twom2 := - twoJ - twom1 in
    let twom := - twoJ in
    let i := Z.quot ((twom1 + twoJ1) * max2 + (twom2 + twoJ2)) 2 in
    let denom := (twoJ2 - twom2) * (twoJ2 + twom2 + 2) in
    do c1 <- rdz CG (i + 1);
    do q1 <- fracInt ps ((twoJ - twom) * (twoJ + twom + 2)) denom;
    do c2 <- rdz CG (i - max2 + 1);
    do q2 <- fracInt ps ((twoJ1 + twom1) * (twoJ1 - twom1 + 2)) denom;
    do r <- combine ps mtwo true (fracMul c1 q1) (fracMul c2 q2);
    wrz CG i r
  else Some CG.

(* glue: a for loop with a possibly aborting body *)
Fixpoint foldO {A B} (f : B -> A -> option A) (l : list B) (a : A) : option A :=
  match l with [] => Some a | x :: l' => do a' <- f x a; foldO f l' a' end.

(** first part: the unnormalised table  ClebschGordanBox.cc:48-239.
    The warning about quantum numbers that do not couple (43-48) does not stop the calculation. *)
Definition rawTable (ps : list Z) (twoJ twoJ1 twoJ2 : Z) : option (list frac) :=
  let max1 := twoJ1 + 1 in
  let max2 := twoJ2 + 1 in
  let mintwom1 := if twoJ + twoJ2 <? twoJ1 then - twoJ - twoJ2 else - twoJ1 in
  let minIndex := Z.quot (mintwom1 + twoJ1) 2 * max2 + max2 - 1 in
  do one <- fracInt ps 1 1;
  do two <- fracInt ps 2 1;
  do mtwo <- fracInt ps (-2) 1;
  do CG <- wrz (repeat fracDefault (Z.to_nat (max1 * max2))) minIndex one;
  foldO (fun twom1 CG =>
           do CG <- foldO (innerStep ps twoJ twoJ1 twoJ2 mintwom1 twom1 mtwo) (stepDown (twoJ2 - 2) (- twoJ2)) CG;
           do CG <- topStep ps twoJ twoJ1 twoJ2 mintwom1 twom1 two CG;
           lowStep ps twoJ twoJ1 twoJ2 mintwom1 twom1 mtwo CG)
        (stepUp (- twoJ1) twoJ1) CG.

(** the projection m1 + m2 (in units of 1/2) of entry i  ClebschGordanBox.cc:244-245, 262-265 *)
Definition projOf (twoJ1 twoJ2 : Z) (i : nat) : Z :=
  let max2 := twoJ2 + 1 in
  (2 * (Z.of_nat i / max2) - twoJ1) + (2 * (Z.of_nat i mod max2) - twoJ2).

(** overall sign  ClebschGordanBox.cc:241-249: the sign of the last non-zero entry with m = J *)
Fixpoint overallSign (ps : list Z) (twoJ twoJ1 twoJ2 : Z) (i : nat) (rest : list frac) (acc : Z) : option Z :=
  match rest with
  | [] => Some acc
  | c :: rest' =>
      if (projOf twoJ1 twoJ2 i =? twoJ) && negb (fracEqb c fracZero) then
        do s <- getSign ps c; overallSign ps twoJ twoJ1 twoJ2 (S i) rest' (fst s)
      else overallSign ps twoJ twoJ1 twoJ2 (S i) rest' acc
  end.

(** sum of |CG[i]| over the entries with projection twom  ClebschGordanBox.cc:252-267 *)
Fixpoint columnSum (ps : list Z) (twoJ1 twoJ2 twom : Z) (i : nat) (rest : list frac) (acc : frac) : option frac :=
  match rest with
  | [] => Some acc
  | c :: rest' =>
      if projOf twoJ1 twoJ2 i =? twom then
        do s <- fracAdd ps acc (fracAbs c); columnSum ps twoJ1 twoJ2 twom (S i) rest' s
      else columnSum ps twoJ1 twoJ2 twom (S i) rest' acc
  end.

(** scaling of the entries with projection twom  ClebschGordanBox.cc:270-279 *)
Fixpoint scaleColumn (twoJ1 twoJ2 twom : Z) (flip : bool) (inv : frac) (i : nat) (rest : list frac) : list frac :=
  match rest with
  | [] => []
  | c :: rest' =>
      (if projOf twoJ1 twoJ2 i =? twom then
         let c' := fracMul c inv in if flip then flipSign c' else c'
       else c) :: scaleColumn twoJ1 twoJ2 twom flip inv (S i) rest'
  end.

(** one iteration of the loop over twom  ClebschGordanBox.cc:251-280; the return value of Invert is ignored *)
Definition normaliseStep (ps : list Z) (twoJ1 twoJ2 : Z) (sign : Z) (twom : Z) (CG : list frac) : option (list frac) :=
  do s <- columnSum ps twoJ1 twoJ2 twom 0 CG fracZero;
  do inv <- fracInvert ps s;
  Some (scaleColumn twoJ1 twoJ2 twom (sign =? -1) (fst inv) 0 CG).

(* ClebschGordanBox.cc:251-280 (the loop) *)
Definition normalise (ps : list Z) (twoJ twoJ1 twoJ2 : Z) (CG : list frac) : option (list frac) :=
  do sign <- overallSign ps twoJ twoJ1 twoJ2 0 CG 0;
  foldO (normaliseStep ps twoJ1 twoJ2 sign) (stepUp (- twoJ) twoJ) CG.

(** ClebschGordan  ClebschGordanBox.cc:35-282 *)
Definition clebschGordan (ps : list Z) (twoJ twoJ1 twoJ2 : Z) : option (list frac) :=
  do raw <- rawTable ps twoJ twoJ1 twoJ2;
  normalise ps twoJ twoJ1 twoJ2 raw.

(** GetCG  ClebschGordanBox.cc:23-32: tables are calculated once per (J,J1,J2) and kept. *)
Definition cgKey := (Z * Z * Z)%type.
(* ClebschGordanBox.h:30-50, 82: equality of the map key (J,J1,J2) *)
Definition keyEqb (a b : cgKey) : bool :=
  let '(a1, a2, a3) := a in let '(b1, b2, b3) := b in (a1 =? b1) && (a2 =? b2) && (a3 =? b3).
(* C++ std::map::find, ClebschGordanBox.cc:23-32 *)
Fixpoint lookup (k : cgKey) (m : list (cgKey * list frac)) : option (list frac) :=
  match m with [] => None | (k', v) :: m' => if keyEqb k k' then Some v else lookup k m' end.
(* ClebschGordanBox.cc:23-32 *)
Definition getCG (ps : list Z) (k : cgKey) (box : list (cgKey * list frac)) : option (list frac * list (cgKey * list frac)) :=
  match lookup k box with
  | Some v => Some (v, box)
  | None => let '(J, J1, J2) := k in
            do v <- clebschGordan ps (2 * J) (2 * J1) (2 * J2); Some (v, (k, v) :: box)
  end.
