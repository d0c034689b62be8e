(* Model of clebschGordanCoeffCached (utilities/spinUtils.hpp 238-411).

   Numbers: the double arithmetic is replaced by exact rationals; a coefficient
   sqrt(A) * sum (line 324) is represented by the pair (A, sum) of rationals.
   [throw;] without active exception (line 257) and a factorial of a negative
   number (which the unsigned conversion in utilities/factorial.hpp turns into a
   huge argument and then into [throw;]) are the outcome [CGTerminate]. *)
From Coq Require Import ZArith QArith Bool List Factorial.
From Verif Require Import SpinModel.
Import ListNotations.
Open Scope Z_scope.

(* value of a coefficient: 0, or sqrt(A)*sum *)
Inductive cgVal : Type := CGZero | CGRoot (A sum : Q).
(* spinUtils.hpp 255-332: value or throw *)
Inductive cgOutcome : Type := CGTerminate | CGVal (v : cgVal).

(* utilities/factorial.hpp 52-90, exact values, negative argument = abort *)
Definition facZ (n : Z) : option Z :=
  if n <? 0 then None else Some (Z.of_nat (fact (Z.to_nat n))).

(* sequencing of possibly aborting computations *)
(* glue: no counterpart in /repo, option monad *)
Definition bindO {A B} (x : option A) (f : A -> option B) : option B :=
  match x with Some a => f a | None => None end.

(* spinUtils.hpp 289-292: first summation index *)
Fixpoint cgFirstNu (fuel : nat) (j1 m1 j2 M nu : Z) : Z :=
  match fuel with
  | O => nu
  | S f => if (Z.quot (j1 - j2 - M) 2 + nu <? 0) || (Z.quot (j1 - m1) 2 + nu <? 0)
           then cgFirstNu f j1 m1 j2 M (nu + 1) else nu
  end.

(* spinUtils.hpp 294-305: the summation loop *)
Fixpoint cgSumLoop (fuel : nat) (j1 m1 j2 m2 J M nu : Z) (sum : Q) : option Q :=
  match fuel with
  | O => Some sum
  | S f =>
    let d1 := Z.quot (J - j1 + j2) 2 - nu in
    let d2 := Z.quot (J + M) 2 - nu in
    let n1 := Z.quot (j2 + J + m1) 2 - nu in
    if (0 <=? d1) && (0 <=? d2) && (0 <=? n1) then
      let d3 := Z.quot (j1 - j2 - M) 2 + nu in
      let n2 := Z.quot (j1 - m1) 2 + nu in
      bindO (facZ n1) (fun fn1 => bindO (facZ n2) (fun fn2 =>
      bindO (facZ nu) (fun fnu => bindO (facZ d1) (fun fd1 =>
      bindO (facZ d2) (fun fd2 => bindO (facZ d3) (fun fd3 =>
        cgSumLoop f j1 m1 j2 m2 J M (nu + 1)
          (sum + (inject_Z (powMinusOne (nu + Z.quot (j2 + m2) 2) * fn1 * fn2)
                  / inject_Z (fnu * fd1 * fd2 * fd3)))%Q))))))
    else Some sum
  end.

(* spinUtils.hpp 310-322: the factor under the square root *)
Definition cgPrefactor (j1 m1 j2 m2 J M : Z) : option Q :=
  bindO (facZ (Z.quot (J + j1 - j2) 2)) (fun N1 =>
  bindO (facZ (Z.quot (J - j1 + j2) 2)) (fun N2 =>
  bindO (facZ (Z.quot (j1 + j2 - J) 2)) (fun N3 =>
  bindO (facZ (Z.quot (J + M) 2)) (fun N4 =>
  bindO (facZ (Z.quot (J - M) 2)) (fun N5 =>
  bindO (facZ (Z.quot (j1 + j2 + J) 2 + 1)) (fun D0 =>
  bindO (facZ (Z.quot (j1 - m1) 2)) (fun D1 =>
  bindO (facZ (Z.quot (j1 + m1) 2)) (fun D2 =>
  bindO (facZ (Z.quot (j2 - m2) 2)) (fun D3 =>
  bindO (facZ (Z.quot (j2 + m2) 2)) (fun D4 =>
    Some (inject_Z ((J + 1) * N1 * N2 * N3 * N4 * N5)
          / inject_Z (D0 * D1 * D2 * D3 * D4))%Q)))))))))).

(* spinUtils.hpp 288-324: direct calculation (fuel: the first loop runs at most
   |j1-j2-M| + |j1-m1| times, the second at most J+M+1 times) *)
Definition cgDirect (j1 m1 j2 m2 J M : Z) : cgOutcome :=
  let nu := cgFirstNu (Z.to_nat (Z.abs (j1 - j2 - M) + Z.abs (j1 - m1))) j1 m1 j2 M 0 in
  match cgSumLoop (Z.to_nat (J + M + 1)) j1 m1 j2 m2 J M nu 0%Q with
  | None => CGTerminate
  | Some sum =>
    if Qeq_bool sum 0 then CGVal CGZero
    else match cgPrefactor j1 m1 j2 m2 J M with
         | None => CGTerminate
         | Some A => CGVal (CGRoot A sum)
         end
  end.

(* spinUtils.hpp 363 *)
Definition cgMaxJ : Z := 18.

(* spinUtils.hpp 364 and 283: _cache[j1][m1][j2][m2][J] with the dimensions
   [18][35][18][35][36]; C++ computes this flat element offset (m1, m2 can be
   negative, i.e. single subscripts leave their sub-array) *)
Definition cgOffset (j1 m1 j2 m2 J : Z) : Z :=
  (((j1 * (2 * cgMaxJ - 1) + m1) * cgMaxJ + j2) * (2 * cgMaxJ - 1) + m2) * (2 * cgMaxJ) + J.
(* spinUtils.hpp 364: number of elements of _cache *)
Definition cgCacheSize : Z :=
  cgMaxJ * (2 * cgMaxJ - 1) * cgMaxJ * (2 * cgMaxJ - 1) * (2 * cgMaxJ).

(* the static members _useCache and _cache; 359-373 *)
Record cgState : Type := { cgUse : bool; cgCache : Z -> option cgVal }.
(* spinUtils.hpp 364-373: static initialisation *)
Definition cgInit : cgState := {| cgUse := true; cgCache := fun _ => None |}.

(* spinUtils.hpp 325-328: write to _cache *)
Definition cgStore (c : Z -> option cgVal) (o : Z) (v : cgVal) : Z -> option cgVal :=
  fun o' => if o' =? o then Some v else c o'.

(* spinUtils.hpp 246-332: operator() *)
Definition cgCall (s : cgState) (j1 m1 j2 m2 J M : Z) : cgState * cgOutcome :=
  if cgUse s && ((cgMaxJ <=? j1) || (cgMaxJ <=? j2) || (cgMaxJ <=? J)) then (s, CGTerminate)
  else if negb (spinAndProjAreCompatible j1 m1) || negb (spinAndProjAreCompatible j2 m2)
          || negb (spinAndProjAreCompatible J M) then (s, CGVal CGZero)
  else if negb (spinsCanCouple j1 j2 J) then (s, CGVal CGZero)
  else if negb (m1 + m2 =? M) then (s, CGVal CGZero)
  else
    let entry := if cgUse s then cgCache s (cgOffset j1 m1 j2 m2 J) else None in
    match entry with
    | Some v => (s, CGVal v)
    | None =>
      match cgDirect j1 m1 j2 m2 J M with
      | CGTerminate => (s, CGTerminate)
      | CGVal CGZero => (s, CGVal CGZero)
      | CGVal v =>
          (if cgUse s
           then {| cgUse := true; cgCache := cgStore (cgCache s) (cgOffset j1 m1 j2 m2 J) v |}
           else s, CGVal v)
      end
    end.

(* spinUtils.hpp 335: setUseCache *)
Definition cgSetUse (s : cgState) (b : bool) : cgState :=
  {| cgUse := b; cgCache := cgCache s |}.

(* any history of the public calls; the program ends at the first abort *)
Inductive cgOp : Type := OpCall (j1 m1 j2 m2 J M : Z) | OpSetUse (b : bool).
(* histories of the calls of spinUtils.hpp 255-335 *)
Fixpoint cgRun (s : cgState) (ops : list cgOp) : list cgOutcome :=
  match ops with
  | [] => []
  | OpSetUse b :: r => cgRun (cgSetUse s b) r
  | OpCall j1 m1 j2 m2 J M :: r =>
      let '(s', o) := cgCall s j1 m1 j2 m2 J M in
      match o with
      | CGTerminate => [o]
      | _ => o :: cgRun s' r
      end
  end.

(* spinUtils.hpp 399-411: coupling of states with projections *)
Definition spinStatesCanCouple (j1 m1 j2 m2 J M : Z) : option bool :=
  match snd (cgCall cgInit j1 m1 j2 m2 J M) with
  | CGTerminate => None
  | CGVal CGZero => Some false
  | CGVal _ => Some true
  end.
