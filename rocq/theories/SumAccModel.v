(* Model of the accumulators of utilities/sumAccumulators.hpp.

   The sample type is abstract; its addition/subtraction are parameters, i.e. the
   model is exact arithmetic (no rounding).  [None] = undefined behaviour (access
   outside a buffer, or use of an uninitialised buffer cell). *)
From Coq Require Import List Arith Bool.
From Verif Require Import ArrayModel.
Import ListNotations.

Section Acc.
Context {A : Type} (zero : A) (add sub : A -> A -> A).

(* sumAccumulators.hpp 141-143: members *)
Record cascaded := { sumNext : bool; psIndex : nat; partialSums : list A }.

(* sumAccumulators.hpp 76-90: constructor; n = announced number of values,
   init = optional initial sample *)
Definition cascadedNew (n : nat) (init : A) : cascaded :=
  let nmbSums := n / 2 + (if 0 <? n mod 2 then 1 else 0) in
  {| sumNext := false; psIndex := 0;
     partialSums := match repeat zero nmbSums with [] => [] | _ :: r => init :: r end |}.

(* std::vector::resize(k, zero) *)
Definition resize (v : list A) (k : nat) : list A := firstn k v ++ repeat zero (k - length v).

(* sumAccumulators.hpp 92-106: operator () *)
Definition cascadedAdd (s : cascaded) (x : A) : option cascaded :=
  if sumNext s then
    match rd (partialSums s) (psIndex s) with
    | None => None
    | Some old =>
      match wr (partialSums s) (psIndex s) (add old x) with
      | None => None
      | Some ps => Some {| sumNext := false; psIndex := S (psIndex s); partialSums := ps |}
      end
    end
  else
    let ps := if length (partialSums s) <=? psIndex s then resize (partialSums s) (psIndex s)
              else partialSums s in
    match wr ps (psIndex s) x with
    | None => None
    | Some ps' => Some {| sumNext := true; psIndex := psIndex s; partialSums := ps' |}
    end.

(* cells of the variable-length array [sum]: None = not yet initialised *)
Notation buf := (list (option A)).
(* sumAccumulators.hpp 92-106: element of _partialSums *)
Definition rdBuf (b : buf) (i : nat) : option A :=
  match rd b i with Some (Some x) => Some x | _ => None end.

(* sumAccumulators.hpp 124-125: first pass, reads the partial sums *)
Definition firstPass (ps : list A) (b : option buf) (i : nat) : option buf :=
  match b, rd ps (2 * i), rd ps (2 * i + 1) with
  | Some b, Some x, Some y => wr b i (Some (add x y))
  | _, _, _ => None
  end.

(* sumAccumulators.hpp 131-132: later passes, in place *)
Definition pairStep (b : option buf) (i : nat) : option buf :=
  match b with
  | None => None
  | Some b =>
    match rdBuf b (2 * i), rdBuf b (2 * i + 1) with
    | Some x, Some y => wr b i (Some (add x y))
    | _, _ => None
    end
  end.

(* sumAccumulators.hpp 130-136: while (newSumSize > 2); fuel bounds the iterations *)
Fixpoint whilePass (fuel : nat) (n : nat) (b : buf) : option buf :=
  match fuel with
  | O => None
  | S f =>
    if 2 <? n then
      match fold_left pairStep (seq 0 (n / 2)) (Some b) with
      | None => None
      | Some b1 =>
        if 0 <? n mod 2 then
          match rdBuf b1 (n - 1) with
          | None => None
          | Some x => match wr b1 (n / 2) (Some x) with
                      | None => None
                      | Some b2 => whilePass f ((n + 1) / 2) b2
                      end
          end
        else whilePass f ((n + 1) / 2) b1
      end
    else Some b
  end.

(* sumAccumulators.hpp 108-138: result *)
Definition cascadedResult (s : cascaded) : option A :=
  let ps := partialSums s in
  let size := length ps in
  match ps with
  | [] => Some zero
  | [x] => Some x
  | [x; y] => Some (add x y)
  | _ =>
    let halfSize := size / 2 in
    match fold_left (firstPass ps) (seq 0 halfSize) (Some (repeat None (halfSize + 1))) with
    | None => None
    | Some b =>
      match (if 0 <? halfSize then
               match rd ps (size - 1) with
               | None => None
               | Some x => wr b halfSize (Some x)
               end
             else Some b) with
      | None => None
      | Some b1 =>
        match whilePass (S size) ((size + 1) / 2) b1 with
        | None => None
        | Some b2 =>
          match rdBuf b2 0, rdBuf b2 1 with
          | Some x, Some y => Some (add x y)
          | _, _ => None
          end
        end
      end
    end
  end.

(* announcing n values, adding the samples xs one after the other, asking the result *)
(* histories of the calls of sumAccumulators.hpp 92-138 *)
Definition cascadedRun (n : nat) (init : A) (xs : list A) : option A :=
  match fold_left (fun s x => match s with None => None | Some s => cascadedAdd s x end)
                  xs (Some (cascadedNew n init)) with
  | None => None
  | Some s => cascadedResult s
  end.

(* sumAccumulators.hpp 153-192: compensated (Kahan) sum; state (_sum, _compensation) *)
Definition compensatedAdd (s : A * A) (x : A) : A * A :=
  let '(sum, comp) := s in
  let correctedTerm := sub x comp in
  let newSum := add sum correctedTerm in
  (newSum, sub (sub newSum sum) correctedTerm).
(* histories of the calls of sumAccumulators.hpp 153-192 *)
Definition compensatedRun (init : A) (xs : list A) : A :=
  fst (fold_left compensatedAdd xs (init, zero)).
End Acc.
