(* Model of the pseudo-n-dimensional array addressing of utilities/arrayUtils.hpp.

   [None] stands for undefined behaviour: reading/writing outside an array or
   dividing by a zero extent.  Simplification: the template integer type T is
   modelled by [nat]; wrap-around of T is not modelled, i.e. the number of array
   elements is assumed to fit into T. *)
From Coq Require Import List Arith Lia.
Import ListNotations.

(* reading [v[i]] *)
(* C++ vector element access (checked): None = outside the vector *)
Definition rd {A} (v : list A) (i : nat) : option A := nth_error v i.

(* writing [v[i] = x] *)
(* C++ assignment to a vector element (checked): None = outside the vector *)
Fixpoint wr {A} (v : list A) (i : nat) (x : A) : option (list A) :=
  match v, i with
  | [], _ => None
  | _ :: t, O => Some (x :: t)
  | h :: t, S k => match wr t k x with Some t' => Some (h :: t') | None => None end
  end.

(* utilities/arrayUtils.hpp 151-162 (and the sizes computed in 177-187):
   for (i = 1; i < nmbDim; ++i) nmbElements *= dim[i] *)
Definition nmbElements (dim : list nat) (nmbDim : nat) : option nat :=
  fold_left (fun acc i =>
               match acc, rd dim i with Some a, Some d => Some (a * d) | _, _ => None end)
            (seq 1 (nmbDim - 1)) (rd dim 0).

(* utilities/arrayUtils.hpp 202-226: both overloads of indicesToOffset *)
Definition indicesToOffset (indices dim : list nat) (nmbDim : nat) : option nat :=
  fold_left (fun acc i =>
               match acc, rd dim i, rd indices i with
               | Some a, Some d, Some x => Some (a * d + x) | _, _, _ => None end)
            (seq 1 (nmbDim - 1)) (rd indices 0).

(* one iteration of the loop 237-240 resp. 251-254 *)
Definition offsetStep (dim : list nat) (st : option (nat * list nat)) (i : nat)
  : option (nat * list nat) :=
  match st, rd dim i with
  | Some (index, ind), Some (S d) =>
      match wr ind i (index mod (S d)) with
      | Some ind' => Some (index / (S d), ind')
      | None => None
      end
  | _, _ => None
  end.

(* utilities/arrayUtils.hpp 229-259: both overloads of offsetToIndices;
   the loop runs i = nmbDim - 1 down to 1.  nmbDim = 0 makes the unsigned start
   value wrap around and hence read out of bounds. *)
Definition offsetToIndices (offset : nat) (dim : list nat) (nmbDim : nat) (indices : list nat)
  : option (list nat) :=
  match nmbDim with
  | O => None
  | _ =>
    match fold_left (offsetStep dim) (rev (seq 1 (nmbDim - 1))) (Some (offset, indices)) with
    | Some (index, ind) => wr ind 0 index
    | None => None
    end
  end.
