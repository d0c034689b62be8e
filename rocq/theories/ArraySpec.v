(* Row-major addressing, independently of the code. *)
From Coq Require Import List Arith.
Import ListNotations.

Definition product (l : list nat) : nat := fold_right Nat.mul 1 l.

(* idx is an index tuple inside the box dims *)
Definition inBox (dims idx : list nat) : Prop := Forall2 (fun d i => i < d) dims idx.

(* sum over i of idx_i times the product of all later extents *)
Fixpoint rowMajor (dims idx : list nat) : nat :=
  match dims, idx with
  | _ :: ds, i :: is => i * product ds + rowMajor ds is
  | _, _ => 0
  end.

(* lexicographic order on tuples *)
Fixpoint lexLt (a b : list nat) : Prop :=
  match a, b with
  | x :: xs, y :: ys => x < y \/ (x = y /\ lexLt xs ys)
  | _, _ => False
  end.
