(* Model of rpwa::complexMatrix, partialWaveFit/complexMatrix.{h,cc}.

   Simplifications: double is R; a boost::numeric::ublas::matrix is its dimensions and its
   row-major element list; an access outside the matrix, or an operation on matrices whose
   dimensions do not fit, is None (ublas checks it only in debug builds and otherwise reads
   other memory).  determinant (LU decomposition by ublas) is modelled for non-square
   matrices only. *)
From Coq Require Import List ZArith Reals Bool.
From Coquelicot Require Import Complex.
From Verif Require Import CGBoxModel.
Import ListNotations.
Open Scope list_scope.

(* complexMatrix.h 38-100: the ublas matrix held by an object *)
Record cmat := mkCMat { m_rows : nat; m_cols : nat; m_elems : list C }.
(* C++ invariant of ublas::matrix: size of the unbounded_array *)
Definition wfMat (m : cmat) : Prop := length (m_elems m) = (m_rows m * m_cols m)%nat.

(* ublas::matrix (rows, cols) built element by element in row-major order *)
(* C++ construction of a ublas::matrix *)
Definition build (rows cols : nat) (f : nat -> nat -> C) : cmat :=
  mkCMat rows cols (flat_map (fun i => map (f i) (List.seq 0 cols)) (List.seq 0 rows)).

(* complexMatrix.h 66-67 *)
Definition get (m : cmat) (i j : nat) : option C :=
  if (i <? m_rows m)%nat && (j <? m_cols m)%nat then nth_error (m_elems m) (i * m_cols m + j) else None.

(* C++ operator == of std::complex<double> *)
Definition Ceqb (a b : C) : bool :=
  (if Req_EM_T (fst a) (fst b) then true else false) && (if Req_EM_T (snd a) (snd b) then true else false).

(* a loop whose body may return a final result early *)
(* the loop of complexMatrix.cc 70-93, which returns early *)
Fixpoint loopE {X} (body : X -> option (option bool)) (l : list X) : option (option bool) :=
  match l with
  | [] => Some None
  | x :: r => match body x with
              | None => None
              | Some (Some b) => Some (Some b)
              | Some None => loopE body r
              end
  end.
(* complexMatrix.cc 94: the result after the loop *)
Definition endLoop (r : option (option bool)) : option bool :=
  match r with None => None | Some None => Some true | Some (Some b) => Some b end.

(* complexMatrix.cc 45-58; note that i runs over columns and j over rows, but get takes
   (row, column) *)
Definition eqM (a b : cmat) : option bool :=
  if negb (m_cols a =? m_cols b)%nat || negb (m_rows a =? m_rows b)%nat then Some false
  else endLoop (loopE (fun i => loopE (fun j =>
         do x <- get a i j; do y <- get b i j;
         Some (if Ceqb x y then None else Some false)) (List.seq 0 (m_rows a))) (List.seq 0 (m_cols a))).

(* complexMatrix.cc 61-95 with verbose = false *)
Definition Rgtb (x y : R) : bool := if Rgt_dec x y then true else false.
(* complexMatrix.cc 61-95 *)
Definition equalToPrecision (a b : cmat) (precision : R) : option bool :=
  if negb (m_cols a =? m_cols b)%nat || negb (m_rows a =? m_rows b)%nat then Some false
  else endLoop (loopE (fun i => loopE (fun j =>
         do x <- get a i j; do y <- get b i j;
         Some (if Rgtb (Rabs (fst x - fst y)) precision then Some false
               else if Rgtb (Rabs (snd x - snd y)) precision then Some false else None))
       (List.seq 0 (m_rows a))) (List.seq 0 (m_cols a))).
(* with verbose = true: the loop does not stop *)
(* complexMatrix.cc 70-93 with verbose = true *)
Fixpoint loopAll {X} (body : X -> bool -> option bool) (l : list X) (s : bool) : option bool :=
  match l with [] => Some s | x :: r => do s' <- body x s; loopAll body r s' end.
(* complexMatrix.cc 61-95 with verbose = true *)
Definition equalToPrecisionVerbose (a b : cmat) (precision : R) : option bool :=
  if negb (m_cols a =? m_cols b)%nat || negb (m_rows a =? m_rows b)%nat then Some false
  else loopAll (fun i => loopAll (fun j s =>
         do x <- get a i j; do y <- get b i j;
         let s := if Rgtb (Rabs (fst x - fst y)) precision then false else s in
         Some (if Rgtb (Rabs (snd x - snd y)) precision then false else s))
       (List.seq 0 (m_rows a))) (List.seq 0 (m_cols a)) true.

(* element of a matrix within its range *)
Definition elt (m : cmat) (i j : nat) : C := nth (i * m_cols m + j) (m_elems m) (RtoC 0).
(* complexMatrix.cc 98-101: ublas trans *)
Definition transpose (m : cmat) : cmat := build (m_cols m) (m_rows m) (fun i j => elt m j i).
(* complexMatrix.cc 104-107: ublas conj, which does not transpose *)
Definition dagger (m : cmat) : cmat := build (m_rows m) (m_cols m) (fun i j => Cconj (elt m i j)).

(* the sum of ublas::prod, complexMatrix.cc 139-142 *)
Fixpoint sumC (f : nat -> C) (n : nat) : C := match n with O => RtoC 0 | S k => (sumC f k + f k)%C end.
(* complexMatrix.cc 139-154 *)
Definition mulM (a b : cmat) : option cmat :=
  if (m_cols a =? m_rows b)%nat
  then Some (build (m_rows a) (m_cols b) (fun i j => sumC (fun k => (elt a i k * elt b k j)%C) (m_cols a))) else None.
(* complexMatrix.cc 145-154 *)
Definition zipM (f : C -> C -> C) (a b : cmat) : option cmat :=
  if (m_rows a =? m_rows b)%nat && (m_cols a =? m_cols b)%nat
  then Some (build (m_rows a) (m_cols a) (fun i j => f (elt a i j) (elt b i j))) else None.
(* complexMatrix.cc 151-154 *)
Definition addM := zipM Cplus.
(* complexMatrix.cc 145-148 *)
Definition subM := zipM Cminus.

(* complexMatrix.cc 110-116: non-square matrices (None stands for the LU part) *)
Definition determinantNonSquare (m : cmat) : option C :=
  if negb (m_rows m =? m_cols m)%nat then Some (RtoC 0) else None.

(* complexMatrix.cc 164-198: the persistent members _size1, _size2, _data *)
Record stored := mkStored { p_size1 : nat; p_size2 : nat; p_data : list C }.
(* complexMatrix.cc 182-198 *)
Definition storeMatrix (m : cmat) : stored :=
  mkStored (m_rows m) (m_cols m) (flat_map (fun i => map (fun j => elt m i j) (List.seq 0 (m_cols m))) (List.seq 0 (m_rows m))).
(* complexMatrix.cc 164-179 *)
Definition readMatrix (p : stored) : cmat :=
  if (0 <? p_size1 p)%nat && (0 <? p_size2 p)%nat
  then build (p_size1 p) (p_size2 p) (fun i j => nth (i * p_size2 p + j) (p_data p) (RtoC 0))
  else mkCMat 0 0 [].

(* ---- ownership of _data ---- *)
(* The objects are numbered; o_data is the pointer _data (an allocation number), h_live the
   allocations that have not been deleted.  complexMatrix defines no copy constructor and
   no assignment, so both copy the pointer (complexMatrix.h).  None: a block is deleted
   twice. *)
(* representation of the objects and of their allocated _data arrays, complexMatrix.h 95-106 *)
Record heap := mkHeap { h_objs : list (nat * option nat); h_live : list nat; h_next : nat }.
(* the operations of complexMatrix.cc 37-42, 164-198 on objects *)
Inductive op :=
| ONew (x : nat)          (* constructor, complexMatrix.h 48-61 *)
| OCopy (x y : nat)       (* complexMatrix x(y) *)
| OAssign (x y : nat)     (* x = y *)
| OStore (x : nat)        (* writing x, complexMatrix.cc 182-198 *)
| ORead (x : nat)         (* reading into x: ROOT deletes the old _data and allocates a new one, which readMatrix deletes, 164-179 *)
| ODestroy (x : nat).     (* destructor, complexMatrix.cc 37-42 *)
Definition dataOf (h : heap) (x : nat) : option (option nat) :=
  option_map snd (find (fun e => (fst e =? x)%nat) (h_objs h)).
(* assignment to _data, complexMatrix.cc 164-198 *)
Definition setData (h : heap) (x : nat) (d : option nat) : heap :=
  mkHeap ((x, d) :: filter (fun e => negb (fst e =? x)%nat) (h_objs h)) (h_live h) (h_next h).
(* end of life of an object, complexMatrix.cc 37-42 *)
Definition delObj (h : heap) (x : nat) : heap :=
  mkHeap (filter (fun e => negb (fst e =? x)%nat) (h_objs h)) (h_live h) (h_next h).
(* if(_data) delete [] _data *)
(* complexMatrix.cc 37-42, 177, 187-190: delete [] *)
Definition release (h : heap) (d : option nat) : option heap :=
  match d with
  | None => Some h
  | Some p => if existsb (Nat.eqb p) (h_live h)
              then Some (mkHeap (h_objs h) (filter (fun q => negb (q =? p)%nat) (h_live h)) (h_next h)) else None
  end.
(* complexMatrix.cc 37-42, 164-198 *)
Definition stepH (h : heap) (o : op) : option heap :=
  match o with
  | ONew x => Some (setData h x None)
  | OCopy x y | OAssign x y => do d <- dataOf h y; Some (setData h x d)
  | OStore x =>
      do d <- dataOf h x; do h1 <- release h d;
      Some (setData (mkHeap (h_objs h1) (h_next h1 :: h_live h1) (S (h_next h1))) x (Some (h_next h1)))
  | ORead x => do d <- dataOf h x; do h1 <- release h d; Some (setData h1 x None)
  | ODestroy x => do d <- dataOf h x; do h1 <- release h d; Some (delObj h1 x)
  end.
(* histories of the operations of complexMatrix.cc 37-42, 164-198 *)
Fixpoint runH (h : heap) (ops : list op) : option heap :=
  match ops with [] => Some h | o :: r => do h' <- stepH h o; runH h' r end.
