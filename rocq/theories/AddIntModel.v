(* Model of partialWaveFit/addIntegralsToFitResult.cc and partialWaveFit/stripIntegralsFromFitResult.cc (C93): integral matrices
   are put into, or removed from, all fit results of a file. Fit results are those of FitResultModel, integral matrices those of
   AmpIntModel. Simplifications: double is R, so that the square root of a negative number and divisions by 0 have some real
   value where the code has NaN or infinity (the theorems assume positive numbers); files are lists of fit results, opening and
   reading them and the messages are left out; elements of a new complexMatrix, indeterminate in the code, are 0 and all of them are
   set before they are used; unsigned int is nat, so that a result without waves, for which nmbWaves - 1 wraps around
   and waveName reads outside of a vector, is the abort None. *)
From Coq Require Import String Ascii List ZArith Bool Reals.
From Coquelicot Require Import Complex.
From Verif Require Import PathModel StrModel CGBoxModel ParticleModel AmpIntModel LikSetModel FitResultModel.
Import ListNotations.
Open Scope list_scope. Open Scope nat_scope.

(* glue: a run of main: abort (throw without exception or access outside of a vector), return 1, or what follows *)
Inductive run (A : Type) : Type := Aborted | Failed | Done (a : A).
Arguments Aborted {A}. Arguments Failed {A}. Arguments Done {A}.
(* glue: sequence of statements in main *)
Definition andThen {A B} (x : run A) (f : A -> run B) : run B := match x with Aborted => Aborted | Failed => Failed | Done a => f a end.
(* glue: a call that may abort *)
Definition call {A B} (x : option A) (f : A -> run B) : run B := match x with None => Aborted | Some a => f a end.
(* glue: a for loop of main with a counter in the given list *)
Fixpoint loop {S} (l : list nat) (f : nat -> S -> run S) (s : S) : run S :=
  match l with [] => Done s | i :: r => andThen (f i s) (loop r f) end.

(* complexMatrix.h 65 *)
Definition matSet (m : mat C) (i j : nat) (z : C) : mat C :=
  Mat (rows m) (cols m) (fun a b => if (a =? i) && (b =? j) then z else el m a b).
(* complexMatrix.h 57-62 *)
Definition matNew (n k : nat) : mat C := Mat n k (fun _ _ => RtoC 0).

(* addIntegralsToFitResult.cc 235-248: the inner loop for the wave with index i *)
Definition takeElement (waves : list str) (N A : aim) (i : nat) (wi : str) (j : nat) (s : mat C * mat C) : run (mat C * mat C) :=
  call (nth_error waves j) (fun wj =>
  if str_eqb wj (lit "flat") then Failed else
  call (getReflectivity wi) (fun ri => call (getReflectivity wj) (fun rj =>
  if (ri =? rj)%Z then
    call (elementByName N wi wj) (fun n => call (elementByName A wi wj) (fun a =>
    Done (matSet (fst s) i j n, matSet (snd s) i j a)))
  else Done (matSet (fst s) i j (RtoC 0), matSet (snd s) i j (RtoC 0))))).
(* addIntegralsToFitResult.cc 229-249 *)
Definition takeElements (waves : list str) (N A : aim) (n : nat) : run (mat C * mat C) :=
  loop (List.seq 0 (n - 1)) (fun i s =>
    call (nth_error waves i) (fun wi =>
    if str_eqb wi (lit "flat") then Failed else
    loop (List.seq 0 (n - 1)) (takeElement waves N A i wi) s)) (matNew n n, matNew n n).
(* addIntegralsToFitResult.cc 226, 250-253 *)
Definition phaseSpaceOf (norm : mat C) (n : nat) : list R := map (fun i => sqrt (Re (el norm i i))) (List.seq 0 (n - 1)) ++ [1%R].
(* addIntegralsToFitResult.cc 255-262 *)
Definition scaleElement (ph : list R) (i j : nat) (s : mat C * mat C) : mat C * mat C :=
  let d := RtoC (nth i ph 0%R * nth j ph 0%R) in
  let norm := fst s in let acc := snd s in
  (if i =? j then matSet norm i j (RtoC 1) else matSet norm i j (el norm i j / d)%C, matSet acc i j (el acc i j / d)%C).
(* addIntegralsToFitResult.cc 254-263 *)
Definition scaleElements (ph : list R) (n : nat) (s : mat C * mat C) : mat C * mat C :=
  fold_left (fun s i => fold_left (fun s j => scaleElement ph i j s) (List.seq 0 (n - 1)) s) (List.seq 0 (n - 1)) s.
(* addIntegralsToFitResult.cc 264-271 for one of the matrices *)
Definition flatRow (n : nat) (z : C) (m : mat C) : mat C :=
  matSet (fold_left (fun m i => matSet (matSet m (n - 1) i (RtoC 0)) i (n - 1) (RtoC 0)) (List.seq 0 (cols m)) m) (n - 1) (n - 1) z.

(* addIntegralsToFitResult.cc 210-213 *)
Definition hasIntegrals (r : fitResult) : bool :=
  negb (cols (frNorm r) =? 0) || negb (rows (frNorm r) =? 0) || negb (cols (frAcc r) =? 0) || negb (rows (frAcc r) =? 0) || negb (length (frPhaseSpace r) =? 0).

(* addIntegralsToFitResult.cc 187-291: one entry of the tree; the second component of the result is the acceptance integral
   after 228 *)
Definition addToOne (force : bool) (N A : aim) (r : fitResult) : run (fitResult * aim) :=
  if hasIntegrals r && negb force then Failed else
  let n := length (frWaveNames r) in
  let totalAcceptance := (IZR (nmbEvents A) / IZR (nmbEvents N))%R in
  let A := setNmbEvents A (nmbEvents N) in
  if n =? 0 then Aborted else
  andThen (takeElements (frWaveNames r) N A n) (fun s =>
  let ph := phaseSpaceOf (fst s) n in
  let s := scaleElements ph n s in
  let norm := flatRow n (RtoC 1) (fst s) in
  let acc := flatRow n (RtoC totalAcceptance) (snd s) in
  Done (fill (frReset frNew) (FA (frNmbEvents r) (frNormNmbEvents r) (frBounds r) (frLogL r) (frRank r) (frAmps r) (frAmpNames r)
    (Some (frCov r)) (frCovIdx r) (Some norm) (Some acc) (Some ph) (frConverged r) (frHasHessian r)), A)).

(* addIntegralsToFitResult.cc 186-292: the loop over the entries of the tree *)
Fixpoint addToAll (force : bool) (N A : aim) (rs : list fitResult) : run (list fitResult) :=
  match rs with
  | [] => Done []
  | r :: rest => andThen (addToOne force N A r) (fun '(out, A) => andThen (addToAll force N A rest) (fun outs => Done (out :: outs)))
  end.

(* stripIntegralsFromFitResult.cc 136-144 *)
Definition stripAll (stripCovarianceMatrix : bool) (rs : list fitResult) : list fitResult :=
  map (fun r => fillFromResult (frReset frNew) r (negb stripCovarianceMatrix) false) rs.
