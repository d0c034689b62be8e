(* Model of rpwa::getFitResultsFromFilesInMultibins, partialWaveFit/fitResult.cc 1108-1235.

   Simplifications: the trees are lists of fit results, the files are all readable (an
   unreadable file makes the function return an empty map at once); a multibin is a string
   that stands for its boundaries; double is R with None for NaN (comparisons with NaN are
   false); std::list iterators are positions in the list (insertion is at the end only, so
   they stay valid); the three maps of value, file/entry and iterator of the best result,
   which are always written together, are one map of triples; a failed assert is None. *)
From Coq Require Import List ZArith Reals Bool.
From Verif Require Import PathModel StrModel CGBoxModel.
Import ListNotations.
Open Scope list_scope.

(* representation of a double: None = nan (fitResult.h 208, logLikelihood) *)
Definition lik := option R.
(* operator < and operator == of double *)
(* C++ operator < of double *)
Definition ltL (a b : lik) : bool :=
  match a, b with Some x, Some y => if Rlt_dec x y then true else false | _, _ => false end.
(* C++ operator == of double *)
Definition eqL (a b : lik) : bool :=
  match a, b with Some x, Some y => if Req_EM_T x y then true else false | _, _ => false end.

(* the parts of a fitResult that the function looks at; r_id stands for all others,
   r_cov / r_int tell whether covariance / integral matrices are stored *)
(* fitResult.h 386-395: the members the function reads *)
Record res := mkRes { r_bin : str; r_lik : lik; r_conv : bool; r_id : nat; r_cov : bool; r_int : bool }.

(* fitResult.cc 427-448 *)
Definition fillFrom (src : res) (cov int : bool) : res :=
  mkRes (r_bin src) (r_lik src) (r_conv src) (r_id src) (cov && r_cov src) (int && r_int src).

(* representation of a pair (tree index, entry index), fitResult.cc 1144 *)
Definition pos : Set := (nat * nat)%type.  (* file, entry *)
(* the local maps of fitResult.cc 1142-1148 *)
Record state := mkSt {
  s_lists : list (str * list res);            (* fitResultsInMultibins *)
  s_all : list (str * unit);                  (* allMultibinBoundaries *)
  s_best : list (str * (lik * pos * nat));    (* ...OfBestResult *)
  s_cbest : list (str * (lik * pos * nat)) }. (* ...OfBestConvergedResult *)
Definition st0 : state := mkSt [] [] [] [].

(* C++ std::map operator [] for reading *)
Definition listOf {A} (k : str) (m : list (str * list A)) : list A := match m_find k m with Some l => l | None => [] end.

(* fitResult.cc 1166-1180 and 1173-1178: strictly smaller, or the first of the bin *)
Definition updBest (m : list (str * (lik * pos * nat))) (p : pos) (r : res) (it : nat) : list (str * (lik * pos * nat)) :=
  match m_find (r_bin r) m with
  | None => m_set (r_bin r) (r_lik r, p, it) m
  | Some (x, _, _) => if ltL (r_lik r) x then m_set (r_bin r) (r_lik r, p, it) m else m
  end.

(* fitResult.cc 1153-1181: one entry of one tree *)
Definition step (onlyBest strip onlyConv : bool) (s : state) (e : pos * res) : state :=
  let '(p, r) := e in
  if onlyConv && negb (r_conv r) then s
  else
    let all := m_set (r_bin r) tt (s_all s) in
    let it := length (listOf (r_bin r) (s_lists s)) in
    let lists := if onlyBest then s_lists s
                 else m_set (r_bin r) (listOf (r_bin r) (s_lists s) ++ [fillFrom r (negb strip) (negb strip)]) (s_lists s) in
    let cbest := if negb onlyBest && r_conv r then updBest (s_cbest s) p r it else s_cbest s in
    mkSt lists all (updBest (s_best s) p r it) cbest.

(* the entries in the order of the double loop, fitResult.cc 1149-1154 *)
Definition entriesOf (files : list (list res)) : list (pos * res) :=
  concat (map (fun f => map (fun e => ((fst f, fst e), snd e)) (List.combine (List.seq 0 (length (snd f))) (snd f)))
              (List.combine (List.seq 0 (length files)) files)).
(* trees[i]->GetEntry(j) *)
(* TTree::GetEntry, fitResult.cc 1189, 1197 *)
Definition getEntry (files : list (list res)) (p : pos) : option res :=
  do f <- nth_error files (fst p); nth_error f (snd p).

(* *iterator = r *)
(* C++ assignment through an iterator *)
Fixpoint setAt {A} (i : nat) (x : A) (l : list A) : list A :=
  match l, i with
  | [], _ => []
  | _ :: r, O => x :: r
  | y :: r, S i => y :: setAt i x r
  end.

(* fitResult.cc 1187-1193 *)
Definition addBest (files : list (list res)) (best : list (str * (lik * pos * nat)))
    (k : str) (lists : list (str * list res)) : option (list (str * list res)) :=
  do b <- m_find k best;
  do r <- getEntry files (snd (fst b));
  match listOf k lists with
  | [] => Some (m_set k [r] lists)
  | _ => None
  end.

(* fitResult.cc 1195-1213 *)
Definition refill (files : list (list res)) (best cbest : list (str * (lik * pos * nat)))
    (k : str) (lists : list (str * list res)) : option (list (str * list res)) :=
  do b <- m_find k best;
  let '(bl, bp, bi) := b in
  do r <- getEntry files bp;
  if negb (eqL bl (r_lik r)) then None
  else
  do old <- nth_error (listOf k lists) bi;
  if negb (eqL (r_lik old) (r_lik r)) then None
  else
  let lists1 := m_set k (setAt bi (fillFrom r true true) (listOf k lists)) lists in
  match m_find k cbest with
  | None => Some lists1
  | Some (cl, cp, ci) =>
      if negb (r_conv (fillFrom r true true)) then
        do r' <- getEntry files cp;
        Some (m_set k (setAt ci (fillFrom r' true true) (listOf k lists1)) lists1)
      else if eqL bl cl then Some lists1 else None
  end.

(* std::list::sort with the comparison ltL on the likelihood, a stable sort *)
Fixpoint insertS (x : res) (l : list res) : list res :=
  match l with
  | [] => [x]
  | y :: r => if ltL (r_lik y) (r_lik x) then y :: insertS x r else x :: l
  end.
(* C++ std::list sort / std::sort with the comparison of fitResult.cc 1195-1213 *)
Definition sortS (l : list res) : list res := fold_right insertS [] l.

(* fitResult.cc 1217-1226 *)
Definition sortBin (best : list (str * (lik * pos * nat))) (e : str * list res) : option (str * list res) :=
  let l := sortS (snd e) in
  do f <- hd_error l;
  do b <- m_find (fst e) best;
  if eqL (r_lik f) (fst (fst b)) then Some (fst e, l) else None.

(* glue: no counterpart in /repo, map of a possibly aborting function *)
Definition mapO2 {A B} (f : A -> option B) : list A -> option (list B) :=
  fix go l := match l with [] => Some [] | x :: r => do y <- f x; do t <- go r; Some (y :: t) end.

(* fitResult.cc 1108-1235: the whole function *)
Definition getFitResults (files : list (list res)) (onlyBest strip onlyConv : bool) : option (list (str * list res)) :=
  let s := fold_left (step onlyBest strip onlyConv) (entriesOf files) st0 in
  do lists <- (if onlyBest then foldO (addBest files (s_best s)) (map fst (s_all s)) (s_lists s)
               else if strip then foldO (refill files (s_best s) (s_cbest s)) (map fst (s_all s)) (s_lists s)
               else Some (s_lists s));
  if onlyBest then Some lists else mapO2 (sortBin (s_best s)) lists.
