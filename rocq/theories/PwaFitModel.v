(* Model of highLevelInterface/pwaFit.cc: the function behind the programs and scripts that
   run a fit: choice of the start values, minimisation, signs, checks, and filling of the fit
   result.

   Simplifications: double is R; the pseudo-random numbers of TRandom3(seed) are an arbitrary
   sequence u of numbers (of the seed), Uniform(a, b) is a + (b - a) u; the minimiser is an
   arbitrary function from the variables it is given to its outcome; the value and the Hessian
   eigenvalues of the likelihood are arbitrary functions of the parameters, and the integral
   matrices handed out are arbitrary (their content is the subject of LikSetModel and
   AmpIntModel). All settings of variables are taken to succeed. Printing, timers and memory
   management are left out. None: the program ends by an exception, or an access outside. *)
From Coq Require Import String Ascii List ZArith Reals Bool.
From Coquelicot Require Import Complex.
From Verif Require Import ArrayModel PathModel StrModel DecModel CGBoxModel FitResultModel LikParModel.
Import ListNotations.
Open Scope list_scope. Open Scope nat_scope.

(* pwaFit.cc 65: what the function uses of the likelihood L: NDim and parameter(i) (the
   list), DoEval, Hessian with HessianEigenVectors, getIntegralMatrices and the numbers *)
Record likelihood := Lik {
  liShape : shape; liNames : nat -> nat -> str; liData : parData; liNmbEvents : nat; liNormalized : bool;
  liEval : list R -> R; liEigen : list R -> list R;
  liNorm : mat C; liAcc : mat C; liPhsp : list R }.

(* pwaFit.cc 169-216: what is found under the name of the start value file: the name has at
   most two characters, the file cannot be opened or has no tree, or the entries of the tree *)
Inductive startFile := TooShort | NoTree | Tree (entries : list fitResult).

(* pwaFit.cc 287-299, 331-354: what the minimiser is asked for after the minimisation:
   Minimize(), X(), MinValue(), Hesse(), CovMatrix(i, j) *)
Record outcome := Out { ouConv : bool; ouX : list R; ouMin : R; ouHesse : bool; ouCov : nat -> nat -> R }.

(* fitResult.h 205, fitResult.cc 451-459 (multibinCenter): centre of the mass bin of a fit result; the
   map gives 0 if there is no mass binning *)
Definition massCenter (r : fitResult) : R :=
  match m_find (lit "mass"%string) (frBounds r) with Some (a, b) => ((a + b) / 2)%R | None => 0%R end.

(* pwaFit.cc 202-210: the loop over the entries of the tree; bestIndex and bestMass *)
Fixpoint bestLoop (center : R) (i : nat) (l : list fitResult) (best : nat * R) : nat * R :=
  match l with
  | [] => best
  | r :: l' =>
      bestLoop center (S i) l'
        (if Rle_dec (Rabs (center - massCenter r)) (Rabs (center - snd best)) then (i, massCenter r) else best)
  end.

(* pwaFit.cc 169-216: the fit result with the start values, None if startValValid stays
   false; a tree without entries leaves the new fit result as it is *)
Definition startResult (bounds : smap (R * R)) (f : startFile) : option (option fitResult) :=
  match f with
  | TooShort => Some None
  | NoTree => do b <- m_find (lit "mass"%string) bounds; Some None
  | Tree l =>
      do b <- m_find (lit "mass"%string) bounds;
      let center := ((fst b + snd b) / 2)%R in
      Some (Some (nth (fst (bestLoop center 0 l (0, 0%R))) l frNew))
  end.

(* pwaFit.cc 243-246 and 254-257: a random start value, using two random numbers *)
Definition draw (u : nat -> R) (nEvents : nat) (k : nat) : R :=
  let v := (1/100 + (sqrt (INR nEvents) - 1/100) * u k)%R in
  if Rlt_dec (1/2) (u (S k)) then (v * -1)%R else v.

(* pwaFit.cc 234-269: body of the loop over the parameters; k counts the random numbers
   used so far; a variable is (fixed, value) *)
Definition startStep (u : nat -> R) (nEvents : nat) (from : option fitResult) (p : fitParameter) (s : nat * list (bool * R)) : option (nat * list (bool * R)) :=
  let (k, out) := s in
  do x <- match from with
          | Some r => do v <- fitParameterOf r (parName p); Some (v, k)
          | None => Some (draw u nEvents k, k + 2)
          end;
  let (v, k) := x in
  if fpFixed p then Some (k, out ++ [(true, 0%R)])
  else if Req_EM_T v 0 then Some (k + 2, out ++ [(false, draw u nEvents k)])
  else Some (k, out ++ [(false, v)]).

(* pwaFit.cc 218-280 *)
Definition startValues (u : nat -> R) (L : likelihood) (from : option fitResult) : option (list (bool * R)) :=
  do s <- foldO (startStep u (liNmbEvents L) from) (pdPars (liData L)) (0, []);
  Some (snd s).

(* pwaFit.cc 64-433: the function; u is the sequence of random numbers for the seed *)
Definition pwaFit (L : likelihood) (bounds : smap (R * R)) (u : nat -> R) (file : startFile)
    (checkHessian saveSpace : bool) (minimize : list (bool * R) -> outcome) : option fitResult :=
  do from <- startResult bounds file;
  do vars <- startValues u L from;
  let o := minimize vars in
  do par <- correctParamSigns (liShape L) (pdMap (liData L)) (ouX o);
  if Req_EM_T (ouMin o) (liEval L par) then
    let conv := ouConv o && (if checkHessian then forallb (fun e => if Rle_dec e 0 then false else true) (liEigen L par) else true) in
    let hasHessian := if saveSpace then false else ouHesse o in
    let conv := if saveSpace then conv else conv && ouHesse o in
    let n := length (pdPars (liData L)) in
    do amps <- buildProdAmpArrays (liShape L) (liNames L) par true;
    Some (fill frNew (FA (Z.of_nat (liNmbEvents L)) (if liNormalized L then 1 else Z.of_nat (liNmbEvents L)) bounds (ouMin o)
      (Z.of_nat (shRank (liShape L))) (map (fun x => fst (fst x)) amps) (map snd amps)
      (if saveSpace then None else Some (Mat n n (fun i j => (1/2 * ouCov o i j)%R))) (map (fun x => snd (fst x)) amps)
      (if saveSpace then None else Some (liNorm L)) (if saveSpace then None else Some (liAcc L))
      (if saveSpace then None else Some (liPhsp L)) conv hasHessian))
  else None.
