(* Model of highLevelInterface/pwaNloptFit.cc: a fit with NLopt, where parameters of waves
   below threshold are left out of the optimisation.

   Simplifications as in PwaFitModel: double is R, random numbers are an arbitrary sequence,
   value, gradient, covariance matrix and eigenvalues of the likelihood are arbitrary functions
   of the parameters. The optimiser is an arbitrary strategy: it asks for values at points of
   its choice, which may depend on the answers, and stops with an outcome. The two function-level
   static arrays of the objective function live as long as the process; of them only the size
   matters. None: an exception, or an access outside of an array. *)
From Coq Require Import String Ascii List ZArith Reals Bool.
From Coquelicot Require Import Complex.
From Verif Require Import ArrayModel PathModel StrModel DecModel CGBoxModel FitResultModel LikParModel PwaFitModel.
Import ListNotations.
Open Scope list_scope. Open Scope nat_scope.

(* pwaNloptFit.cc 83-91, 251-276: what is used of the likelihood beyond PwaFitModel: the gradient of FdF
   and CovarianceMatrix at parameters *)
Record nlikelihood := NL { nlBase : likelihood; nlGrad : list R -> list R; nlCov : list R -> mat R }.
(* pwaLikelihood.h nmbPars() as used in pwaNloptFit.cc 48 *)
Definition nlPars (L : nlikelihood) : list fitParameter := pdPars (liData (nlBase L)).
(* pwaLikelihood.h nmbParsFixed() as used in pwaNloptFit.cc 48 *)
Definition nlFixed (L : nlikelihood) : nat := pdFixed (liData (nlBase L)).

(* pwaNloptFit.cc 55, 61: sizes of the static arrays parsIncludingFixed and gradientLocal,
   None before the first use *)
Definition statics : Type := option nat * option nat.

(* pwaNloptFit.cc 391-401: addFixedParams *)
Fixpoint addFixed (pars : list fitParameter) (x : list R) : option (list R) :=
  match pars with
  | [] => Some []
  | p :: r =>
      if fpFixed p then do l <- addFixed r x; Some (0%R :: l)
      else match x with [] => None | a :: x' => do l <- addFixed r x'; Some (a :: l) end
  end.

(* pwaNloptFit.cc 66-72: the gradient of the free parameters *)
Fixpoint freeOf (pars : list fitParameter) (g : list R) : list R :=
  match pars, g with
  | p :: r, a :: g' => if fpFixed p then freeOf r g' else a :: freeOf r g'
  | _, _ => []
  end.

(* C++: a function-level static array of n elements is allocated at its first use *)
Definition allocate (s : option nat) (n : nat) : nat := match s with Some k => k | None => n end.

(* pwaNloptFit.cc 45-80: rpwaNloptFunc; gradient tells whether NLopt wants it *)
Definition objective (L : nlikelihood) (x : list R) (gradient : bool) (st : statics) : option ((R * option (list R)) * statics) :=
  let n := length (nlPars L) in
  if negb (length x =? n - nlFixed L) then None
  else
    let fixed := negb (nlFixed L =? 0) in
    let (sp, sg) := st in
    do pq <- (if fixed then
                let size := allocate sp n in
                if n <=? size then do p <- addFixed (nlPars L) x; Some (p, Some size) else None
              else Some (x, sp));
    let (par, sp) := pq in
    if gradient then
      let size := allocate sg n in
      if fixed then
        if n <=? size then Some ((liEval (nlBase L) par, Some (freeOf (nlPars L) (nlGrad L par))), (sp, Some size)) else None
      else Some ((liEval (nlBase L) par, Some (nlGrad L par)), (sp, Some size))
    else Some ((liEval (nlBase L) par, None), (sp, sg)).

(* pwaNloptFit.cc 229-232: the optimiser: result code, parameters and likelihood at its end *)
Record nloptOutcome := NO { noResult : Z; noPars : list R; noLik : R }.
(* pwaNloptFit.cc 229: optimizer.optimize as a strategy *)
Inductive strategy := Stop (o : nloptOutcome) | Ask (x : list R) (gradient : bool) (next : R * option (list R) -> strategy).
(* pwaNloptFit.cc 152-153, 229 *)
Fixpoint optimize (L : nlikelihood) (s : strategy) (st : statics) : option (nloptOutcome * statics) :=
  match s with
  | Stop o => Some (o, st)
  | Ask x gr next => do a <- objective L x gr st; optimize L (next (fst a)) (snd a)
  end.

(* pwaNloptFit.cc 181-216: start values of the free parameters; k counts the random numbers *)
Fixpoint nlStart (u : nat -> R) (nEvents : nat) (k : nat) (pars : list fitParameter) : list R :=
  match pars with
  | [] => []
  | p :: r => if fpFixed p then nlStart u nEvents (k + 2) r else draw u nEvents k :: nlStart u nEvents (k + 2) r
  end.

(* pwaNloptFit.cc 83-381 *)
Definition pwaNloptFit (L : nlikelihood) (bounds : smap (R * R)) (u : nat -> R) (fileName : str)
    (checkHessian saveSpace : bool) (optimizer : list R -> strategy) (st : statics) : option (fitResult * statics) :=
  let B := nlBase L in
  if negb (length fileName =? 0) then None
  else
    do os <- optimize L (optimizer (nlStart u (liNmbEvents B) 0 (nlPars L))) st;
    let (o, st) := os in
    do params <- addFixed (nlPars L) (noPars o);
    do par <- correctParamSigns (liShape B) (pdMap (liData B)) params;
    if Req_EM_T (noLik o) (liEval B par) then
      let conv := (0 <? noResult o)%Z in
      let conv := if checkHessian || negb saveSpace
                  then conv && forallb (fun e => if Rle_dec e 0 then false else true) (liEigen B par) else conv in
      let hasHessian := if saveSpace then false else conv in
      do amps <- buildProdAmpArrays (liShape B) (liNames B) par true;
      Some (fill frNew (FA (Z.of_nat (liNmbEvents B)) (if liNormalized B then 1 else Z.of_nat (liNmbEvents B)) bounds (noLik o)
        (Z.of_nat (shRank (liShape B))) (map (fun x => fst (fst x)) amps) (map snd amps)
        (if saveSpace then None else Some (nlCov L par)) (map (fun x => snd (fst x)) amps)
        (if saveSpace then None else Some (liNorm B)) (if saveSpace then None else Some (liAcc B))
        (if saveSpace then None else Some (liPhsp B)) conv hasHessian), st)
    else None.
