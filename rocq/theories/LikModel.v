(* Model of the evaluation of partialWaveFit/pwaLikelihood.cc: function value, gradient,
   Hessian and the derivative cache (C37-C40), compiled without USE_FDF and without CUDA.

   Simplifications: double is R; an operation whose IEEE result is not a finite number
   (division by 0, log 0) yields None, and None spreads to everything computed from it; the
   compensated accumulators return the exact sum (property C08); multi_arrays are functions
   of their indices; the timers, counters and debug output are left out. *)
From Coq Require Import List ZArith Reals Bool.
From Coquelicot Require Import Complex.
From Verif Require Import ArrayModel CGBoxModel FitErrModel LikParModel.
Import ListNotations.
Open Scope R_scope.

(* representation of a C++ double: None = nan or infinity *)
Definition double : Type := option R.
(* C++ division of doubles: not a number if the divisor is 0 *)
Definition odiv (a b : R) : double := if Req_EM_T b 0 then None else Some (a / b).
(* C++ log of a double: not a number if the argument is not positive *)
Definition oln (x : R) : double := if Rlt_dec 0 x then Some (ln x) else None.
(* C++ sum of doubles in a loop: not a number if an addend is not *)
Fixpoint osum (f : nat -> double) (n : nat) : double :=
  match n with O => Some 0 | S k => do s <- osum f k; do x <- f k; Some (s + x) end.

(* pwaLikelihood.h 108-111: enum priorEnum *)
Inductive prior := FLAT | HALF_CAUCHY.

(* the members the evaluation reads: _nmbEvents, _rank and _nmbWavesRefl, _decayAmps,
   _accMatrix (the blocks of equal reflectivity), _totAcc, _useNormalizedAmps, _priorType,
   _cauchyWidth, _prodAmpToFuncParMap, _parameters *)
(* pwaLikelihood.h 285-325: the data members read by the evaluation *)
Record lik := Lik {
  lkEvts : nat; lkShape : shape; lkDec : nat -> nat -> nat -> C; lkAcc : nat -> nat -> nat -> C; lkTotAcc : R;
  lkNormAmps : bool; lkPrior : prior; lkWidth : R; lkMap : parMap; lkPars : list fitParameter }.

(* pwaLikelihood.cc 78-84, 86-92, 94-102 *)
Definition cauchyFunction (x g : R) : double := do q <- odiv (x * x) (g * g); odiv 1 (1 + q).
(* pwaLikelihood.cc 86-92 *)
Definition cauchyFunctionDerivative (x g : R) : double := odiv (-2 * x * g * g) ((g * g + x * x) * (g * g + x * x)).
(* pwaLikelihood.cc 94-102 *)
Definition cauchyFunctionSecondDerivative (x g : R) : double :=
  do a <- odiv (g * g) ((g * g + x * x) * (g * g + x * x));
  do b <- odiv (8 * (x * x)) (g * g + x * x);
  Some (a * (-2 + b)).

Section Eval.
  Context (lk : lik).
  Let sh := lkShape lk.
  (* the loops over rank, reflectivity and wave, e.g. pwaLikelihood.cc 278-297 *)
  Definition sumWaves (f : idx -> R) : R :=
    rsumN (fun r => rsumN (fun e => rsumN (fun w => f (r, e, w)) (shWaves sh e)) 2) (shRank sh).
  (* the loops over rank, reflectivity and wave, e.g. pwaLikelihood.cc 278-297 *)
  Definition osumWaves (f : idx -> double) : double :=
    osum (fun r => osum (fun e => osum (fun w => f (r, e, w)) (shWaves sh e)) 2) (shRank sh).

  (* pwaLikelihood.cc 218-222, 360-365: ampProdSum *)
  Definition ampProdSum (P : idx -> C) (r e k : nat) : C := csumN (fun w => (P (r, e, w) * lkDec lk e k w)%C) (shWaves sh e).
  (* std::norm of a complex number *)
  Definition normSq (z : C) : R := Re z * Re z + Im z * Im z.
  (* pwaLikelihood.cc 213-235, 358-369: likelihood of one event *)
  Definition evtLik (P : idx -> C) (flat : R) (k : nat) : R :=
    rsumN (fun r => rsumN (fun e => normSq (ampProdSum P r e k)) 2) (shRank sh) + flat * flat.
  (* pwaLikelihood.cc 225-233: derivative[iRank][iRefl][iWave] of one event *)
  Definition evtDeriv (P : idx -> C) (k : nat) (t : idx) : C := (ampProdSum P (rk t) (rf t) k * Cconj (lkDec lk (rf t) k (wv t)))%C.

  (* pwaLikelihood.cc 257, 386 *)
  Definition nmbEvt : R := if lkNormAmps lk then 1 else INR (lkEvts lk).
  (* pwaLikelihood.cc 259-272, 387-397: normalisation *)
  Definition normFactor (P : idx -> C) (flat : R) : R :=
    rsumN (fun r => rsumN (fun e => rsumN (fun i => rsumN (fun j =>
      Re (P (r, e, i) * Cconj (P (r, e, j)) * lkAcc lk e i j)%C) (shWaves sh e)) (shWaves sh e)) 2) (shRank sh)
    + flat * flat * lkTotAcc lk.
  (* pwaLikelihood.cc 278-297, 402-416: prior *)
  Definition priorTerm (P : idx -> C) (t : idx) : double :=
    do c <- cauchyFunction (Cmod (P t)) (lkWidth lk); do l <- oln c; Some (- l).
  (* pwaLikelihood.cc 278-297, 402-416 *)
  Definition priorValue (P : idx -> C) : double :=
    match lkPrior lk with FLAT => Some 0 | HALF_CAUCHY => osumWaves (priorTerm P) end.

  (* pwaLikelihood.cc 235-236, 305; 369-370, 419: function value *)
  Definition funcVal (P : idx -> C) (flat : R) : double :=
    do ll <- osum (fun k => do l <- oln (evtLik P flat k); Some (- l)) (lkEvts lk);
    do pr <- priorValue P;
    Some (ll + nmbEvt * normFactor P flat + pr).

  (* pwaLikelihood.cc 234-248, 260-269, 285-292 (FdF); 556-582, 592-604, 612-625 (Gradient):
     derivatives with respect to real and imaginary part of a production amplitude *)
  Definition priorDeriv (P : idx -> C) (t : idx) (b : bool) : double :=
    match lkPrior lk with
    | FLAT => Some 0
    | HALF_CAUCHY =>
        let r := Cmod (P t) in
        do c <- cauchyFunction r (lkWidth lk);
        do q <- odiv 1 (r * c);
        do d <- cauchyFunctionDerivative r (lkWidth lk);
        Some (q * d * (if b then Re (P t) else Im (P t)))
    end.
  (* pwaLikelihood.cc 234-269, 285-292; 556-604, 612-625 *)
  Definition derivative (P : idx -> C) (flat : R) (b : bool) (t : idx) : double :=
    let part := fun z : C => if b then Re z else Im z in
    do ev <- osum (fun k => do f <- odiv 2 (evtLik P flat k); Some (- f * part (evtDeriv P k t))) (lkEvts lk);
    let nd := part (csumN (fun j => (P (rk t, rf t, j) * Cconj (lkAcc lk (rf t) (wv t) j))%C) (shWaves sh (rf t))) * (2 * nmbEvt) in
    do pr <- priorDeriv P t b;
    Some (ev + nd - pr).
  (* pwaLikelihood.cc 249-250, 271-272; 583, 606 *)
  Definition derivativeFlat (P : idx -> C) (flat : R) : double :=
    do ev <- osum (fun k => do f <- odiv 2 (evtLik P flat k); Some (- f * flat)) (lkEvts lk);
    Some (ev + flat * (2 * nmbEvt) * lkTotAcc lk).

  (* pwaLikelihood.cc 316-435: DoEval; outer None = access outside the parameter array *)
  Definition doEval (par : list R) : option double :=
    do a <- copyFromParArray sh par; Some (funcVal (fst a) (snd a)).
  (* pwaLikelihood.cc 474-637: Gradient *)
  Definition gradient (par : list R) : option (list double) :=
    do a <- copyFromParArray sh par;
    copyToParArray (derivative (fst a) (snd a) true) (derivative (fst a) (snd a) false) sh (lkMap lk) (derivativeFlat (fst a) (snd a))
                   (repeat (Some 0) (Z.to_nat (nmbPars sh))).
  (* pwaLikelihood.cc 172-311: FdF *)
  Definition fdF (par : list R) : option (double * list double) :=
    do a <- copyFromParArray sh par;
    do g <- copyToParArray (derivative (fst a) (snd a) true) (derivative (fst a) (snd a) false) sh (lkMap lk) (derivativeFlat (fst a) (snd a))
                   (repeat (Some 0) (Z.to_nat (nmbPars sh)));
    Some (funcVal (fst a) (snd a), g).

  (* pwaLikelihood.cc 703-725, 755-765, 780-798: second derivatives with respect to the parts
     [b] of amplitude i and [c] of amplitude j; index 0: real/real, 1: real/imaginary,
     2: imaginary/imaginary *)
  Definition hessPart (n : nat) : bool * bool := match n with O => (true, true) | 1 => (true, false) | _ => (false, false) end%nat.
  (* C++ real() / imag(), selected as in pwaLikelihood.cc 703-725 *)
  Definition partOf (b : bool) (z : C) : R := if b then Re z else Im z.
  (* pwaLikelihood.cc 780-798 *)
  Definition hessPrior (P : idx -> C) (n : nat) (t : idx) : double :=
    match lkPrior lk with
    | FLAT => Some 0
    | HALF_CAUCHY =>
        let r := Cmod (P t) in
        do c <- cauchyFunction r (lkWidth lk);
        do d <- cauchyFunctionDerivative r (lkWidth lk);
        do s <- cauchyFunctionSecondDerivative r (lkWidth lk);
        do a1 <- odiv s (c * r * r);
        do a2 <- odiv (d * d) (c * c * r * r);
        do a3 <- odiv d (c * r);
        do a4 <- odiv d (c * r * r * r);
        let re := Re (P t) in let im := Im (P t) in
        Some (match n with
              | O => (a1 - a2 - a4) * re * re + a3
              | 1%nat => (a1 - a2 - a4) * re * im
              | _ => (a1 - a2 - a4) * im * im + a3
              end)
    end.
  (* pwaLikelihood.cc 703-798: sum of the parts *)
  Definition hess (P : idx -> C) (flat : R) (n : nat) (i j : idx) : double :=
    let (bi, bj) := hessPart n in
    do ev <- osum (fun k =>
               do f <- odiv 2 (evtLik P flat k);
               let s := f * f * partOf bj (evtDeriv P k j) * partOf bi (evtDeriv P k i) in
               if (rk i =? rk j)%nat && (rf i =? rf j)%nat then
                 let u := (Cconj (lkDec lk (rf j) k (wv j)) * lkDec lk (rf i) k (wv i))%C in
                 Some (s + - f * (if (n =? 1)%nat then Im u else Re u))
               else Some s) (lkEvts lk);
    let ev := if (rk i =? rk j)%nat && (rf i =? rf j)%nat then
                let I := lkAcc lk (rf i) (wv i) (wv j) in ev + (if (n =? 1)%nat then Im I else Re I) * (2 * nmbEvt)
              else ev in
    if idx_eqb i j then do pr <- hessPrior P n i; Some (ev - pr) else Some ev.
  (* pwaLikelihood.cc 726-727, 745-746: flatTerms *)
  Definition flatTerm (P : idx -> C) (flat : R) (b : bool) (t : idx) : double :=
    osum (fun k => do f <- odiv 2 (evtLik P flat k); Some (f * f * flat * partOf b (evtDeriv P k t))) (lkEvts lk).
  (* pwaLikelihood.cc 731, 747, 766: hessianFlat *)
  Definition hessFlat (P : idx -> C) (flat : R) : double :=
    do ev <- osum (fun k => do f <- odiv 2 (evtLik P flat k); Some (f * f * (flat * flat) - f)) (lkEvts lk);
    Some (ev + 2 * nmbEvt * lkTotAcc lk).

  (* a TMatrixT of doubles, initialised with 0 *)
  Definition tmat : Type := Z -> Z -> double.
  (* assignment to an element of a TMatrixT, pwaLikelihood.cc 804-852 *)
  Definition mset (m : tmat) (p q : Z) (v : double) : tmat := fun a b => if ((a =? p) && (b =? q))%Z then v else m a b.
  (* pwaLikelihood.h 137: fitParameter::fixed *)
  Definition fixedAt (p : Z) : option bool := do q <- rd (lkPars lk) (Z.to_nat p); Some (fpFixed q).
  (* pwaLikelihood.cc 812-816, 828-832: the parameter indices of an amplitude if it is free;
     inner None = continue, outer None = failed assertion *)
  Definition freeIndices (t : idx) : option (option (Z * Z)) :=
    let (r, i) := lkMap lk t in
    if (r <? 0)%Z then Some None else
    do f <- fixedAt r;
    if f then Some None else
    if (i <? 0)%Z then Some (Some (r, i)) else
    do g <- fixedAt i; if g then None else Some (Some (r, i)).
  (* pwaLikelihood.cc 825-838 *)
  Definition hessInner (P : idx -> C) (flat : R) (i : idx) (r1 i1 : Z) (j : idx) (m : tmat) : option tmat :=
    do fj <- freeIndices j;
    match fj with
    | None => Some m
    | Some (r2, i2) =>
        let m := mset m r1 r2 (hess P flat 0 i j) in
        let m := if (0 <=? i2)%Z then mset m r1 i2 (hess P flat 1 i j) else m in
        let m := if (0 <=? i1)%Z then mset m i1 r2 (hess P flat 1 j i) else m in
        Some (if (0 <=? i1)%Z && (0 <=? i2)%Z then mset m i1 i2 (hess P flat 2 i j) else m)
    end.
  (* pwaLikelihood.cc 808-852 *)
  Definition hessOuter (P : idx -> C) (flat : R) (i : idx) (m : tmat) : option tmat :=
    do fi <- freeIndices i;
    match fi with
    | None => Some m
    | Some (r1, i1) =>
        do m <- foldO (hessInner P flat i r1 i1) (loopWaves sh) m;
        let last := (nmbPars sh - 1)%Z in
        let m := mset m r1 last (flatTerm P flat true i) in
        let m := mset m last r1 (flatTerm P flat true i) in
        if (0 <=? i1)%Z then Some (mset (mset m i1 last (flatTerm P flat false i)) last i1 (flatTerm P flat false i)) else Some m
    end.
  (* pwaLikelihood.cc 640-859: Hessian *)
  Definition hessian (par : list R) : option tmat :=
    do a <- copyFromParArray sh par;
    do m <- foldO (hessOuter (fst a) (snd a)) (loopWaves sh) (fun _ _ => Some 0);
    let last := (nmbPars sh - 1)%Z in
    Some (mset m last last (hessFlat (fst a) (snd a))).
End Eval.

(* ---- derivative cache (C39) ---- *)
(* _parCache and _derivCache; both are filled with 0 by init (pwaLikelihood.cc 1519-1520) *)
Record cache := Cache { caPar : list R; caDeriv : list double }.
(* pwaLikelihood.cc 1519-1520 *)
Definition cacheInit (lk : lik) : cache :=
  Cache (repeat 0 (Z.to_nat (nmbPars (lkShape lk)))) (repeat (Some 0) (Z.to_nat (nmbPars (lkShape lk)))).
(* pwaLikelihood.cc 455-459, 495-499: comparison of the parameters with _parCache *)
Fixpoint samePar (a b : list R) : bool :=
  match a, b with
  | [], _ => true
  | x :: a', y :: b' => if Req_EM_T x y then samePar a' b' else false
  | _ :: _, [] => false
  end.
(* pwaLikelihood.cc 186-188, 300-302; 512-514, 626-629: FdF and Gradient fill the cache; only
   the first _nmbPars elements of the array are copied and compared *)
Definition runGradient (lk : lik) (c : cache) (par : list R) : option (cache * list double) :=
  do g <- gradient lk par; Some (Cache (firstn (Z.to_nat (nmbPars (lkShape lk))) par) g, g).
(* pwaLikelihood.cc 172-303 *)
Definition runFdF (lk : lik) (c : cache) (par : list R) : option (cache * (double * list double)) :=
  do r <- fdF lk par; Some (Cache (firstn (Z.to_nat (nmbPars (lkShape lk))) par) (snd r), r).
(* pwaLikelihood.cc 438-470: DoDerivative *)
Definition doDerivative (lk : lik) (c : cache) (par : list R) (i : nat) : option (cache * double) :=
  if samePar (caPar c) par then do d <- rd (caDeriv c) i; Some (c, d)
  else do r <- runFdF lk c par; do d <- rd (snd (snd r)) i; Some (fst r, d).
(* the public calls: evaluations (pwaLikelihood.cc 172-637) and the setters of
   pwaLikelihood.h 210-214, none of which touches the cache *)
Inductive call :=
  | CallGradient (par : list R) | CallFdF (par : list R) | CallDoDerivative (par : list R) (i : nat) | CallDoEval (par : list R)
  | CallUseNormalizedAmps (b : bool) | CallSetPriorType (p : prior) | CallSetCauchyWidth (g : R).
(* pwaLikelihood.cc 172-637 and the setters of pwaLikelihood.h 210-214 *)
Definition step (s : lik * cache) (c : call) : option (lik * cache) :=
  let '(lk, ca) := s in
  match c with
  | CallGradient par => do r <- runGradient lk ca par; Some (lk, fst r)
  | CallFdF par => do r <- runFdF lk ca par; Some (lk, fst r)
  | CallDoDerivative par i => do r <- doDerivative lk ca par i; Some (lk, fst r)
  | CallDoEval par => do r <- doEval lk par; Some (lk, ca)
  | CallUseNormalizedAmps b => Some (Lik (lkEvts lk) (lkShape lk) (lkDec lk) (lkAcc lk) (lkTotAcc lk) b (lkPrior lk) (lkWidth lk) (lkMap lk) (lkPars lk), ca)
  | CallSetPriorType p => Some (Lik (lkEvts lk) (lkShape lk) (lkDec lk) (lkAcc lk) (lkTotAcc lk) (lkNormAmps lk) p (lkWidth lk) (lkMap lk) (lkPars lk), ca)
  | CallSetCauchyWidth g => Some (Lik (lkEvts lk) (lkShape lk) (lkDec lk) (lkAcc lk) (lkTotAcc lk) (lkNormAmps lk) (lkPrior lk) g (lkMap lk) (lkPars lk), ca)
  end.
(* histories of the public calls, cf. step above (pwaLikelihood.cc 172-637) *)
Definition run (s : lik * cache) (l : list call) : option (lik * cache) := foldO (fun c s => step s c) l s.
