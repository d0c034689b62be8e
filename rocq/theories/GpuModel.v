(* Model of the evaluation of the likelihood and of its gradient on a GPU: the kernels of
   cuda/likelihoodKernel.cu, their callers in cuda/likelihoodInterface.cu and the CUDA branches
   of partialWaveFit/pwaLikelihood.cc (C71).

   A double is as in LikModel (None = not a finite number).  A device array is a list of cells;
   a cell that was never written is None, and reading it, reading or writing outside an array
   and launching a kernel with a grid the device rejects are undefined behaviour.  The threads
   of a kernel run concurrently: every interleaving of their writes is a possible execution
   (the kernels only read arrays that they do not write, so that what a thread reads does not
   depend on the schedule).

   Simplifications: cudaMalloc and cudaMemcpy do not fail; unsigned int does not wrap around
   except in the size of the decay amplitude array, which is computed in unsigned int
   (likelihoodInterface.cu 236); value_type is double; timers, debug output and the memory-leak
   messages are left out. *)
From Coq Require Import List ZArith Reals Bool.
From Coquelicot Require Import Complex.
From Verif Require Import ArrayModel CGBoxModel FitErrModel LikParModel LikModel.
Import ListNotations.
Open Scope R_scope.

(* ---- executions ---- *)
(* the possible outcomes of a nondeterministic computation, used for
   cuda/likelihoodInterface.cu 363-536; outcome None = undefined behaviour *)
Definition runs (A : Type) : Type := option A -> Prop.
(* C++ sequential composition, e.g. cuda/likelihoodInterface.cu 363-418 *)
Definition rbind {A B} (m : runs A) (f : A -> runs B) : runs B :=
  fun r => (m None /\ r = None) \/ (exists a, m (Some a) /\ f a r).
(* C++ value without side effects; None = undefined behaviour *)
Definition rlift {A} (x : option A) : runs A := fun r => r = x.

(* the interleavings of the write sequences of the threads of one kernel launch
   (CUDA execution model, cuda/likelihoodInterface.cu 397-399) *)
Inductive interleaving {W : Type} : list (list W) -> list W -> Prop :=
  | il_done : forall ls, Forall (fun l => l = []) ls -> interleaving ls []
  | il_step : forall pre x l post r,
      interleaving (pre ++ l :: post) r -> interleaving (pre ++ (x :: l) :: post) (x :: r).

(* the results of all threads of a launch, cuda/likelihoodInterface.cu 397-399; None if one of
   them is undefined *)
Fixpoint collect {A B} (f : A -> option B) (l : list A) : option (list B) :=
  match l with [] => Some [] | x :: l' => do y <- f x; do ys <- collect f l'; Some (y :: ys) end.

(* the kernels of cuda/likelihoodKernel.cu 64-298 *)
Inductive kernel := KSum | KLogLikelihood | KDerivFirstTerm | KDeriv | KDerivFlat | KSumDerivatives.
(* the device properties the code uses, cuda/likelihoodInterface.cu 315-322: warpSize,
   multiProcessorCount, maxThreadsPerBlock of a kernel, and the limit maxGridSize of launches *)
Record device := Device { dvWarp : nat; dvMultiProc : nat; dvMaxThreads : kernel -> nat; dvMaxGrid : nat }.

(* kernel<<<nmbBlocks, nmbThreadsPerBlock>>>(...): threads 0 .. nmbBlocks * nmbThreadsPerBlock - 1,
   e.g. cuda/likelihoodInterface.cu 397-399, cuda/likelihoodKernel.cu 72, 98-99; [thread id n] is
   the sequence of writes of thread id out of n, [apply] carries out one write *)
Definition launch {W Mem} (dv : device) (k : kernel) (grid : nat * nat) (thread : nat -> nat -> option (list W))
    (apply : W -> Mem -> option Mem) (mem : Mem) : runs Mem := fun r =>
  let '(b, t) := grid in
  if ((1 <=? b) && (b <=? dvMaxGrid dv) && (1 <=? t) && (t <=? dvMaxThreads dv k))%nat then
    match collect (fun id => thread id (b * t)%nat) (List.seq 0 (b * t)) with
    | None => r = None
    | Some ws => exists order, interleaving ws order /\ r = foldO apply order mem
    end
  else r = None.

(* ---- arithmetic ---- *)
(* C++ sum of doubles: not a finite number if an operand is not *)
Definition dadd (a b : double) : double := do x <- a; do y <- b; Some (x + y).
(* C++ difference of doubles *)
Definition dsub (a b : double) : double := do x <- a; do y <- b; Some (x - y).
(* C++ product of doubles *)
Definition dmul (a b : double) : double := do x <- a; do y <- b; Some (x * y).
(* C++ sign change of a double *)
Definition dopp (a : double) : double := do x <- a; Some (- x).
(* C++ quotient of doubles *)
Definition ddiv (a b : double) : double := do x <- a; do y <- b; odiv x y.
(* C++ log of a double *)
Definition dlog (a : double) : double := do x <- a; oln x.

(* cuda/complex.cuh 66-75: _real, _imag *)
Definition cplx : Type := double * double.
(* representation of a std::complex<double> on the device, pwaLikelihood.cc 355, 1378
   (reinterpret_cast) *)
Definition ofC (z : C) : cplx := (Some (Re z), Some (Im z)).
(* cuda/complex.cuh 138-144, 314-324 *)
Definition cadd (x y : cplx) : cplx := (dadd (fst x) (fst y), dadd (snd x) (snd y)).
(* cuda/complex.cuh 146-152, 326-336 *)
Definition csub (x y : cplx) : cplx := (dsub (fst x) (fst y), dsub (snd x) (snd y)).
(* cuda/complex.cuh 154-161, 338-348 *)
Definition cmul (x y : cplx) : cplx :=
  (dsub (dmul (fst x) (fst y)) (dmul (snd x) (snd y)), dadd (dmul (fst x) (snd y)) (dmul (snd x) (fst y))).
(* cuda/complex.cuh 114-119, 240-250 *)
Definition cscale (t : double) (z : cplx) : cplx := (dmul (fst z) t, dmul (snd z) t).
(* cuda/complex.cuh 433-437 *)
Definition cnorm (z : cplx) : double := dadd (dmul (fst z) (fst z)) (dmul (snd z) (snd z)).
(* cuda/complex.cuh 454-455 *)
Definition cconj (z : cplx) : cplx := (fst z, dopp (snd z)).

(* the operations the templates of cuda/likelihoodKernel.cu 41-80, 264-298 use: T(), +, - *)
Record arith (T : Type) := Arith { zero : T; plus : T -> T -> T; minus : T -> T -> T }.
Arguments Arith {T}. Arguments zero {T}. Arguments plus {T}. Arguments minus {T}.
(* instantiation with T = double, cuda/likelihoodInterface.cu 404 *)
Definition arD : arith double := Arith (Some 0) dadd dsub.
(* instantiation with T = complexT, cuda/likelihoodInterface.cu 491 *)
Definition arC : arith cplx := Arith (Some 0, Some 0) cadd csub.

(* cuda/likelihoodKernel.cu 41-59: compensatedSum; the state is ( *sum, *compensation ) *)
Definition compensatedSum {T} (ar : arith T) (value : T) (s : T * T) : T * T :=
  let correctedTerm := minus ar value (snd s) in
  let newSum := plus ar (fst s) correctedTerm in
  (newSum, minus ar (minus ar newSum (fst s)) correctedTerm).

(* ---- device arrays ---- *)
(* cuda/likelihoodInterface.cu 395: a device array after cudaMalloc *)
Definition devArray (T : Type) : Type := list (option T).
(* cuda/likelihoodInterface.cu 395 (cudaMalloc): nothing is initialised *)
Definition dalloc {T} (n : nat) : devArray T := repeat None n.
(* cuda/likelihoodInterface.cu 382 (cudaMemcpy from the host) *)
Definition dupload {T} (l : list T) : devArray T := map Some l.
(* reading an element of a device array, e.g. cuda/likelihoodKernel.cu 77 *)
Definition dread {T} (a : devArray T) (i : nat) : option T := do c <- rd a i; c.
(* writing an element of a device array, e.g. cuda/likelihoodKernel.cu 78 *)
Definition dwrite {T} (w : nat * T) (a : devArray T) : option (devArray T) := wr a (fst w) (Some (snd w)).

(* for (i = start; i < n; i += step), cuda/likelihoodKernel.cu 76, 108, 218, 254, 287; None = the
   body is undefined or the loop does not end *)
Fixpoint strided {S} (fuel : nat) (f : nat -> S -> option S) (i n step : nat) (s : S) : option S :=
  if (i <? n)%nat then
    match fuel with
    | O => None
    | Datatypes.S k => do s' <- f i s; strided k f (i + step) n step s'
    end
  else Some s.

(* ---- kernels ---- *)
(* cuda/likelihoodKernel.cu 64-80: sumKernel *)
Definition sumThread {T} (ar : arith T) (d_valArray : devArray T) (nmbVals nmbSums : nat) (threadId nmbThreads : nat)
  : option (list (nat * T)) :=
  if (threadId <? nmbSums)%nat then
    do s <- strided nmbVals (fun i s => do v <- dread d_valArray i; Some (compensatedSum ar v s))
              threadId nmbVals nmbSums (zero ar, zero ar);
    Some [(threadId, fst s)]
  else Some [].

Section Events.
  Context (d_prodAmps : devArray cplx) (prodAmpFlat2 : double) (d_decayAmps : devArray cplx) (nmbEvents rank : nat)
          (nmbWavesRefl : nat * nat) (nmbWavesMax : nat).
  (* cuda/likelihoodKernel.cu 101, 155, 207, 278: nmbWavesRefl[iRefl] *)
  Definition waves (iRefl : nat) : option nat := rd [fst nmbWavesRefl; snd nmbWavesRefl] iRefl.
  (* cuda/likelihoodKernel.cu 113-123, 164-173: the amplitude sum for one rank and reflectivity *)
  Definition gpuAmpProdSum (iEvt iRank iRefl : nat) : option cplx :=
    do n <- waves iRefl;
    do s <- foldO (fun iWave s =>
        do op <- indicesToOffset [iRank; iRefl; iWave] [rank; 2%nat; nmbWavesMax] 3;
        do od <- indicesToOffset [iRefl; iWave; iEvt] [2%nat; nmbWavesMax; nmbEvents] 3;
        do p <- dread d_prodAmps op;
        do d <- dread d_decayAmps od;
        Some (compensatedSum arC (cmul p d) s)) (List.seq 0 n) (zero arC, zero arC);
    Some (fst s).
  (* cuda/likelihoodKernel.cu 84-132: logLikelihoodKernel *)
  Definition logLikelihoodThread (threadId nmbThreads : nat) : option (list (nat * double)) :=
    do s <- strided nmbEvents (fun iEvt s =>
        do l <- foldO (fun iRank l => foldO (fun iRefl l =>
                  do a <- gpuAmpProdSum iEvt iRank iRefl;
                  Some (compensatedSum arD (cnorm a) l)) [0%nat; 1%nat] l)
                (List.seq 0 rank) (zero arD, zero arD);
        let l := compensatedSum arD prodAmpFlat2 l in
        Some (compensatedSum arD (dopp (dlog (fst l))) s))
      threadId nmbEvents nmbThreads (zero arD, zero arD);
    Some [(threadId, fst s)].
  (* cuda/likelihoodKernel.cu 138-185: logLikelihoodDerivFirstTermKernel; a write is either to
     d_derivTerms or to d_likelihoods *)
  Definition firstTermThread (iEvt nmbThreads : nat) : option (list (nat * cplx + nat * double)) :=
    if (iEvt <? nmbEvents)%nat then
      do r <- foldO (fun iRank r => foldO (fun iRefl r =>
                do a <- gpuAmpProdSum iEvt iRank iRefl;
                let l := compensatedSum arD (cnorm a) (fst r) in
                do o <- indicesToOffset [iRank; iRefl; iEvt] [rank; 2%nat; nmbEvents] 3;
                Some (l, snd r ++ [inl (o, a)])) [0%nat; 1%nat] r)
              (List.seq 0 rank) ((zero arD, zero arD), []);
      let l := compensatedSum arD prodAmpFlat2 (fst r) in
      Some (snd r ++ [inr (iEvt, fst l)])
    else Some [].
  (* cuda/likelihoodKernel.cu 175-183: the writes to the two output arrays *)
  Definition writeFirst (w : nat * cplx + nat * double) (m : devArray cplx * devArray double)
    : option (devArray cplx * devArray double) :=
    match w with
    | inl w => do a <- dwrite w (fst m); Some (a, snd m)
    | inr w => do b <- dwrite w (snd m); Some (fst m, b)
    end.
  (* cuda/likelihoodKernel.cu 213-234, 282-296: the loop nest over the production amplitudes and
     the write of the sum of each *)
  Definition derivLoop (nmbSums threadId : nat) (sum : nat -> nat -> nat -> option cplx) : option (list (nat * cplx)) :=
    foldO (fun iRank ws => foldO (fun iRefl ws =>
      do n <- waves iRefl;
      foldO (fun iWave ws =>
        do s <- sum iRank iRefl iWave;
        do o <- indicesToOffset [iRank; iRefl; iWave; threadId] [rank; 2%nat; nmbWavesMax; nmbSums] 4;
        Some (ws ++ [(o, s)])) (List.seq 0 n) ws) [0%nat; 1%nat] ws) (List.seq 0 rank) [].
  (* cuda/likelihoodKernel.cu 191-235: logLikelihoodDerivKernel *)
  Definition derivThread (d_derivTerms : devArray cplx) (d_likelihoods : devArray double) (threadId nmbThreads : nat)
    : option (list (nat * cplx)) :=
    derivLoop nmbThreads threadId (fun iRank iRefl iWave =>
      do s <- strided nmbEvents (fun iEvt s =>
          do od <- indicesToOffset [iRefl; iWave; iEvt] [2%nat; nmbWavesMax; nmbEvents] 3;
          do ot <- indicesToOffset [iRank; iRefl; iEvt] [rank; 2%nat; nmbEvents] 3;
          do t <- dread d_derivTerms ot;
          do d <- dread d_decayAmps od;
          do l <- dread d_likelihoods iEvt;
          Some (compensatedSum arC (cscale (dopp (ddiv (Some 2) l)) (cmul t (cconj d))) s))
        threadId nmbEvents nmbThreads (zero arC, zero arC);
      Some (fst s)).
  (* cuda/likelihoodKernel.cu 240-259: logLikelihoodDerivFlatKernel *)
  Definition flatThread (prodAmpFlat : double) (d_likelihoods : devArray double) (threadId nmbThreads : nat)
    : option (list (nat * double)) :=
    do s <- strided nmbEvents (fun iEvt s =>
        do l <- dread d_likelihoods iEvt;
        Some (compensatedSum arD (dmul (dopp (ddiv (Some 2) l)) prodAmpFlat) s))
      threadId nmbEvents nmbThreads (zero arD, zero arD);
    Some [(threadId, fst s)].
  (* cuda/likelihoodKernel.cu 264-298: sumDerivativesKernel *)
  Definition sumDerivThread (d_derivatives : devArray cplx) (nmbDerivatives nmbDerivativeSums : nat) (threadId nmbThreads : nat)
    : option (list (nat * cplx)) :=
    if (threadId <? nmbDerivativeSums)%nat then
      derivLoop nmbDerivativeSums threadId (fun iRank iRefl iWave =>
        do s <- strided nmbDerivatives (fun i s =>
            do o <- indicesToOffset [iRank; iRefl; iWave; i] [rank; 2%nat; nmbWavesMax; nmbDerivatives] 4;
            do v <- dread d_derivatives o;
            Some (compensatedSum arC v s))
          threadId nmbDerivatives nmbDerivativeSums (zero arC, zero arC);
        Some (fst s))
    else Some [].
End Events.

(* ---- callers ---- *)
(* cuda/likelihoodInterface.cu 304-360: estimateOptimumKernelGrid; None = division by 0 *)
Definition estimateOptimumKernelGrid (dv : device) (k : kernel) (minNmbThreads : nat) : option (nat * nat) :=
  let warpSize := dvWarp dv in
  let m := dvMaxThreads dv k in
  if (warpSize =? 0)%nat then None else
  let maxT := if (warpSize <? m)%nat then (m / warpSize * warpSize)%nat else m in
  let maxB := dvMultiProc dv in
  if (minNmbThreads =? 0)%nat then Some (maxB, maxT)
  else if (maxT =? 0)%nat || (maxB =? 0)%nat then None
  else if (maxB <=? minNmbThreads / maxT)%nat then
    Some ((if (0 <? minNmbThreads mod maxT)%nat then minNmbThreads / maxT + 1 else minNmbThreads / maxT)%nat, maxT)
  else
    let t := (if (0 <? minNmbThreads mod maxB)%nat then minNmbThreads / maxB + 1 else minNmbThreads / maxB)%nat in
    let t := if (warpSize <? t)%nat then (t / warpSize * warpSize)%nat else warpSize in
    Some ((if (0 <? minNmbThreads mod t)%nat then minNmbThreads / t + 1 else minNmbThreads / t)%nat, t).

(* cuda/likelihoodInterface.cu 636-661: cascadedKernelSum; [call prev n next m] is the kernel
   caller; the returned array is what d_sumsPrev points to at the end; None = the loop does not end *)
Fixpoint cascadedKernelSum {T} (fuel : nat) (call : devArray T -> nat -> devArray T -> nat -> runs (devArray T))
    (nmbOfSumsAtEachStage : nat) (d_sumsPrev : devArray T) (nmbSumsPrev sumElementSize : nat) : runs (devArray T) :=
  match fuel with
  | O => rlift None
  | S fuel =>
      let nmbSumsNext := (nmbSumsPrev / nmbOfSumsAtEachStage)%nat in
      let nmbSumsNext := if (nmbSumsNext <=? nmbOfSumsAtEachStage)%nat then 1%nat else nmbSumsNext in
      rbind (call d_sumsPrev nmbSumsPrev (dalloc (sumElementSize * nmbSumsNext)) nmbSumsNext) (fun d_sumsNext =>
      if (nmbOfSumsAtEachStage <? nmbSumsNext)%nat
      then cascadedKernelSum fuel call nmbOfSumsAtEachStage d_sumsNext nmbSumsNext sumElementSize
      else rlift (Some d_sumsNext))
  end.

(* cuda/likelihoodInterface.cuh 156-159, likelihoodInterface.cu 100-103: the static members
   _d_decayAmps, _nmbEvents, _nmbWavesRefl, _nmbWavesMax (one set for the whole program) *)
Record gpu := Gpu { gDecay : devArray cplx; gEvents : nat; gWaves : nat * nat; gMax : nat }.

Section Interface.
  Context (dv : device).
  (* cuda/likelihoodInterface.cu 51-68: sumKernelCaller *)
  Definition callSum {T} (ar : arith T) (prev : devArray T) (n : nat) (next : devArray T) (m : nat) : runs (devArray T) :=
    rbind (rlift (estimateOptimumKernelGrid dv KSum m)) (fun grid =>
    launch dv KSum grid (sumThread ar prev n m) dwrite next).
  (* cuda/likelihoodInterface.cu 71-91: sumDerivativesKernelCaller; _rank is the argument of
     logLikelihoodDeriv (490) *)
  Definition callSumDerivatives (g : gpu) (rank : nat) (prev : devArray cplx) (n : nat) (next : devArray cplx) (m : nat)
    : runs (devArray cplx) :=
    rbind (rlift (estimateOptimumKernelGrid dv KSumDerivatives m)) (fun grid =>
    launch dv KSumDerivatives grid (sumDerivThread rank (gWaves g) (gMax g) prev n m) dwrite next).
  (* cuda/likelihoodInterface.cu 363-418: logLikelihood *)
  Definition gpuLogLikelihood (g : gpu) (prodAmps : list cplx) (prodAmpFlat : double) (rank : nat) : runs double :=
    rbind (rlift (estimateOptimumKernelGrid dv KLogLikelihood 0)) (fun grid =>
    let n := (fst grid * snd grid)%nat in
    rbind (launch dv KLogLikelihood grid
             (logLikelihoodThread (dupload prodAmps) (dmul prodAmpFlat prodAmpFlat) (gDecay g) (gEvents g) rank (gWaves g) (gMax g))
             dwrite (dalloc n)) (fun sums =>
    rbind (cascadedKernelSum (S n) (callSum arD) 6 sums n 1) (fun sums =>
    rlift (dread sums 0)))).
  (* cuda/likelihoodInterface.cu 421-536: logLikelihoodDeriv; the array derivatives as copied back
     to the host (cells that were never written on the device stay undefined) and derivativeFlat *)
  Definition gpuLogLikelihoodDeriv (g : gpu) (prodAmps : list cplx) (prodAmpFlat : double) (rank : nat)
    : runs (devArray cplx * double) :=
    rbind (rlift (estimateOptimumKernelGrid dv KDerivFirstTerm (gEvents g))) (fun grid =>
    rbind (launch dv KDerivFirstTerm grid
             (firstTermThread (dupload prodAmps) (dmul prodAmpFlat prodAmpFlat) (gDecay g) (gEvents g) rank (gWaves g) (gMax g))
             writeFirst (dalloc (rank * 2 * gEvents g), dalloc (gEvents g))) (fun terms =>
    rbind (rlift (estimateOptimumKernelGrid dv KDeriv 0)) (fun grid =>
    let n := (fst grid * snd grid)%nat in
    let elements := (rank * 2 * gMax g)%nat in
    rbind (launch dv KDeriv grid
             (derivThread (gDecay g) (gEvents g) rank (gWaves g) (gMax g) (fst terms) (snd terms))
             dwrite (dalloc (elements * n))) (fun sums =>
    rbind (cascadedKernelSum (S n) (callSumDerivatives g rank) 6 sums n elements) (fun derivatives =>
    rbind (rlift (estimateOptimumKernelGrid dv KDerivFlat 0)) (fun grid =>
    let n := (fst grid * snd grid)%nat in
    rbind (launch dv KDerivFlat grid (flatThread (gEvents g) prodAmpFlat (snd terms)) dwrite (dalloc n)) (fun sums =>
    rbind (cascadedKernelSum (S n) (callSum arD) 6 sums n 1) (fun sums =>
    rbind (rlift (dread sums 0)) (fun flat =>
    rlift (Some (firstn elements derivatives, flat))))))))))).
End Interface.

(* ---- the likelihood object ---- *)
(* pwaLikelihood.cc 1360, 1688: max(_nmbWavesRefl[0], _nmbWavesRefl[1]) *)
Definition wavesMax (lk : lik) : nat := Nat.max (shWaves (lkShape lk) 0) (shWaves (lkShape lk) 1).
(* pwaLikelihood.cc 1361-1376: decayAmpsArray *)
Definition decayAmpsArray (lk : lik) : option (list cplx) :=
  let dim := [2%nat; wavesMax lk; lkEvts lk] in
  do n <- nmbElements dim 3;
  foldO (fun iEvt a => foldO (fun iRefl a => foldO (fun iWave a =>
      do o <- indicesToOffset [iRefl; iWave; iEvt] dim 3;
      wr a o (ofC (lkDec lk iRefl iEvt iWave)))
    (List.seq 0 (shWaves (lkShape lk) iRefl)) a) [0%nat; 1%nat] a)
    (List.seq 0 (lkEvts lk)) (repeat (ofC 0) n).
(* cuda/likelihoodInterface.cu 193-243: loadDecayAmps with reshuffleArray = false; the number of
   bytes to allocate and to copy is an unsigned int, sizeof(complexT) = 16 *)
Definition loadDecayAmps (decayAmps : list cplx) (nmbEvents : nat) (nmbWavesRefl : nat * nat) : gpu :=
  let size := ((Z.of_nat (length decayAmps) * 16) mod 2 ^ 32)%Z in
  Gpu (dupload (firstn (Z.to_nat (size / 16)) decayAmps)) nmbEvents nmbWavesRefl
      (Nat.max (fst nmbWavesRefl) (snd nmbWavesRefl)).
(* pwaLikelihood.cc 1355-1383: the CUDA part of finishInit; it overwrites the static members *)
Definition finishInitCuda (lk : lik) (g : gpu) : option gpu :=
  do a <- decayAmpsArray lk;
  Some (loadDecayAmps a (lkEvts lk) (shWaves (lkShape lk) 0, shWaves (lkShape lk) 1)).
(* cuda/likelihoodInterface.cu 100-103: static initialisation *)
Definition gpuStart : gpu := Gpu [] 0 (0, 0)%nat 0.

(* pwaLikelihood.cc 355-356, 1680-1712: the memory of the multi_array prodAmps, extents
   [_rank][2][max], in C storage order *)
Definition prodAmpsData (lk : lik) (P : idx -> C) : list cplx :=
  flat_map (fun r => flat_map (fun e => map (fun w => ofC (P (r, e, w))) (List.seq 0 (wavesMax lk))) [0%nat; 1%nat])
           (List.seq 0 (shRank (lkShape lk))).

(* pwaLikelihood.cc 316-435: DoEval with _cudaEnabled *)
Definition doEvalCuda (dv : device) (g : gpu) (lk : lik) (par : list R) : runs double :=
  rbind (rlift (copyFromParArray (lkShape lk) par)) (fun a =>
  rbind (gpuLogLikelihood dv g (prodAmpsData lk (fst a)) (Some (snd a)) (shRank (lkShape lk))) (fun ll =>
  rlift (Some (dadd (dadd ll (Some (nmbEvt lk * normFactor lk (fst a) (snd a)))) (priorValue lk (fst a)))))).

(* pwaLikelihood.cc 527-541: reading derivatives[iRank][iRefl][iWave] (extents [_rank][2][max]) of
   every production amplitude *)
Definition hostDerivatives (lk : lik) (d : devArray cplx) : option (idx -> cplx) :=
  foldO (fun t D =>
    do o <- indicesToOffset [rk t; rf t; wv t] [shRank (lkShape lk); 2%nat; wavesMax lk] 3;
    do v <- dread d o;
    Some (upd D t v)) (loopWaves (lkShape lk)) (fun _ => ofC 0).
(* pwaLikelihood.cc 588-625: normalisation and prior, added to the derivatives of the events *)
Definition addNormPrior (lk : lik) (P : idx -> C) (b : bool) (t : idx) (ev : double) : double :=
  let part := fun z : C => if b then Re z else Im z in
  let nd := part (csumN (fun j => (P (rk t, rf t, j) * Cconj (lkAcc lk (rf t) (wv t) j))%C) (shWaves (lkShape lk) (rf t)))
            * (2 * nmbEvt lk) in
  dsub (dadd ev (Some nd)) (priorDeriv lk P t b).
(* pwaLikelihood.cc 474-637: Gradient with _cudaEnabled *)
Definition gradientCuda (dv : device) (g : gpu) (lk : lik) (par : list R) : runs (list double) :=
  rbind (rlift (copyFromParArray (lkShape lk) par)) (fun a =>
  rbind (gpuLogLikelihoodDeriv dv g (prodAmpsData lk (fst a)) (Some (snd a)) (shRank (lkShape lk))) (fun df =>
  rbind (rlift (hostDerivatives lk (fst df))) (fun D =>
  rlift (copyToParArray (fun t => addNormPrior lk (fst a) true t (fst (D t)))
                        (fun t => addNormPrior lk (fst a) false t (snd (D t)))
                        (lkShape lk) (lkMap lk) (dadd (snd df) (Some (snd a * (2 * nmbEvt lk) * lkTotAcc lk)))
                        (repeat (Some 0) (Z.to_nat (nmbPars (lkShape lk)))))))).
