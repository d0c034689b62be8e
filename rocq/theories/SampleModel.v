(* Model of generators/importanceSampler.{h,cc}: events distributed like a model intensity, sampled with
   the Bayesian Analysis Toolkit BAT (C84).

   double is R (no rounding), with the type [ieee] of PhaseModel where numbers that are not finite occur.
   [None] is an abort, an exception, an access outside a vector or a number that is not finite where the
   code does not test for it.  BAT itself (proposals, chains) is not modelled: it calls the three functions
   below with vectors of parameters.  Simplifications: names of parameters and observables, timing and
   counting of the calls, messages and OpenMP (all critical sections are entered one after the other) are
   left out; the event file is the list of the events added to it; the generators of beam and t' are
   functions of the random numbers (C81, C82 model those of the code). *)
From Coq Require Import List ZArith Reals Bool.
From Verif Require Import ArrayModel CGBoxModel PhysModel PhaseModel FrameModel ProdModel.
Import ListNotations.
Open Scope R_scope.

(* BCParameter, used in importanceSampler.cc 105: lower and upper limit, value if fixed *)
Record bcPar := BcPar { bLow : R; bHigh : R; bFixed : option R }.
(* importanceSampler.cc 96-137: the parameters for the daughters from number part on ([masses] of them,
   mMinPar sum of the masses before): mass (range of X taken from the picker), cos(theta) and phi *)
Fixpoint parLoop (mMin mMax mMinPar : R) (masses : list R) : list bcPar :=
  match masses with
  | [] => []
  | m :: r =>
      let lo := mMinPar + m in
      let par := match r with
                 | [] => if reqb mMin mMax then BcPar lo mMax (Some mMax) else BcPar mMin mMax None
                 | _ => BcPar lo mMax None
                 end in
      par :: BcPar (-1) 1 None :: BcPar 0 (2 * PI) None :: parLoop mMin mMax lo r
  end.
(* an event in the file, eventFileWriter::addEvent as called in importanceSampler.cc 306: production
   momenta, decay momenta, additional variables *)
Record evt := Evt { eProd : list v3; eDecay : list v3; eVars : list R }.
(* importanceSampler.h 64-79 and the parameters given to BAT; [iModel] is getIntensity of the model
   (modelIntensity.h 88-93) for decay momenta, [iBeam] the beam and vertex generator (result, beam,
   position of the next random number), [iTPrime] pickTPrimeForMass of the picker *)
Record sampler := Sampler {
  iModel : list v3 -> option R; iBeam : (nat -> R) -> nat -> option (bool * lv * nat);
  iTPrime : R -> (nat -> R) -> nat -> option (bool * R * nat);
  iTarget : R; iRecoil : R; iMasses : list R; iSum : R; iPars : list bcPar;
  iOnlyPS : bool; iPrior : option (R -> R); iOpen : bool; iStore : bool }.
(* importanceSampler.cc 55-155: the constructor; [range] is massRange() of the picker.  The result of
   initDecayAmplitudes (82) is not used *)
Definition newSampler (model : list v3 -> option R) (beam : (nat -> R) -> nat -> option (bool * lv * nat))
    (tPrime : R -> (nat -> R) -> nat -> option (bool * R * nat)) (target recoil : R) (masses : list R) (range : R * R) : option sampler :=
  if (length masses <? 2)%nat then None
  else
    let '(mMin, mMax) := range in
    if rltb mMax mMin then None
    else
      do m0 <- rd masses 0;
      Some (Sampler model beam tPrime target recoil masses (fold_left Rplus masses 0) (parLoop mMin mMax m0 (tl masses))
                    false None false false).
(* importanceSampler.h 52 *)
Definition setPhaseSpaceOnly (b : bool) (s : sampler) : sampler :=
  Sampler (iModel s) (iBeam s) (iTPrime s) (iTarget s) (iRecoil s) (iMasses s) (iSum s) (iPars s) b (iPrior s) (iOpen s) (iStore s).
(* importanceSampler.h 53 *)
Definition setMassPrior (f : option (R -> R)) (s : sampler) : sampler :=
  Sampler (iModel s) (iBeam s) (iTPrime s) (iTarget s) (iRecoil s) (iMasses s) (iSum s) (iPars s) (iOnlyPS s) f (iOpen s) (iStore s).
(* importanceSampler.cc 318-353: initializeFileWriter; [ok] result of initialize of the file writer *)
Definition initializeFileWriter (ok store : bool) (s : sampler) : sampler :=
  Sampler (iModel s) (iBeam s) (iTPrime s) (iTarget s) (iRecoil s) (iMasses s) (iSum s) (iPars s) (iOnlyPS s) (iPrior s) ok store.

(* number of particles, importanceSampler.cc 68 *)
Definition nPart (s : sampler) : nat := length (iMasses s).
(* importanceSampler.cc 408-412: every mass large enough for the decay into the one before and a particle *)
Fixpoint massesOk (prev : R) (rest masses : list R) : option bool :=
  match rest, masses with
  | [], _ => Some true
  | m :: rest, M :: masses => if rltb M (prev + m) then Some false else massesOk M rest masses
  | _ :: _, [] => None
  end.
(* importanceSampler.cc 396-429: initializeNBodyPhaseSpace; Some None is the result false *)
Definition initializeNBodyPhaseSpace (parameters : list R) (angles : bool) (s : sampler) : option (option gen) :=
  let n := nPart s in
  do (ok, g) <- setDecay (iMasses s) (setKinematicsType BLOCK (setWeightType S_U_CHUNG newGen));
  if negb ok then Some None
  else
    do m0 <- rd (iMasses s) 0;
    do masses <- foldO (fun part l => do M <- rd parameters (3 * part - 3); Some (l ++ [M])) (seq 1 (n - 1)) [m0];
    do good <- massesOk m0 (tl (iMasses s)) (tl masses);
    if negb good then Some None
    else
      do g <- setMasses masses g;
      if angles then
        do cosTheta <- foldO (fun part l => do c <- rd parameters (3 * part - 2); Some (l ++ [c])) (seq 1 (n - 1)) [0];
        do phi <- foldO (fun part l => do p <- rd parameters (3 * part - 1); Some (l ++ [p])) (seq 1 (n - 1)) [0];
        do g <- setAngles cosTheta phi g;
        Some (Some g)
      else Some (Some g).

(* C library log, importanceSampler.cc 188, 234 *)
Definition ilog (x : ieee) : ieee :=
  match x with
  | Fin x => if rltb 0 x then Fin (ln x) else if rltb x 0 then NaN else Inf true
  | Inf false => Inf false
  | _ => NaN
  end.
(* importanceSampler.cc 158-191: LogAPrioriProbability *)
Definition logAPrioriProbability (parameters : list R) (s : sampler) : option ieee :=
  do og <- initializeNBodyPhaseSpace parameters false s;
  match og with
  | None => Some (Inf true)
  | Some g =>
      do mX <- rd parameters (3 * nPart s - 6);
      do g <- calcWeight g;
      let phaseSpace := idiv (gW g) (ipow (Fin (mX - iSum s)) (nPart s - 2)) in
      let phaseSpace := match iPrior s with Some f => imul phaseSpace (Fin (f mX)) | None => phaseSpace end in
      Some (ilog phaseSpace)
  end.
(* importanceSampler.cc 208-216 and 250-258: the event in the rest frame of X *)
Definition eventInX (parameters : list R) (s : sampler) : option gen :=
  do og <- initializeNBodyPhaseSpace parameters true s;
  do g <- og;
  do mX <- rd parameters (3 * nPart s - 6);
  do g <- calcBreakupMomenta g;
  calcEventKinematics (Lv 0 0 0 mX) g.
(* importanceSampler.cc 194-236: LogLikelihood *)
Definition logLikelihood (parameters : list R) (s : sampler) : option ieee :=
  if iOnlyPS s then Some (Fin 0)
  else
    do g <- eventInX parameters s;
    do intensity <- iModel s (map vect (gDau g));
    Some (ilog (Fin intensity)).

(* importanceSampler.cc 262-268: the squared masses of the pairs *)
Definition pairMasses (ds : list lv) : list R :=
  flat_map (fun a => map (fun b => lvM2 (lvAdd (nth a ds (Lv 0 0 0 0)) (nth b ds (Lv 0 0 0 0)))) (seq 0 a)) (seq 0 (length ds)).
(* importanceSampler.cc 363-393: getProductionKinematics; t', beam, X, position of the next random number;
   None also if it fails (the caller aborts, 295-298) *)
Definition getProductionKinematics (rnd : nat -> R) (xMass : R) (pos : nat) (s : sampler) : option (R * lv * lv * nat) :=
  do (ok, beam, pos) <- iBeam s rnd pos;
  if negb ok then None
  else
    let targetLab := Lv 0 0 0 (iTarget s) in
    let overallCm := lvAdd beam targetLab in
    do (ok, tPrime, pos) <- iTPrime s xMass rnd pos;
    if negb ok then None
    else
      do X <- calculateXSystemLab beam (iTarget s) xMass (iRecoil s) (lvM2 overallCm) tPrime (rnd pos);
      Some (tPrime, beam, X, S pos).
(* importanceSampler.cc 239-315: CalculateObservables; [mainRun] = GetPhase() > 0, iteration and lag of
   BAT; result: observables, event added to the file, position of the next random number *)
Definition calculateObservables (rnd : nat -> R) (mainRun : bool) (iteration lag : nat) (parameters : list R) (pos : nat) (s : sampler)
  : option (list R * option evt * nat) :=
  do g <- eventInX parameters s;
  do mX <- rd parameters (3 * nPart s - 6);
  let obs := pairMasses (gDau g) in
  if iOpen s && mainRun then
    if (lag =? 0)%nat then None
    else if negb (iteration mod lag =? 0)%nat then Some (obs, None, pos)
    else
      do (tPrime, pBeam, pX, pos) <- getProductionKinematics rnd mX pos s;
      do G <- gjTransform pBeam pX;
      let toLab := linv G in
      let decay := map (fun p => vect (lapply toLab p)) (gDau g) in
      let vars := if iStore s then [lvM pX; tPrime] else [] in
      Some (obs, Some (Evt [vect pBeam] decay vars), pos)
  else Some (obs, None, pos).
(* calls of CalculateObservables by BAT, one after the other; the events in the file, importanceSampler.cc 239-315 *)
Fixpoint run (rnd : nat -> R) (lag : nat) (calls : list (bool * nat * list R)) (pos : nat) (s : sampler) : option (list evt * nat) :=
  match calls with
  | [] => Some ([], pos)
  | (mainRun, it, pars) :: calls =>
      do (_, e, pos) <- calculateObservables rnd mainRun it lag pars pos s;
      do (es, pos) <- run rnd lag calls pos s;
      Some (match e with Some e => e :: es | None => es end, pos)
  end.
