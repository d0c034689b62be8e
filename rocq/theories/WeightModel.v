(* Model of generators/weightEvents.cc (weights for phase-space events from a fit result) and of the random variation of
   production amplitudes, partialWaveFit/fitResult.cc 116-158 (C89).

   Simplifications: double is R; a result that is not a number or infinite, an access outside of an array, an assertion, exit
   and throw are None. Command line, file formats, messages and the debug output are left out. The Cholesky factor (ROOT
   TDecompChol::GetU, matrix = U^T U) and the random numbers are arguments. *)
From Coq Require Import String Ascii List ZArith Bool Reals.
From Coquelicot Require Import Complex.
From Verif Require Import PathModel StrModel ParticleModel FitResultModel AmpIntModel.
Import ListNotations.
Open Scope list_scope.
Open Scope nat_scope.

(* glue: a loop whose steps can fail *)
Fixpoint mapO {A B : Type} (f : A -> option B) (l : list A) : option (list B) :=
  match l with [] => Some [] | x :: r => doP y <- f x; doP t <- mapO f r; Some (y :: t) end.

(* ---------------- partialWaveFit/fitResult.cc 116-158 ---------------- *)
(* sum of real numbers, the product of the matrix with the column of random numbers: fitResult.cc 138 *)
Definition rowTimes (U : nat -> nat -> R) (x : nat -> R) (n j : nat) : R := fold_left (fun s k => (s + U j k * x k)%R) (seq 0 n) 0%R.
(* fitResult.cc 148-151: index -1 is a fixed number *)
Definition varied1 (U : nat -> nat -> R) (x : nat -> R) (n : nat) (j : Z) (v : R) : option R :=
  if (j >? -1)%Z then if (j <? Z.of_nat n)%Z then Some (v + rowTimes U x n (Z.to_nat j))%R else None else Some v.
(* fitResult.cc 116-158; rows of the covariance matrix: number of parameters *)
Definition variedProdAmps (fr : fitResult) (U : nat -> nat -> R) (x : nat -> R) : option (list C) :=
  mapO (fun it =>
    doP T <- nth_error (frAmps fr) it;
    doP ix <- nth_error (frCovIdx fr) it;
    doP re <- varied1 U x (rows (frCov fr)) (fst ix) (Re T);
    doP im <- varied1 U x (rows (frCov fr)) (snd ix) (Im T);
    Some (re, im)) (seq 0 (length (frAmps fr))).

(* ---------------- generators/weightEvents.cc ---------------- *)
(* weightEvents.cc 68-122 openRootAmpFiles; a file is the list of its entries, an entry the list of sub-amplitudes; None: no
   such file or no metadata; a tree that is None is the null pointer of the flat wave *)
Fixpoint openRootAmpFiles (files : str -> option (list (list C))) (waves : list str) (trees : list (option (list (list C)))) (n : nat)
    : list (option (list (list C))) * nat :=
  match waves with
  | [] => (trees, n)
  | w :: r =>
      if str_eqb w (lit "flat") then openRootAmpFiles files r (trees ++ [None]) n
      else match files w with
           | None => openRootAmpFiles files r trees n
           | Some t =>
               if length t =? 0 then openRootAmpFiles files r trees n
               else if n =? 0 then openRootAmpFiles files r (trees ++ [Some t]) (length t)
               else if length t =? n then openRootAmpFiles files r (trees ++ [Some t]) n
               else openRootAmpFiles files r trees n
           end
  end.
(* weightEvents.cc 283-301: one fit result (mass bin center, -log likelihood); state: index, mass, -log likelihood *)
Definition pickStep (center : R) (s : (nat * R) * R) (e : nat * (R * R)) : (nat * R) * R :=
  let '((ib, mb), lb) := s in
  let '(i, (m, l)) := e in
  if i =? 0 then ((i, m), l)
  else if Rlt_dec (Rabs (center - m)) (Rabs (center - mb)) then ((i, m), l)
  else if Req_EM_T (Rabs (center - m)) (Rabs (center - mb)) then if Rlt_dec l lb then ((i, m), l) else s
  else s.
(* weightEvents.cc 276-324: index of the fit result, None = exit; without entries a null pointer is used later *)
Definition pickResult (center width : R) (l : list (R * R)) : option nat :=
  let '((ib, mb), _) := fold_left (pickStep center) (combine (seq 0 (length l)) l) ((0, 0%R), 0%R) in
  if Rlt_dec mb (center - width / 2) then None
  else if Rlt_dec (center + width / 2) mb then None
  else match l with [] => None | _ => Some ib end.
(* weightEvents.cc 341-360: what is kept of a production amplitude *)
Record pamp := PA { paWave : nat; paName : str; paRefl : Z; paRank : Z; paAmp : C }.
(* weightEvents.cc 341-350 *)
Definition readProdAmp (fr : fitResult) (i : nat) : option pamp :=
  doP n <- nth_error (frAmpNames fr) i;
  let w := waveNameForProdAmp n in
  doP k <- findStr w (frWaveNames fr);
  doP rank <- rankOfProdAmp n;
  doP refl <- getReflectivity w;
  doP T <- nth_error (frAmps fr) i;
  Some (PA k n refl rank T).
(* weightEvents.cc 340 *)
Definition readProdAmps (fr : fitResult) : option (list pamp) := mapO (readProdAmp fr) (seq 0 (length (frAmps fr))).
(* weightEvents.cc 327, 353-354: names of the waves; a wave without production amplitude has the empty name *)
Definition waveNamesOf (fr : fitResult) (l : list pamp) : list str :=
  map (fun k => if existsb (fun a => paWave a =? k) l then nth k (frWaveNames fr) [] else []) (seq 0 (length (frWaveNames fr))).
(* weightEvents.cc 359-360, 374: incremented once for each sample *)
Definition maxRankOf (l : list pamp) (samples : nat) : Z :=
  (fold_left (fun m a => if (m <? paRank a)%Z then paRank a else m) l 0 + Z.of_nat samples)%Z.
(* weightEvents.cc 455-464: decay amplitudes of an event *)
Definition readDecayAmps (trees : list (option (list (list C)))) (e : nat) : option (list C) :=
  mapO (fun t => match t with
                 | None => Some (RtoC 0)
                 | Some t => doP entry <- nth_error t e; match entry with [a] => Some a | _ => None end
                 end) trees.
(* library: std::norm *)
Definition cnorm2 (z : C) : R := (Re z * Re z + Im z * Im z)%R.
(* glue: weightEvents.cc 470-472, 493-499: sums for each rank, the flat amplitude, weights of the production amplitudes *)
Record sums := Sums { sPos : nat -> C; sNeg : nat -> C; sFlat : C; sProd : list R }.
(* weightEvents.cc 492-499: the sum for a rank *)
Definition addAt (f : nat -> C) (r : nat) (z : C) : nat -> C := fun k => if k =? r then (f k + z)%C else f k.
(* weightEvents.cc 474-500: one production amplitude and its value in the sample *)
Definition addProdAmp (mat : aim) (waves : list str) (decs : list C) (maxRank : Z) (s : sums) (x : pamp * C) : option sums :=
  let '(a, p) := x in
  let N := IZR (nmbEvents mat) in
  doP w <- nth_error waves (paWave a);
  doP d <- nth_error decs (paWave a);
  if str_eqb w (lit "flat") then
    if Rle_dec N 0 then None
    else let z := (p / RtoC (sqrt N))%C in Some (Sums (sPos s) (sNeg s) z (sProd s ++ [cnorm2 z]))
  else
    doP k <- waveIndex mat w;
    doP el <- element mat k k;
    let q := (Re el * N)%R in
    if Rle_dec q 0 then None
    else
      let z := (d * p / RtoC (sqrt q))%C in
      let ok := (0 <=? paRank a)%Z && (paRank a <? maxRank)%Z in
      let prods := sProd s ++ [cnorm2 z] in
      if (paRefl a =? 1)%Z then if ok then Some (Sums (addAt (sPos s) (Z.to_nat (paRank a)) z) (sNeg s) (sFlat s) prods) else None
      else if (paRefl a =? -1)%Z then if ok then Some (Sums (sPos s) (addAt (sNeg s) (Z.to_nat (paRank a)) z) (sFlat s) prods) else None
      else Some (Sums (sPos s) (sNeg s) (sFlat s) prods).
(* weightEvents.cc 474: all production amplitudes *)
Fixpoint addProdAmps (mat : aim) (waves : list str) (decs : list C) (maxRank : Z) (s : sums) (l : list (pamp * C)) : option sums :=
  match l with [] => Some s | x :: r => doP s' <- addProdAmp mat waves decs maxRank s x; addProdAmps mat waves decs maxRank s' r end.
(* weightEvents.cc 502-508: incoherent sum over rank *)
Definition rankSum (f : nat -> C) (maxRank : Z) : R := fold_left (fun s r => (s + cnorm2 (f r))%R) (seq 0 (Z.to_nat maxRank)) 0%R.
(* weightEvents.cc 467-511: one sample: weights of the reflectivities, of the flat wave, of the production amplitudes *)
Definition sampleWeight (mat : aim) (waves : list str) (decs : list C) (maxRank : Z) (l : list pamp) (amps : list C) : option ((R * R) * R * list R) :=
  if length l =? length amps then
    doP s <- addProdAmps mat waves decs maxRank (Sums (fun _ => RtoC 0) (fun _ => RtoC 0) (RtoC 0) []) (combine l amps);
    Some (rankSum (sPos s) maxRank, rankSum (sNeg s) maxRank, cnorm2 (sFlat s), sProd s)
  else None.
(* weightEvents.cc 400-440: an entry of the output tree *)
Record row := Row { wAll : R; wPos : R; wNeg : R; wFlat : R; wWaves : list R; wProds : list R; wSamples : list R }.
(* weightEvents.cc 511 *)
Definition total (x : (R * R) * R * list R) : R := let '(((p, n), f), _) := x in (p + n + f)%R.
(* weightEvents.cc 514-519: sum over ranks for each wave *)
Definition waveSum (k : nat) (l : list (pamp * R)) : R := fold_left (fun s x => if paWave (fst x) =? k then (s + snd x)%R else s) l 0%R.
(* weightEvents.cc 451-531: one event *)
Definition weighEvent (mat : aim) (waves : list str) (trees : list (option (list (list C)))) (maxRank : Z) (l : list pamp) (samples : list (list C)) (e : nat)
    : option row :=
  doP decs <- readDecayAmps trees e;
  doP ws <- mapO (sampleWeight mat waves decs maxRank l) samples;
  match ws with
  | [] => None
  | x :: _ =>
      let '(((p, n), f), prods) := x in
      Some (Row (total x) p n f (map (fun k => waveSum k (combine l prods)) (seq 0 (length waves))) prods (map total ws))
  end.
(* weightEvents.cc 424-430: are there branches for the single production amplitudes *)
Definition prodBranches (single : bool) (maxRank : Z) : bool := single && (maxRank >? 1)%Z.
(* weightEvents.cc 155-534 main: fit results with their mass and -log likelihood, the integral matrix, the amplitude files,
   the Cholesky factor for a fit result and random numbers for the samples after the first (at least one sample) *)
Definition weightEvents (center width : R) (single : bool) (results : list ((R * R) * fitResult)) (mat : aim) (files : str -> option (list (list C)))
    (U : fitResult -> nat -> nat -> R) (random : list (nat -> R)) : option (bool * list row) :=
  if Req_EM_T center 0 then None
  else
    doP j <- pickResult center width (map fst results);
    doP x <- nth_error results j;
    let fr := snd x in
    doP l <- readProdAmps fr;
    doP more <- mapO (variedProdAmps fr (U fr)) random;
    let samples := map paAmp l :: more in
    let maxRank := maxRankOf l (length samples) in
    let waves := waveNamesOf fr l in
    let '(trees, n) := openRootAmpFiles files waves [] 0 in
    if negb (length waves =? length trees) then None
    else if n =? 0 then None
    else
      doP rows <- mapO (weighEvent mat waves trees maxRank l samples) (seq 0 n);
      Some (prodBranches single maxRank, rows).
