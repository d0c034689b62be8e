(* Model of decayAmplitude/ampIntegralMatrix.{h,cc} and of the merge functions of
   decayAmplitude/ampIntegralMatrixMetadata.cc.

   Simplifications: double is R and std::complex<double> is C (pairs of reals); the
   compensated sums of boost::accumulators are exact sums (see C08 for the
   accumulators); unsigned long is an integer modulo 2^64; _integrals is a list of rows;
   an abort (throw without exception) or undefined behaviour is [None]; wave
   descriptions and ROOT input/output are not modelled. *)
From Coq Require Import String Ascii List ZArith Bool Reals Lia.
From Coquelicot Require Import Complex.
From Verif Require Import PathModel StrModel ParticleModel.
Import ListNotations.
Open Scope list_scope.
Open Scope nat_scope.

(* C++ arithmetic of unsigned long (_nmbEvents, ampIntegralMatrix.h 157): modulo 2^64 *)
Definition u64 (z : Z) : Z := (z mod 2 ^ 64)%Z.

(* ampIntegralMatrix.h 155-168 *)
Record aim := AIM { nmbWaves : nat; waveNames : list str; nmbEvents : Z; integrals : list (list C) }.

(* ampIntegralMatrix.cc 66-78, 92-103 *)
Definition aimEmpty : aim := AIM 0 [] 0 [].

(* element access of boost::multi_array; None = outside *)
Definition mget (m : list (list C)) (i j : nat) : option C :=
  match nth_error m i with Some r => nth_error r j | None => None end.

(* boost::multi_array::resize: keeps the common part, new elements are 0 *)
Definition mresize (m : list (list C)) (r c : nat) : list (list C) :=
  map (fun i => map (fun j => match mget m i j with Some x => x | None => RtoC 0 end) (seq 0 c)) (seq 0 r).

(* for i < n, j < n: m[i][j] = f i j m[i][j]; None if an element is missing or f fails *)
(* the double loops over the waves, e.g. ampIntegralMatrix.cc 133-136, 152-155 *)
Definition updAll (n : nat) (f : nat -> nat -> C -> option C) (m : list (list C)) : option (list (list C)) :=
  mapP (fun i =>
    match nth_error m i with
    | None => None
    | Some row => mapP (fun j => match nth_error row j with None => None | Some x => f i j x end) (seq 0 n)
    end) (seq 0 n).

(* ampIntegralMatrix.cc 187-191 *)
Definition containsWave (m : aim) (w : str) : bool := existsb (str_eqb w) (waveNames m).

(* std::find on the wave names, ampIntegralMatrix.cc 194-203 *)
Fixpoint findIdx (w : str) (l : list str) : option nat :=
  match l with
  | [] => None
  | x :: r => if str_eqb x w then Some 0 else match findIdx w r with Some i => Some (S i) | None => None end
  end.
(* ampIntegralMatrix.cc 194-203 *)
Definition waveIndex (m : aim) (w : str) : option nat := findIdx w (waveNames m).

(* ampIntegralMatrix.cc 206-215 *)
Definition waveName (m : aim) (i : nat) : option str := nth_error (waveNames m) i.

(* ampIntegralMatrix.cc 237-252: None = abort *)
Definition element (m : aim) (i j : nat) : option C :=
  if nmbWaves m <=? i then None else if nmbWaves m <=? j then None
  else doP x <- mget (integrals m) i j; Some (x / RtoC (IZR (nmbEvents m)))%C.

(* ampIntegralMatrix.cc 254-277 *)
Definition setWaveNames (m : aim) (names : list str) : aim * bool :=
  if 0 <? nmbWaves m then
    if length names =? nmbWaves m
    then (m, list_eqb (firstn (nmbWaves m) (waveNames m)) names)
    else (m, false)
  else (AIM (length names) names (nmbEvents m) (mresize (integrals m) (length names) (length names)), true).

(* ampIntegralMatrix.cc 279-297; the map of amplitudes is a partial function.
   None = undefined behaviour (reads outside a vector) *)
Definition addEvent (m : aim) (amps : str -> option C) : option (aim * bool) :=
  doP names <- mapP (waveName m) (seq 0 (nmbWaves m));
  if negb (forallb (fun w => match amps w with Some _ => true | None => false end) names) then Some (m, false)
  else
    doP ints <- updAll (nmbWaves m) (fun i j x =>
      doP wi <- waveName m i; doP iAmp <- amps wi;
      doP wj <- waveName m j; doP jAmp <- amps wj;
      Some (x + iAmp * Cconj jAmp)%C) (integrals m);
    Some (AIM (nmbWaves m) (waveNames m) (u64 (nmbEvents m + 1)) ints, true).

(* ampIntegralMatrix.cc 632-646; None = abort in waveName *)
Definition hasIdenticalWaveSet (m k : aim) : option bool :=
  if negb (nmbWaves m =? nmbWaves k) then Some false
  else
    doP nm <- mapP (waveName m) (seq 0 (nmbWaves m));
    if negb (forallb (containsWave k) nm) then Some false
    else doP nk <- mapP (waveName k) (seq 0 (nmbWaves k)); Some (forallb (containsWave m) nk).

(* ampIntegralMatrix.cc 125-142 (op = +) and 145-162 (op = -); None = abort *)
Definition addSub (op : C -> C -> C) (evop : Z -> Z -> Z) (m k : aim) : option aim :=
  doP same <- hasIdenticalWaveSet m k;
  if negb same then None
  else
    doP ints <- updAll (nmbWaves m) (fun i j x =>
      doP wi <- waveName m i; doP wj <- waveName m j;
      doP ki <- waveIndex k wi; doP kj <- waveIndex k wj;
      doP y <- mget (integrals k) ki kj; Some (op x y)) (integrals m);
    Some (AIM (nmbWaves m) (waveNames m) (u64 (evop (nmbEvents m) (nmbEvents k))) ints).
(* ampIntegralMatrix.cc 125-142 *)
Definition addAssign : aim -> aim -> option aim := addSub Cplus Z.add.
(* ampIntegralMatrix.cc 145-162 *)
Definition subAssign : aim -> aim -> option aim := addSub Cminus Z.sub.

(* ampIntegralMatrix.cc 165-173: the event count is multiplied in double and truncated
   (non-negative factors and in-range results only) *)
Definition mulAssign (f : R) (m : aim) : option aim :=
  doP ints <- updAll (nmbWaves m) (fun _ _ x => Some (x * RtoC f)%C) (integrals m);
  Some (AIM (nmbWaves m) (waveNames m) (Int_part (IZR (nmbEvents m) * f)) ints).

(* ampIntegralMatrix.cc 491-499 *)
Definition renormalize (n : Z) (m : aim) : option aim :=
  doP m' <- mulAssign (IZR n / IZR (nmbEvents m))%R m;
  Some (AIM (nmbWaves m') (waveNames m') n (integrals m')).

(* C++ operator == of std::complex<double> *)
Definition Ceqb (x y : C) : bool := decR (fst x) (fst y) && decR (snd x) (snd y).

(* ampIntegralMatrix.h 177-196; None = abort or undefined *)
Definition aimEq (m k : aim) : option bool :=
  doP same <- hasIdenticalWaveSet m k;
  if negb same || negb (nmbEvents m =? nmbEvents k)%Z then Some false
  else
    doP rows <- mapP (fun i => mapP (fun j =>
      doP wi <- waveName m i; doP wj <- waveName m j;
      doP x <- mget (integrals m) i j;
      doP ki <- waveIndex k wi; doP kj <- waveIndex k wj;
      doP y <- mget (integrals k) ki kj; Some (Ceqb x y)) (seq 0 (nmbWaves m))) (seq 0 (nmbWaves m));
    Some (forallb (forallb (fun b => b)) rows).

(* ---------------- integration, ampIntegralMatrix.cc 300-488 ---------------- *)
(* One event: for each wave the list of incoherent sub-amplitudes. *)
(* ampIntegralMatrix.cc 408-448: what is read from the amplitude trees for one event *)
Definition event := list (list C).

(* ampIntegralMatrix.cc 462-464: sum of sub-amplitudes from 0 *)
Definition csumL (l : list C) : C := fold_left Cplus l (RtoC 0).
(* 462-464: sum over sub-amplitudes; None = abort because of different numbers *)
Definition eventProd (e : event) (i j : nat) : option C :=
  doP a <- nth_error e i; doP b <- nth_error e j;
  if negb (length a =? length b) then None
  else Some (csumL (map (fun p => (fst p * Cconj (snd p))%C) (combine a b))).

(* the local variables of the loop ampIntegralMatrix.cc 399-407 *)
Record istate := IS { isCount : Z; isWeights : list R; isWSum : R; isAcc : nat -> nat -> C; isOk : bool; isStop : bool }.

(* the loop over events 408-469: [accepted] is variables.inBoundaries(otfBin) (true
   without on-the-fly bin), [useWeight] whether a weight file is given; the weight file
   is the list of the numbers in it *)
Definition intStep (nWaves : nat) (useWeight : bool) (s : istate) (ev : event * bool) : option istate :=
  if isStop s then Some s
  else
    let (e, accepted) := ev in
    if negb accepted then Some s
    else
      let count := (isCount s + 1)%Z in
      let stepW := if useWeight then
                     match isWeights s with [] => None | w :: r => Some (w, r) end
                   else Some (1%R, isWeights s) in
      match stepW with
      | None => Some (IS count (isWeights s) (isWSum s) (isAcc s) false true)
      | Some (w, rest) =>
          let weight := (1 / w)%R in
          doP _ <- mapP (fun a => match a with [] => None | _ => Some tt end) (firstn nWaves e);
          doP _ <- mapP (fun i => mapP (eventProd e i) (seq 0 nWaves)) (seq 0 nWaves);
          Some (IS count rest (isWSum s + weight)%R
             (fun i j => match eventProd e i j with
                         | Some v => (isAcc s i j + (if useWeight then v * RtoC weight else v))%C
                         | None => isAcc s i j end)
             (isOk s) false)
      end.

(* ampIntegralMatrix.cc 408-469 *)
Fixpoint intLoop (nWaves : nat) (useWeight : bool) (s : istate) (evs : list (event * bool)) : option istate :=
  match evs with
  | [] => Some s
  | e :: r => doP s' <- intStep nWaves useWeight s e; intLoop nWaves useWeight s' r
  end.

(* integrate() on a matrix whose wave names are those of the amplitude files; [evs] are
   the first maxNmbEvents (or all) events. Result: matrix and success flag.
   weights = None: no weight file *)
(* ampIntegralMatrix.cc 300-488 *)
Definition integrate (names : list str) (weights : option (list R)) (evs : list (event * bool)) : option (aim * bool) :=
  let n := length names in
  let useWeight := match weights with Some _ => true | None => false end in
  doP s <- intLoop n useWeight
             (IS 0 (match weights with Some w => w | None => [] end) 0 (fun _ _ => RtoC 0) true false) evs;
  let weightNorm := (isWSum s / IZR (isCount s))%R in
  let cell i j := if useWeight then (isAcc s i j * RtoC (1 / weightNorm))%C else isAcc s i j in
  Some (AIM n names (isCount s) (map (fun i => map (fun j => cell i j) (seq 0 n)) (seq 0 n)), isOk s).

(* ---------------- text form, ampIntegralMatrix.cc 502-569 ---------------- *)
(* White-space separated tokens; numbers are written with full precision, so that
   reading a number token gives the value back. *)
(* representation of the white-space separated items of the text file, ampIntegralMatrix.cc 502-569 *)
Inductive tok := TNat (n : Z) | TCplx (c : C) | TStr (s : str).

(* (tokens written to the given stream, tokens written to std::cout) *)
Definition writeAscii (m : aim) : option (list tok * list tok) :=
  doP rows <- mapP (fun i => mapP (fun j => mget (integrals m) i j) (seq 0 (nmbWaves m))) (seq 0 (nmbWaves m));
  doP nm <- mapP (waveName m) (seq 0 (nmbWaves m));
  Some ([TNat (Z.of_nat (nmbWaves m)); TNat (nmbEvents m); TNat (Z.of_nat (nmbWaves m)); TNat (Z.of_nat (nmbWaves m))]
        ++ map TCplx (concat rows) ++ [TNat (Z.of_nat (length (waveNames m)))],
        concat (map (fun p => [TStr (snd p); TNat (Z.of_nat (fst p))]) (combine (seq 0 (nmbWaves m)) nm))).

(* formatted input of an unsigned integer, C++ operator >> *)
Definition rdNat (ts : list tok) : option (nat * list tok) :=
  match ts with TNat n :: r => if (0 <=? n)%Z then Some (Z.to_nat n, r) else None | _ => None end.
(* formatted input of a word, C++ operator >> *)
Definition rdStr (ts : list tok) : option (str * list tok) :=
  match ts with TStr s :: r => Some (s, r) | _ => None end.
(* n times C++ operator >> of a complex number, ampIntegralMatrix.cc 535-569 *)
Fixpoint rdCplxs (n : nat) (ts : list tok) : option (list C * list tok) :=
  match n with
  | O => Some ([], ts)
  | S k => match ts with TCplx c :: r => doP (l, r') <- rdCplxs k r; Some (c :: l, r') | _ => None end
  end.
(* rows times cols complex numbers, ampIntegralMatrix.cc 535-569 *)
Fixpoint rdRows (rows cols : nat) (ts : list tok) : option (list (list C) * list tok) :=
  match rows with
  | O => Some ([], ts)
  | S k => doP (l, r) <- rdCplxs cols ts; doP (ls, r') <- rdRows k cols r; Some (l :: ls, r')
  end.
(* C++ assignment to an element of a vector, ampIntegralMatrix.cc 565 *)
Fixpoint setNth {A} (l : list A) (i : nat) (x : A) : option (list A) :=
  match l, i with
  | [], _ => None
  | _ :: r, O => Some (x :: r)
  | y :: r, S k => doP r' <- setNth r k x; Some (y :: r')
  end.
(* the loop 558-567: inl = failure with the names read so far, inr = success;
   None = write outside the vector of names *)
Fixpoint rdNames (k : nat) (names : list str) (ts : list tok) : option (list str * bool) :=
  match k with
  | O => Some (names, true)
  | S k' =>
      match (doP (w, r) <- rdStr ts; doP (i, r') <- rdNat r; Some (w, i, r')) with
      | None => Some (names, false)
      | Some (w, i, r') => doP names' <- setNth names i w; rdNames k' names' r'
      end
  end.
(* vector::resize *)
(* std::vector::resize, ampIntegralMatrix.cc 551 *)
Definition vresize (l : list str) (n : nat) : list str := firstn n l ++ repeat [] (n - length l).

(* ampIntegralMatrix.cc 527-569 for streams whose matrix part is complete: the state
   after a failure inside the matrix part is not modelled (aim unchanged there) *)
Definition readAscii (this : aim) (ts : list tok) : option (aim * bool) :=
  match (doP (nw, ts) <- rdNat ts; doP (ne, ts) <- rdNat ts; doP (r, ts) <- rdNat ts; doP (c, ts) <- rdNat ts;
         doP (rows, ts) <- rdRows r c ts; Some (nw, ne, rows, ts)) with
  | None => Some (this, false)
  | Some (nw, ne, rows, ts) =>
      let names := vresize (waveNames this) nw in
      match rdNat ts with
      | None => Some (AIM nw names (Z.of_nat ne) rows, false)
      | Some (k, ts) =>
          if negb (k =? nw) then Some (AIM nw names (Z.of_nat ne) rows, false)
          else doP (names', ok) <- rdNames k names ts; Some (AIM nw names' (Z.of_nat ne) rows, ok)
      end
  end.

(* ---------------- metadata, ampIntegralMatrixMetadata.cc ---------------- *)
Section Meta.
  (* event metadata objects: only compared (eventMetadata::operator==) and stored *)
  Context {E : Type} (eqE : E -> E -> bool).
  (* recalculateHash 25-38: a function of the normalised matrix elements *)
  Variable hashOf : aim -> str.

  (* ampIntegralMatrixMetadata.h 60-69: the data members *)
  Record meta := MD { mContentHash : str; mGitHash : str; mKeyFiles : list str; mAmpHashes : list str;
                      mAllZero : str; mBounds : smap (R * R); mEvtMetas : list E; mMatrix : aim }.

  (* 209-219 *)
  Definition addAmplitudeHash (h : str) (m : meta) : meta * bool :=
    if str_eqb h (mAllZero m) then (m, true)
    else if existsb (str_eqb h) (mAmpHashes m) then (m, false)
    else (MD (mContentHash m) (mGitHash m) (mKeyFiles m) (mAmpHashes m ++ [h]) (mAllZero m) (mBounds m) (mEvtMetas m) (mMatrix m), true).

  (* 237-244 *)
  Definition addEventMetadata (e : E) (m : meta) : meta * bool :=
    if existsb (fun x => eqE x e) (mEvtMetas m) then (m, false)
    else (MD (mContentHash m) (mGitHash m) (mKeyFiles m) (mAmpHashes m) (mAllZero m) (mBounds m) (mEvtMetas m ++ [e]) (mMatrix m), true).

  (* loop "for all x: if not add(x) return false" *)
  (* the loops of ampIntegralMatrixMetadata.cc 98-147 (mergeIntegralMatrix) *)
  Fixpoint addLoop {X} (add : X -> meta -> meta * bool) (l : list X) (m : meta) : meta * bool :=
    match l with
    | [] => (m, true)
    | x :: r => let (m', ok) := add x m in if ok then addLoop add r m' else (m', false)
    end.

  (* 188-206; boundary type R*R, newMap built in key order *)
  Fixpoint hullLoop (l : smap (R * R)) (mine new : smap (R * R)) : option (smap (R * R)) :=
    match l with
    | [] => Some new
    | (v, (lo, hi)) :: r =>
        match m_find v mine with
        | None => None
        | Some (lo', hi') => hullLoop r mine (m_set v (Rmin lo lo', Rmax hi hi') new)
        end
    end.
  (* ampIntegralMatrixMetadata.cc 188-206 *)
  Definition mergeMultibinBoundaries (b : smap (R * R)) (m : meta) : meta * bool :=
    if negb (length b =? length (mBounds m)) then (m, false)
    else match hullLoop b (mBounds m) [] with
         | None => (m, false)
         | Some new => (MD (mContentHash m) (mGitHash m) (mKeyFiles m) (mAmpHashes m) (mAllZero m) new (mEvtMetas m) (mMatrix m), true)
         end.

  (* 98-147; None = abort in operator += *)
  Definition mergeIntegralMatrix (m second : meta) : option (meta * bool) :=
    if negb (nmbWaves (mMatrix second) =? nmbWaves (mMatrix m)) then Some (m, false)
    else if negb (str_eqb (mGitHash second) (mGitHash m)) then Some (m, false)
    else if negb (forallb (fun k => existsb (str_eqb k) (mKeyFiles m)) (mKeyFiles second)) then Some (m, false)
    else
      let (m1, ok1) := addLoop addAmplitudeHash (mAmpHashes second) m in
      if negb ok1 then Some (m1, false)
      else
        let (m2, ok2) := mergeMultibinBoundaries (mBounds second) m1 in
        if negb ok2 then Some (m2, false)
        else
          let (m3, ok3) := addLoop addEventMetadata (mEvtMetas second) m2 in
          if negb ok3 then Some (m3, false)
          else
            doP sum <- addAssign (mMatrix m3) (mMatrix second);
            let h := hashOf sum in
            Some (MD h (mGitHash m3) (mKeyFiles m3) (mAmpHashes m3) (mAllZero m3) (mBounds m3) (mEvtMetas m3) sum,
                  negb (str_eqb h [])).
End Meta.
Arguments MD {E}. Arguments meta : clear implicits.
