(* Model of the set-up of partialWaveFit/pwaLikelihood.cc: wave list, integral matrices,
   decay amplitudes, on-the-fly binning and the final rescaling (C41-C43, C63), compiled
   without CUDA; and of the reduction of the Hessian to the free parameters.

   Simplifications: double is R. An operation whose IEEE result would be NaN because of the
   square root of a negative number makes the whole call None, as do a failed assertion and
   an access outside of a vector or tree; the division by zero in the total acceptance is
   the None of [double]. multi_arrays are functions of their indices, zero-initialised,
   and keep their elements when resized. A wave description is represented by the
   reflectivity of its X. Trees are lists of entries. unsigned int does not overflow. *)
From Coq Require Import String Ascii List ZArith Reals Bool.
From Coquelicot Require Import Complex.
From Verif Require Import ArrayModel PathModel StrModel CGBoxModel AmpIntModel LikParModel LikModel.
Import ListNotations.
Open Scope list_scope. Open Scope nat_scope.

(* pwaLikelihood.h 270-325: the members used by the set-up *)
Record state := St {
  stWaves  : nat -> nat;                       (* _nmbWavesRefl *)
  stName   : nat -> nat -> str;                (* _waveNames *)
  stThr    : nat -> nat -> R;                  (* _waveThresholds *)
  stAdded  : nat -> nat -> bool;               (* _waveAmpAdded *)
  stParams : smap (nat * nat);                 (* _waveParams *)
  stRank   : nat;                              (* _rank *)
  stPars   : list fitParameter;                (* _parameters; its length is _nmbPars *)
  stFixed  : nat;                              (* _nmbParsFixed *)
  stMap    : parMap;                           (* _prodAmpToFuncParMap *)
  stInit   : bool; stNorm : bool; stAcc : bool; stFin : bool;
  stNumb   : Z;                                (* _numbAccEvents *)
  stNormM  : nat -> nat -> nat -> nat -> C;    (* _normMatrix *)
  stAccM   : nat -> nat -> nat -> nat -> C;    (* _accMatrix *)
  stTot    : double;                           (* _totAcc *)
  stUse    : bool;                             (* _useNormalizedAmps *)
  stEvts   : nat;                              (* _nmbEvents *)
  stDec    : nat -> nat -> nat -> C;           (* _decayAmps[refl][event][wave] *)
  stOrder  : list str;                         (* _eventFileHashOrder *)
  stFiles  : smap (nat * list nat);            (* _eventFileProperties *)
  stPhase  : nat -> nat -> R }.                (* _phaseSpaceIntegral *)

(* pwaLikelihood.cc 133-160: constructor; _totAcc and _nmbParsFixed stay uninitialised, which
   is represented by None and 0 *)
Definition fresh : state :=
  St (fun _ => 0) (fun _ _ => []) (fun _ _ => 0%R) (fun _ _ => false) [] 1 [] 0 (fun _ => (0, 0)%Z)
     false false false false 0 (fun _ _ _ _ => RtoC 0) (fun _ _ _ _ => RtoC 0) None true 0 (fun _ _ _ => RtoC 0) [] []
     (fun _ _ => 0%R).

(* ---- wave list ---- *)
(* an element of the wave list: name, reflectivity of X, threshold *)
(* representation of waveDescThresType, pwaLikelihood.cc 1449-1459 *)
Definition waveIn : Type := str * Z * R.
(* representation of waveDescThresType, pwaLikelihood.cc 1449-1459 *)
Definition wiName (w : waveIn) : str := fst (fst w).
(* pwaLikelihood.cc 1456 *)
Definition wiRefl (w : waveIn) : Z := snd (fst w).
(* representation of waveDescThresType, pwaLikelihood.cc 1449-1459 *)
Definition wiThr (w : waveIn) : R := snd w.
(* the local vectors waveNames[refl] and waveThres[refl] of readWaveList *)
(* pwaLikelihood.cc 1447-1470 *)
Definition ofRefl (e : nat) (ws : list waveIn) : list waveIn :=
  filter (fun w => Bool.eqb (0 <? wiRefl w)%Z (e =? 1)) ws.

(* C++ assignment to an element of a multi_array *)
Definition upd2 {A} (m : nat -> nat -> A) (e w : nat) (v : A) : nat -> nat -> A :=
  fun a b => if (a =? e) && (b =? w) then v else m a b.
(* std::map::insert keeps an existing element *)
Definition m_insert {V} (k : str) (v : V) (m : smap V) : smap V := match m_find k m with Some _ => m | None => m_set k v m end.

(* pwaLikelihood.cc 1476-1482: body of the loop *)
Definition readStep (ws : list waveIn) (ew : nat * nat) (s : state) : option state :=
  let '(e, w) := ew in
  do x <- nth_error (ofRefl e ws) w;
  Some (St (stWaves s) (upd2 (stName s) e w (wiName x)) (upd2 (stThr s) e w (wiThr x)) (upd2 (stAdded s) e w false)
           (m_insert (wiName x) (e, w) (stParams s)) (stRank s) (stPars s) (stFixed s) (stMap s) (stInit s) (stNorm s) (stAcc s) (stFin s)
           (stNumb s) (stNormM s) (stAccM s) (stTot s) (stUse s) (stEvts s) (stDec s) (stOrder s) (stFiles s) (stPhase s)).
(* loop over reflectivity and wave, e.g. pwaLikelihood.cc 1476-1477 *)
Definition loop2 (n : nat -> nat) : list (nat * nat) := flat_map (fun e => map (fun w => (e, w)) (List.seq 0 (n e))) [0; 1].
(* pwaLikelihood.cc 1445-1484; the numbers of waves are incremented, never reset *)
Definition readWaveList (s : state) (ws : list waveIn) : option state :=
  if forallb (fun w => (wiRefl w =? -1)%Z || (wiRefl w =? 1)%Z) ws then
    let n := fun e => stWaves s e + length (ofRefl e ws) in
    foldO (readStep ws) (loop2 n)
      (St n (stName s) (stThr s) (stAdded s)
           (stParams s) (stRank s) (stPars s) (stFixed s) (stMap s) (stInit s) (stNorm s) (stAcc s) (stFin s)
           (stNumb s) (stNormM s) (stAccM s) (stTot s) (stUse s) (stEvts s) (stDec s) (stOrder s) (stFiles s) (stPhase s))
  else None.

(* pwaLikelihood.cc 1052-1063 with 1490-1493: init *)
Definition init (s : state) (ws : list waveIn) (rank : nat) (mass : R) : option (state * bool) :=
  do s <- readWaveList s ws;
  if stWaves s 0 + stWaves s 1 =? 0 then Some (s, false) else
  do d <- buildParDataStruct (Shape rank (stWaves s)) (stName s) (stThr s) mass;
  Some (St (stWaves s) (stName s) (stThr s) (stAdded s) (stParams s) rank (pdPars d) (pdFixed d) (pdMap d) true (stNorm s) (stAcc s) (stFin s)
           (stNumb s) (stNormM s) (stAccM s) (stTot s) (stUse s) (stEvts s) (stDec s) (stOrder s) (stFiles s) (stPhase s), true).

(* ---- integral matrices ---- *)
Definition mat4 : Type := nat -> nat -> nat -> nat -> C.
(* C++ assignment to an element of a 4-dimensional multi_array *)
Definition upd4 (m : mat4) (e i f j : nat) (v : C) : mat4 :=
  fun a b c d => if (a =? e) && (b =? i) && (c =? f) && (d =? j) then v else m a b c d.
(* ampIntegralMatrix.h 121-123: element by wave names; None = abort *)
Definition elementByName (m : aim) (a b : str) : option C := do i <- waveIndex m a; do j <- waveIndex m b; element m i j.
(* pwaLikelihood.cc 1560-1574: reorderIntegralMatrix *)
Definition reorderStep (s : state) (m : aim) (t : nat * nat * nat) (o : mat4) : option mat4 :=
  let '(e, i, j) := t in
  do v <- elementByName m (stName s e i) (stName s e j);
  Some (upd4 o e i e j v).
(* the loops of pwaLikelihood.cc 1567-1573 *)
Definition loop3 (n : nat -> nat) : list (nat * nat * nat) :=
  flat_map (fun e => flat_map (fun i => map (fun j => (e, i, j)) (List.seq 0 (n e))) (List.seq 0 (n e))) [0; 1].
(* pwaLikelihood.cc 1560-1574 *)
Definition reorder (s : state) (m : aim) (o : mat4) : option mat4 := foldO (reorderStep s m) (loop3 (stWaves s)) o.

(* pwaLikelihood.cc 1068-1083 *)
Definition addNormIntegral (s : state) (m : aim) : option (state * bool) :=
  if negb (stInit s) then Some (s, false) else
  do o <- reorder s m (stNormM s);
  Some (St (stWaves s) (stName s) (stThr s) (stAdded s) (stParams s) (stRank s) (stPars s) (stFixed s) (stMap s) (stInit s) true (stAcc s) (stFin s)
           (nmbEvents m) o (stAccM s) (stTot s) (stUse s) (stEvts s) (stDec s) (stOrder s) (stFiles s) (stPhase s), true).

(* ampIntegralMatrix.h 121-123 *)
Definition setNmbEvents (m : aim) (n : Z) : aim := AIM (nmbWaves m) (waveNames m) n (integrals m).
(* pwaLikelihood.cc 1088-1107; the matrix of the caller is modified: second component *)
Definition addAccIntegral (s : state) (m : aim) (over : Z) : option (state * aim * bool) :=
  if negb (stNorm s) then Some (s, m, false) else
  let numb := if (over =? 0)%Z then stNumb s else over in
  let tot := odiv (IZR (nmbEvents m)) (IZR numb) in
  let m := setNmbEvents m numb in
  do o <- reorder s m (stAccM s);
  Some (St (stWaves s) (stName s) (stThr s) (stAdded s) (stParams s) (stRank s) (stPars s) (stFixed s) (stMap s) (stInit s) (stNorm s) true (stFin s)
           numb (stNormM s) o tot (stUse s) (stEvts s) (stDec s) (stOrder s) (stFiles s) (stPhase s), m, true).

(* ---- decay amplitudes ---- *)
(* an amplitudeMetadata object: base name, content hashes of its event files, entries of its
   tree; an entry holds the incoherent sub-amplitudes *)
(* amplitudeMetadata.h: what pwaLikelihood.cc 1110-1221 reads *)
Record ampMeta := AM { amName : str; amHashes : list str; amTree : list (list C) }.

(* std::map::operator[] on _eventFileProperties: inserts an empty entry *)
Definition touch (h : str) (fs : smap (nat * list nat)) : smap (nat * list nat) :=
  match m_find h fs with Some _ => fs | None => m_set h (0, []) fs end.
(* C++ std::map operator [], pwaLikelihood.cc 1149 *)
Definition props (h : str) (fs : smap (nat * list nat)) : nat * list nat := match m_find h fs with Some p => p | None => (0, []) end.

(* pwaLikelihood.cc 1145-1157: number of events, and the map afterwards *)
Definition countEvents (fly : bool) (fs : smap (nat * list nat)) (ms : list ampMeta) : smap (nat * list nat) * nat :=
  fold_left (fun '(fs, n) m =>
    if fly then fold_left (fun '(fs, n) h => let fs := touch h fs in (fs, n + length (snd (props h fs)))) (amHashes m) (fs, n)
    else (fs, n + length (amTree m))) ms (fs, 0).

(* pwaLikelihood.cc 1160-1182: None = "order of event files differs"; the order is recorded
   if it was empty. The check against _eventFileProperties never fires because countEvents
   has inserted every hash. *)
Fixpoint checkOrder (order hs : list str) : bool :=
  match hs, order with
  | [], _ => true
  | h :: hs', o :: os => if str_eqb o h then checkOrder os hs' else false
  | _ :: _, [] => false
  end.

(* pwaLikelihood.cc 1207-1209, 1216-1218: one sub-amplitude asserted *)
Definition entryAmp (e : list C) : option C := match e with [a] => Some a | _ => None end.
(* pwaLikelihood.cc 1207-1209, 1216-1218 *)
Definition readEntry (t : list (list C)) (i : nat) : option C := do e <- nth_error t i; entryAmp e.
(* glue: no counterpart in /repo, map of a possibly aborting function *)
Definition mapOpt {A B} (f : A -> option B) (l : list A) : option (list B) :=
  foldO (fun x acc => do y <- f x; Some (acc ++ [y])) l [].
(* pwaLikelihood.cc 1200-1212: events in the bin; skipEvents advances by the size of the event file *)
Definition readInBin (fs : smap (nat * list nat)) (m : ampMeta) : option (list C) :=
  do r <- foldO (fun h '(skip, acc) =>
            let p := props h fs in
            do a <- mapOpt (fun k => readEntry (amTree m) (skip + k)) (snd p);
            Some (skip + fst p, acc ++ a)) (amHashes m) (0, []);
  Some (snd r).
(* pwaLikelihood.cc 1190-1221 *)
Definition readAmps (fly : bool) (fs : smap (nat * list nat)) (ms : list ampMeta) : option (list C) :=
  foldO (fun m acc => do a <- (if fly then readInBin fs m else mapOpt entryAmp (amTree m)); Some (acc ++ a)) ms [].

(* C++ operator == of std::complex with 0 *)
Definition Czero (z : C) : bool := Ceqb z (RtoC 0).
(* C++ assignment to an element of a 3-dimensional multi_array *)
Definition upd3 (m : nat -> nat -> nat -> C) (e k w : nat) (v : C) : nat -> nat -> nat -> C :=
  fun a b c => if (a =? e) && (b =? k) && (c =? w) then v else m a b c.
(* pwaLikelihood.cc 1252-1266: the loop over the events: decay amplitudes written so far,
   fixPar, and whether the loop ran to its end; None = square root of a negative number *)
Fixpoint copyAmps (use : bool) (norm : C) (e w k : nat) (amps : list C) (dec : nat -> nat -> nat -> C) (fix_ : bool)
  : option ((nat -> nat -> nat -> C) * bool * bool) :=
  match amps with
  | [] => Some (dec, fix_, true)
  | a :: r =>
      if use && Czero norm && negb (Czero a) then Some (dec, fix_, false) else
      do a <- (if use && negb (Czero norm) then if Rlt_dec 0 (Re norm) then Some (a / RtoC (sqrt (Re norm)))%C else None else Some a);
      copyAmps use norm e w (k + 1) r (upd3 dec e k w a) (if Czero a then fix_ else false)
  end.

(* pwaLikelihood.cc 1268-1282: _nmbParsFixed is not touched *)
Definition fixWave (name : str) (ps : list fitParameter) : list fitParameter :=
  map (fun p => if str_eqb (fpWave p) name then FP (fpWave p) (fpRank p) (fpThr p) true (fpReal p) else p) ps.

(* pwaLikelihood.cc 1112-1288: addAmplitude; a null pointer in the vector is None *)
Definition addAmplitude (s : state) (ms : list (option ampMeta)) : option (state * bool) :=
  if negb (stAcc s) then Some (s, false) else
  match mapOpt (fun m => m) ms with
  | None | Some [] => Some (s, false)
  | Some ((m0 :: _) as ml) =>
    if negb (forallb (fun m => str_eqb (amName m) (amName m0)) ml) then Some (s, false) else
    match m_find (amName m0) (stParams s) with
    | None => Some (s, false)
    | Some (e, w) =>
      let fly := match stFiles s with [] => false | _ :: _ => true end in
      let '(fs, total) := countEvents fly (stFiles s) ml in
      let s1 := St (stWaves s) (stName s) (stThr s) (stAdded s) (stParams s) (stRank s) (stPars s) (stFixed s) (stMap s) (stInit s) (stNorm s) (stAcc s) (stFin s)
                   (stNumb s) (stNormM s) (stAccM s) (stTot s) (stUse s) (stEvts s) (stDec s) (stOrder s) fs (stPhase s) in
      if total =? 0 then Some (s1, false) else
      let hs := flat_map amHashes ml in
      let order := match stOrder s with [] => hs | o => o end in
      if negb (checkOrder order hs) then Some (s1, false) else
      do amps <- readAmps fly fs ml;
      let evts := if stEvts s =? 0 then total else stEvts s in
      let s2 := fun added pars dec =>
                St (stWaves s) (stName s) (stThr s) added (stParams s) (stRank s) pars (stFixed s) (stMap s) (stInit s) (stNorm s) (stAcc s) (stFin s)
                   (stNumb s) (stNormM s) (stAccM s) (stTot s) (stUse s) evts dec order fs (stPhase s) in
      if negb (total =? evts) then Some (s2 (stAdded s) (stPars s) (stDec s), false) else
      do r <- copyAmps (stUse s) (stNormM s e w e w) e w 0 amps (stDec s) (Czero (stAccM s e w e w));
      let '(dec, fix_, ok) := r in
      if negb ok then Some (s2 (stAdded s) (stPars s) dec, false) else
      Some (s2 (upd2 (stAdded s) e w true) (if fix_ then fixWave (amName m0) (stPars s) else stPars s) dec, true)
    end
  end.

(* ---- finishInit ---- *)
Definition osqrt (x : R) : double := if Rle_dec 0 x then Some (sqrt x) else None.
(* sqrt(norm[i][i].real()) with 0 replaced by 1 *)
Definition normOf (m : mat4) (e i : nat) : double :=
  do n <- osqrt (Re (m e i e i)); Some (if Req_EM_T n 0 then 1%R else n).
(* pwaLikelihood.cc 1319-1328: inner loop over jRefl, jWave *)
Definition scaleInner (e i : nat) (ni : R) (fj : nat * nat) (ma : mat4 * mat4) : option (mat4 * mat4) :=
  let '(m, a) := ma in let '(f, j) := fj in
  do nj <- normOf m f j;
  let m := if negb (e =? f) || negb (i =? j) then upd4 m e i f j (m e i f j / RtoC (ni * nj))%C else m in
  Some (m, upd4 a e i f j (a e i f j / RtoC (ni * nj))%C).
(* pwaLikelihood.cc 1315-1329 *)
Definition scaleOuter (n : nat -> nat) (ei : nat * nat) (ma : mat4 * mat4) : option (mat4 * mat4) :=
  let '(e, i) := ei in
  do ni <- normOf (fst ma) e i;
  foldO (scaleInner e i ni) (loop2 n) ma.
(* pwaLikelihood.cc 1331-1334 *)
Definition setDiag (ei : nat * nat) (m : mat4) : mat4 :=
  let '(e, i) := ei in if Czero (m e i e i) then m else upd4 m e i e i (RtoC 1).
(* pwaLikelihood.cc 1293-1388: finishInit *)
Definition finishInit (s : state) : option (state * bool) :=
  if negb (forallb (fun '(e, w) => stAdded s e w) (loop2 (stWaves s))) then Some (s, false) else
  do ph <- foldO (fun '(e, w) ph => do x <- osqrt (Re (stNormM s e w e w)); Some (upd2 ph e w x)) (loop2 (stWaves s)) (stPhase s);
  do ma <- (if stUse s then
              do ma <- foldO (scaleOuter (stWaves s)) (loop2 (stWaves s)) (stNormM s, stAccM s);
              Some (fold_left (fun m ei => setDiag ei m) (loop2 (stWaves s)) (fst ma), snd ma)
            else Some (stNormM s, stAccM s));
  Some (St (stWaves s) (stName s) (stThr s) (stAdded s) (stParams s) (stRank s) (stPars s) (stFixed s) (stMap s) (stInit s) (stNorm s) (stAcc s) true
           (stNumb s) (fst ma) (snd ma) (stTot s) (stUse s) (stEvts s) (stDec s) (stOrder s) (stFiles s) ph, true).

(* ---- on-the-fly binning ---- *)
(* an eventMetadata object: content hash and the branches of its tree *)
(* eventMetadata.h: what pwaLikelihood.cc 1393-1440 reads *)
Record evtMeta := EM { emHash : str; emTree : list (smap R) }.
(* a branch that does not exist leaves the variable at 0 *)
Definition branch (ev : smap R) (v : str) : R := match m_find v ev with Some x => x | None => 0%R end.
(* pwaLikelihood.cc 1421-1431 *)
Definition useEvent (bounds : smap (R * R)) (ev : smap R) : bool :=
  forallb (fun '(v, (lo, hi)) => if Rlt_dec (branch ev v) lo then false else if Rle_dec hi (branch ev v) then false else true) bounds.
(* pwaLikelihood.cc 1418-1435 *)
Definition eventIndices (bounds : smap (R * R)) (t : list (smap R)) : list nat :=
  fold_left (fun acc '(k, ev) => if useEvent bounds ev then acc ++ [k] else acc) (List.combine (List.seq 0 (length t)) t) [].
(* pwaLikelihood.cc 1393-1440; a null pointer is None; false stops the loop *)
Fixpoint binFiles (bounds : smap (R * R)) (ms : list (option evtMeta)) (fs : smap (nat * list nat)) : smap (nat * list nat) * bool :=
  match ms with
  | [] => (fs, true)
  | None :: _ => (fs, false)
  | Some m :: r => binFiles bounds r (m_set (emHash m) (length (emTree m), eventIndices bounds (emTree m)) fs)
  end.
(* pwaLikelihood.cc 1393-1440: new value of the member map *)
Definition withFiles (s : state) (fs : smap (nat * list nat)) : state :=
  St (stWaves s) (stName s) (stThr s) (stAdded s) (stParams s) (stRank s) (stPars s) (stFixed s) (stMap s) (stInit s) (stNorm s) (stAcc s) (stFin s)
     (stNumb s) (stNormM s) (stAccM s) (stTot s) (stUse s) (stEvts s) (stDec s) (stOrder s) fs (stPhase s).
(* pwaLikelihood.cc 1393-1440 *)
Definition setOnTheFlyBinning (s : state) (bounds : smap (R * R)) (ms : list (option evtMeta)) : state * bool :=
  let '(fs, ok) := binFiles bounds ms (stFiles s) in (withFiles s fs, ok).

(* pwaLikelihood.h 210: useNormalizedAmps *)
Definition useNormalizedAmps (s : state) (b : bool) : state :=
  St (stWaves s) (stName s) (stThr s) (stAdded s) (stParams s) (stRank s) (stPars s) (stFixed s) (stMap s) (stInit s) (stNorm s) (stAcc s) (stFin s)
     (stNumb s) (stNormM s) (stAccM s) (stTot s) b (stEvts s) (stDec s) (stOrder s) (stFiles s) (stPhase s).

(* ---- histories of set-up calls ---- *)
(* the public set-up calls of pwaLikelihood.h 210-231 *)
Inductive scall :=
  | SInit (ws : list waveIn) (rank : nat) (mass : R)
  | SNorm (m : aim)
  | SAcc (m : aim) (over : Z)
  | SAmp (ms : list (option ampMeta))
  | SFinish
  | SBin (bounds : smap (R * R)) (ms : list (option evtMeta))
  | SUse (b : bool).
(* the public set-up calls of pwaLikelihood.h 210-231 *)
Definition exec (s : state) (c : scall) : option (state * bool) :=
  match c with
  | SInit ws rank mass => init s ws rank mass
  | SNorm m => addNormIntegral s m
  | SAcc m over => do r <- addAccIntegral s m over; Some (fst (fst r), snd r)
  | SAmp ms => addAmplitude s ms
  | SFinish => finishInit s
  | SBin b ms => Some (setOnTheFlyBinning s b ms)
  | SUse b => Some (useNormalizedAmps s b, true)
  end.
(* the calls with their results, in order *)
(* histories of the set-up calls of pwaLikelihood.h 210-231 *)
Definition runs (h : list scall) : option (state * list (scall * bool)) :=
  foldO (fun c '(s, tr) => do r <- exec s c; Some (fst r, tr ++ [(c, snd r)])) h (fresh, []).

(* the members the evaluation reads (LikModel) *)
(* representation: from the members to those of LikModel, pwaLikelihood.h 285-325 *)
Definition toLik (s : state) (tot : R) (p : prior) (width : R) : lik :=
  Lik (stEvts s) (Shape (stRank s) (stWaves s)) (stDec s) (fun e i j => stAccM s e i e j) tot (stUse s) p width (stMap s) (stPars s).

(* ---- reduction to the free parameters ---- *)
(* a TMatrixT<double>: number of rows (= columns) and elements *)
(* representation of TMatrixT<double> (ROOT), square *)
Definition sqMat : Type := nat * (nat -> nat -> R).
(* pwaLikelihood.h 137: fitParameter::fixed *)
Definition isFixedPar (ps : list fitParameter) (i : nat) : bool := match nth_error ps i with Some p => fpFixed p | None => true end.
(* element access checks the range *)
(* TMatrixT::operator() of ROOT: the range is checked, 2 indices *)
Definition setSq (m : sqMat) (i j : nat) (x : R) : option sqMat :=
  if (i <? fst m) && (j <? fst m) then Some (fst m, fun a b => if (a =? i) && (b =? j) then x else snd m a b) else None.
(* TMatrixT::operator() of ROOT: the range is checked, 2 indices *)
Definition getSq (m : sqMat) (i j : nat) : option R := if (i <? fst m) && (j <? fst m) then Some (snd m i j) else None.
(* pwaLikelihood.cc 869-888, 933-952: body of the loops; the state holds the matrix and the skip counter *)
Definition reduceInner (ps : list fitParameter) (h : nat -> nat -> R) (i iSkip j : nat) (st : sqMat * nat) : option (sqMat * nat) :=
  let '(m, jSkip) := st in
  if isFixedPar ps j then Some (m, jSkip + 1)
  else do m <- setSq m (i - iSkip) (j - jSkip) (h i j); Some (m, jSkip).
(* pwaLikelihood.cc 869-888, 933-952 *)
Definition reduceOuter (ps : list fitParameter) (h : nat -> nat -> R) (i : nat) (st : sqMat * nat) : option (sqMat * nat) :=
  let '(m, iSkip) := st in
  if isFixedPar ps i then Some (m, iSkip + 1)
  else do r <- foldO (reduceInner ps h i iSkip) (List.seq 0 (length ps)) (m, 0); Some (fst r, iSkip).
(* pwaLikelihood.cc 869-888, 933-952 *)
Definition reduceHessian (ps : list fitParameter) (nFixed : nat) (h : nat -> nat -> R) : option sqMat :=
  do r <- foldO (reduceOuter ps h) (List.seq 0 (length ps)) ((length ps - nFixed, fun _ _ => 0%R), 0);
  Some (fst r).
(* pwaLikelihood.cc 959-978: the loops that blow the covariance matrix up *)
Definition expandInner (ps : list fitParameter) (red : sqMat) (i iSkip j : nat) (st : sqMat * nat) : option (sqMat * nat) :=
  let '(m, jSkip) := st in
  if isFixedPar ps j then Some (m, jSkip + 1)
  else do x <- getSq red (i - iSkip) (j - jSkip); do m <- setSq m i j x; Some (m, jSkip).
(* pwaLikelihood.cc 959-978 *)
Definition expandOuter (ps : list fitParameter) (red : sqMat) (i : nat) (st : sqMat * nat) : option (sqMat * nat) :=
  let '(m, iSkip) := st in
  if isFixedPar ps i then Some (m, iSkip + 1)
  else do r <- foldO (expandInner ps red i iSkip) (List.seq 0 (length ps)) (m, 0); Some (fst r, iSkip).
(* pwaLikelihood.cc 959-978 *)
Definition expandCov (ps : list fitParameter) (red : sqMat) : option sqMat :=
  do r <- foldO (expandOuter ps red) (List.seq 0 (length ps)) ((length ps, fun _ _ => 0%R), 0);
  Some (fst r).
(* pwaLikelihood.cc 926-981: CovarianceMatrix; [invert] is ROOT's matrix inversion *)
Definition covarianceMatrix (invert : sqMat -> option sqMat) (ps : list fitParameter) (nFixed : nat) (h : nat -> nat -> R) : option sqMat :=
  do red <- reduceHessian ps nFixed h;
  do inv <- invert red;
  expandCov ps inv.
(* pwaLikelihood.cc 897-907: an eigenvector of the reduced matrix, expanded *)
Definition expandVec (ps : list fitParameter) (n : nat) (v : nat -> R) : option (list R) :=
  do r <- foldO (fun j '(out, jSkip) =>
                   if isFixedPar ps j then Some (out ++ [0%R], jSkip + 1)
                   else if j - jSkip <? n then Some (out ++ [v (j - jSkip)], jSkip) else None)
                (List.seq 0 (length ps)) ([], 0);
  Some (fst r).

(* pwaLikelihood.cc 1577-1618: getIntegralMatrices: normalisation, acceptance and phase-space
   integrals in one list of rows each; None = not a number in the total acceptance *)
Definition getIntegralMatrices (s : state) (withFlat : bool) : option (list (list C) * list (list C) * list R) :=
  let l := loop2 (stWaves s) in
  let block := fun m : mat4 => map (fun '(e, i) => map (fun '(f, j) => m e i f j) l) l in
  let ph := map (fun '(e, i) => stPhase s e i) l in
  if withFlat then
    do tot <- stTot s;
    let pad := fun (b : list (list C)) (x : R) => map (fun r => r ++ [RtoC 0]) b ++ [repeat (RtoC 0) (length l) ++ [RtoC x]] in
    Some (pad (block (stNormM s)) 1%R, pad (block (stAccM s)) tot, ph ++ [1%R])
  else Some (block (stNormM s), block (stAccM s), ph).
