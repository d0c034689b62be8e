(* Model of resonanceFit/cache.cc, of the parameter import and the cached evaluation in
   resonanceFit/components.{h,cc}, fsmd.cc and model.cc, and of the thread_local
   objects of resonanceFit/function.cc.

   Simplifications: double is R and std::complex<double> is C (exact, no NaN);
   std::numeric_limits<size_t>::max(), the "all bins" / "no such wave" / "no mass bin"
   marker, is [None] of [option nat]; boost::multi_array is a total function with
   its extents beside it, writing outside the extents is undefined behaviour ([None]), reading
   outside is not modelled; the parameter arrays ([params]) are total functions, their extents
   are not modelled; a component is an arbitrary function of its parameters, the bin
   and the mass (the virtual method val); likewise the formula of the final-state mass-dependence. *)
From Coq Require Import String Ascii List ZArith Bool Reals Lia.
From Coquelicot Require Import Complex.
From Verif Require Import PathModel StrModel CGBoxModel ParticleModel AmpIntModel.
Import ListNotations.
Open Scope list_scope. Open Scope nat_scope.

(* ---------------- cache.{h,cc} ---------------- *)
(* cache.h 62-64, cache.cc 32-41 *)
Record rcache := RC { cCoup : nat -> nat -> nat -> nat -> C; cComp : nat -> nat -> nat -> C; cProd : nat -> nat -> nat -> C;
  xWaves : nat; xComps : nat; xChans : nat; xBins : nat; xMass : nat }.
(* cache.cc 32-41 *)
Definition newCache (maxWaves maxComponents maxChannels maxBins maxMassBins : nat) : rcache :=
  RC (fun _ _ _ _ => RtoC 0) (fun _ _ _ => RtoC 0) (fun _ _ _ => RtoC 0) maxWaves maxComponents maxChannels maxBins maxMassBins.

(* C++ assignment to an element of a multi_array *)
Definition upd3 {A} (f : nat -> nat -> nat -> A) (i j k : nat) (v : A) : nat -> nat -> nat -> A :=
  fun i' j' k' => if (i' =? i) && (j' =? j) && (k' =? k) then v else f i' j' k'.
(* C++ assignment to an element of a multi_array *)
Definition upd4 {A} (f : nat -> nat -> nat -> nat -> A) (i j k l : nat) (v : A) : nat -> nat -> nat -> nat -> A :=
  fun i' j' k' l' => if (i' =? i) && (j' =? j) && (k' =? k) && (l' =? l) then v else f i' j' k' l'.

(* assignment to one element of a multi_array *)
(* cache.cc 44-70 / multi_array element assignment: 4 indices *)
Definition wrCoup (v : C) (i j k l : nat) (c : rcache) : option rcache :=
  if (i <? xComps c) && (j <? xChans c) && (k <? xBins c) && (l <? xMass c) then
    Some (RC (upd4 (cCoup c) i j k l v) (cComp c) (cProd c) (xWaves c) (xComps c) (xChans c) (xBins c) (xMass c))
  else None.
(* cache.cc 71-143 / multi_array element assignment *)
Definition wrComp (v : C) (i k l : nat) (c : rcache) : option rcache :=
  if (i <? xComps c) && (k <? xBins c) && (l <? xMass c) then
    Some (RC (cCoup c) (upd3 (cComp c) i k l v) (cProd c) (xWaves c) (xComps c) (xChans c) (xBins c) (xMass c))
  else None.
(* cache.cc 71-143 / multi_array element assignment *)
Definition wrProd (v : C) (w k l : nat) (c : rcache) : option rcache :=
  if (w <? xWaves c) && (k <? xBins c) && (l <? xMass c) then
    Some (RC (cCoup c) (cComp c) (upd3 (cProd c) w k l v) (xWaves c) (xComps c) (xChans c) (xBins c) (xMass c))
  else None.

(* for (size_t idx = 0; idx < n; ++idx) *)
Definition upTo (n : nat) : list nat := List.seq 0 n.

(* cache.cc 44-68 *)
Definition setCoupling (i ch : nat) (b m : option nat) (v : C) (c : rcache) : option rcache :=
  match b, m with
  | None, None => foldO (fun k => foldO (fun l => wrCoup v i ch k l) (upTo (xMass c))) (upTo (xBins c)) c
  | None, Some l => foldO (fun k => wrCoup v i ch k l) (upTo (xBins c)) c
  | Some k, None => foldO (fun l => wrCoup v i ch k l) (upTo (xMass c)) c
  | Some k, Some l => wrCoup v i ch k l c
  end.
(* cache.cc 71-94 *)
Definition setComponent (i : nat) (b m : option nat) (v : C) (c : rcache) : option rcache :=
  match b, m with
  | None, None => foldO (fun k => foldO (fun l => wrComp v i k l) (upTo (xMass c))) (upTo (xBins c)) c
  | None, Some l => foldO (fun k => wrComp v i k l) (upTo (xBins c)) c
  | Some k, None => foldO (fun l => wrComp v i k l) (upTo (xMass c)) c
  | Some k, Some l => wrComp v i k l c
  end.
(* cache.cc 97-143 *)
Definition setProdAmp (w b m : option nat) (v : C) (c : rcache) : option rcache :=
  match w, b, m with
  | None, None, None => foldO (fun i => foldO (fun k => foldO (fun l => wrProd v i k l) (upTo (xMass c))) (upTo (xBins c))) (upTo (xWaves c)) c
  | None, None, Some l => foldO (fun i => foldO (fun k => wrProd v i k l) (upTo (xBins c))) (upTo (xWaves c)) c
  | None, Some k, None => foldO (fun i => foldO (fun l => wrProd v i k l) (upTo (xMass c))) (upTo (xWaves c)) c
  | Some i, None, None => foldO (fun k => foldO (fun l => wrProd v i k l) (upTo (xMass c))) (upTo (xBins c)) c
  | None, Some k, Some l => foldO (fun i => wrProd v i k l) (upTo (xWaves c)) c
  | Some i, None, Some l => foldO (fun k => wrProd v i k l) (upTo (xBins c)) c
  | Some i, Some k, None => foldO (fun l => wrProd v i k l) (upTo (xMass c)) c
  | Some i, Some k, Some l => wrProd v i k l c
  end.

(* ---------------- parameters.{h,cc} ---------------- *)
(* parameters.h 84-86, 49-59; all elements start at 0 *)
Record params := PR { pBran : nat -> nat -> C; pCoup : nat -> nat -> nat -> C; pPar : nat -> nat -> R }.
(* parameters.h 84-86 *)
Definition newParams : params := PR (fun _ _ => RtoC 0) (fun _ _ _ => RtoC 0) (fun _ _ => 0%R).
(* parameters.h 49-59 *)
Definition setPBran (i j : nat) (v : C) (p : params) : params :=
  PR (fun i' j' => if (i' =? i) && (j' =? j) then v else pBran p i' j') (pCoup p) (pPar p).
(* parameters.h 49-59 *)
Definition setPCoup (i j k : nat) (v : C) (p : params) : params := PR (pBran p) (upd3 (pCoup p) i j k v) (pPar p).
(* parameters.h 49-59 *)
Definition setPPar (i j : nat) (v : R) (p : params) : params :=
  PR (pBran p) (pCoup p) (fun i' j' => if (i' =? i) && (j' =? j) then v else pPar p i' j').

(* ---------------- components.{h,cc} ---------------- *)
(* components.h 56-85: wave name, index of the wave in each bin, phase-space integrals at the
   mass-bin centres and interpolated *)
Record channel := Chan { chName : str; chWave : list (option nat); chPS : nat -> nat -> R; chPSm : nat -> R -> R }.
(* components.h 56-85 *)
Definition waveIdx (ch : channel) (b : nat) : option nat := match nth_error (chWave ch) b with Some x => x | None => None end.
(* components.cc 171-179: bins that contain the wave *)
Definition getBins (ch : channel) : list nat :=
  filter (fun b => match waveIdx ch b with Some _ => true | None => false end) (upTo (length (chWave ch))).

(* components.h 149-174 *)
Record component := Comp { oId : nat; oChans : list channel; oChCoup : list nat; oChBran : list nat; oFromCoup : list nat;
  oFixed : list bool; oNPar : nat; oVal : (nat -> R) -> nat -> R -> C; oEqual : list (list nat) }.

(* components.cc 43-54 *)
Definition singleBins (n : nat) : list (list nat) := map (fun b => [b]) (upTo n).

(* components.cc 59-96: bins with identical mass binning; [nm] = numbers of mass bins, [mc] = their
   centres. The assertion in line 88 (no bin is in two groups) is not modelled; it always holds. *)
Definition sameBinning (nm : list nat) (mc : nat -> nat -> R) (i j : nat) : bool :=
  (nth i nm 0 =? nth j nm 0) && forallb (fun m => decR (mc i m) (mc j m)) (upTo (nth i nm 0)).
(* components.cc 59-96 *)
Definition equalStep (nm : list nat) (mc : nat -> nat -> R) (i : nat) (eq : list (list nat)) : list (list nat) :=
  match nth i eq [] with
  | _ :: _ => eq
  | [] =>
      let bins := i :: filter (fun j => sameBinning nm mc i j) (List.seq (i + 1) (length nm - (i + 1))) in
      map (fun j => if existsb (Nat.eqb j) bins then bins else nth j eq []) (upTo (length nm))
  end.
(* components.cc 59-96 *)
Definition massBinning (nm : list nat) (mc : nat -> nat -> R) : list (list nat) :=
  fold_left (fun eq i => equalStep nm mc i eq) (upTo (length nm)) (map (fun _ => []) (upTo (length nm))).

(* components.cc 344-353: one changed coupling *)
Definition invalCoupling (o : component) (k b : nat) (c : rcache) : option rcache :=
  foldO (fun ch c =>
    if nth ch (oChCoup o) 0 =? k then
      do c1 <- setCoupling (oId o) ch (Some b) None (RtoC 0) c;
      match nth_error (oChans o) ch with
      | Some chan => setProdAmp (waveIdx chan b) (Some b) None (RtoC 0) c1
      | None => None
      end
    else Some c) (upTo (length (oChans o))) c.

(* components.cc 327-357; par is read from position [off]; result: (counter, parameters, cache) *)
Definition importCouplings (par : nat -> R) (off : nat) (o : component) (st : params * rcache) : option (nat * (params * rcache)) :=
  foldO (fun k (a : nat * (params * rcache)) =>
    match nth_error (oFromCoup o) k with
    | None => None
    | Some master =>
      match nth_error (oChans o) master with
      | None => None
      | Some chan =>
        foldO (fun b (a : nat * (params * rcache)) =>
          let '(n, (p, c)) := a in
          let v : C := (par (off + n), par (off + n + 1)) in
          if Ceqb (pCoup p (oId o) k b) v then Some (n + 2, (p, c))
          else do c' <- invalCoupling o k b c; Some (n + 2, (setPCoup (oId o) k b v p, c'))) (getBins chan) a
      end
    end) (upTo (length (oFromCoup o))) (0, st).

(* components.cc 406-411 and 378-383: production amplitudes of a channel in all its bins *)
Definition invalProds (chan : channel) (c : rcache) : option rcache :=
  foldO (fun b c => setProdAmp (waveIdx chan b) (Some b) None (RtoC 0) c) (getBins chan) c.

(* components.cc 376-385 *)
Definition invalBranching (o : component) (k : nat) (c : rcache) : option rcache :=
  foldO (fun ch c =>
    if nth ch (oChBran o) 0 =? k then
      do c1 <- setCoupling (oId o) ch None None (RtoC 0) c;
      match nth_error (oChans o) ch with Some chan => invalProds chan c1 | None => None end
    else Some c) (upTo (length (oChans o))) c.

(* components.cc 360-389 *)
Definition importBranchings (par : nat -> R) (off : nat) (o : component) (st : params * rcache) : option (nat * (params * rcache)) :=
  foldO (fun k (a : nat * (params * rcache)) =>
    let '(n, (p, c)) := a in
    let fixed := nth k (oFixed o) true in
    let v : C := if fixed then RtoC 1 else (par (off + n), par (off + n + 1)) in
    let n' := if fixed then n else n + 2 in
    if Ceqb (pBran p (oId o) k) v then Some (n', (p, c))
    else do c' <- invalBranching o k c; Some (n', (setPBran (oId o) k v p, c'))) (upTo (length (oFixed o))) (0, st).

(* components.cc 397-403 and fsmd.cc 221-229: copy [n] parameters starting at index [i0], and whether one changed *)
Definition copyPars (par : nat -> R) (off id i0 n : nat) (p : params) : params * bool :=
  fold_left (fun (a : params * bool) i =>
    if decR (pPar (fst a) id (i0 + i)) (par (off + (i0 + i))) then a
    else (setPPar id (i0 + i) (par (off + (i0 + i))) (fst a), true)) (upTo n) (p, false).

(* components.cc 392-416 *)
Definition importParameters (par : nat -> R) (off : nat) (o : component) (st : params * rcache) : option (nat * (params * rcache)) :=
  let '(p, c) := st in
  let '(p', changed) := copyPars par off (oId o) 0 (oNPar o) p in
  if changed then
    do c1 <- setComponent (oId o) None None (RtoC 0) c;
    do c2 <- foldO invalProds (oChans o) c1;
    Some (oNPar o, (p', c2))
  else Some (oNPar o, (p', c)).

(* components.cc 434-443 and fsmd.cc 269-277: store a value for all bins it is valid in *)
Definition storeEqual (id : nat) (eq : list (list nat)) (b m : nat) (v : C) (c : rcache) : option rcache :=
  let bins := nth b eq [] in
  if length bins =? length eq then setComponent id None (Some m) v c
  else foldO (fun b' => setComponent id (Some b') (Some m) v) bins c.

(* components.cc 419-447; [m] = index of the mass bin, if the mass is its centre *)
Definition compVal (o : component) (p : params) (b : nat) (mass : R) (m : option nat) (c : rcache) : option (C * rcache) :=
  let direct := oVal o (pPar p (oId o)) b mass in
  match m with
  | None => Some (direct, c)
  | Some mi =>
      if negb (Ceqb (cComp c (oId o) b mi) (RtoC 0)) then Some (cComp c (oId o) b mi, c)
      else do c' <- storeEqual (oId o) (oEqual o) b mi direct c; Some (direct, c')
  end.

(* components.h 482-525 *)
Definition phaseSpaceAt (chan : channel) (b : nat) (mass : R) (m : option nat) : R :=
  match m with Some mi => chPS chan b mi | None => chPSm chan b mass end.
(* components.h 482-525 *)
Definition couplingPS (o : component) (p : params) (ch b : nat) (mass : R) (m : option nat) (c : rcache) : option (C * rcache) :=
  match nth_error (oChans o) ch, nth_error (oChCoup o) ch, nth_error (oChBran o) ch with
  | Some chan, Some k, Some r =>
      let direct := (pCoup p (oId o) k b * pBran p (oId o) r * RtoC (phaseSpaceAt chan b mass m))%C in
      match m with
      | None => Some (direct, c)
      | Some mi =>
          if negb (Ceqb (cCoup c (oId o) ch b mi) (RtoC 0)) then Some (cCoup c (oId o) ch b mi, c)
          else do c' <- setCoupling (oId o) ch (Some b) (Some mi) direct c; Some (direct, c')
      end
  | _, _, _ => None
  end.

(* ---------------- fsmd.cc ---------------- *)
(* fsmd.h; a missing function is [None] *)
(* fsmd.h: the data members, as set by fsmd.cc 43-208 *)
Record fsmd := FS { fId : nat; fSame : bool; fFun : list (option ((nat -> R) -> R -> C)); fNPar : list nat; fIndex : list nat; fEqual : list (list nat) }.
(* fsmd.cc 43-133 (one function for all bins) and 136-208 (one function per bin) *)
Definition fsmdSame (id : nat) (nm : list nat) (mc : nat -> nat -> R) (f : (nat -> R) -> R -> C) (npar : nat) : fsmd :=
  FS id true (map (fun _ => Some f) (upTo (length nm))) (map (fun _ => npar) (upTo (length nm))) (map (fun _ => 0) (upTo (length nm))) (massBinning nm mc).
(* fsmd.cc 136-208 *)
Definition fsmdPerBin (id : nat) (fs : list ((nat -> R) -> R -> C)) (npar : list nat) : fsmd :=
  FS id false (map Some fs) npar (map (fun b => fold_left Nat.add (firstn b npar) 0) (upTo (length npar))) (singleBins (length fs)).

(* fsmd.cc 213-247 *)
Definition importFsmd (par : nat -> R) (off : nat) (f : fsmd) (st : params * rcache) : option (nat * (params * rcache)) :=
  foldO (fun b (a : nat * (params * rcache)) =>
    let '(n, (p, c)) := a in
    let np := nth b (fNPar f) 0 in
    let '(p', changed) := copyPars par off (fId f) (nth b (fIndex f) 0) np p in
    if changed then
      if fSame f || (length (nth b (fEqual f) []) =? length (fEqual f)) then
        do c1 <- setComponent (fId f) None None (RtoC 0) c;
        do c2 <- setProdAmp None None None (RtoC 0) c1;
        Some (n + np, (p', c2))
      else
        do c' <- foldO (fun b' c =>
                   do c1 <- setComponent (fId f) (Some b') None (RtoC 0) c;
                   setProdAmp None (Some b') None (RtoC 0) c1) (nth b (fEqual f) []) c;
        Some (n + np, (p', c'))
    else Some (n + np, (p', c))) (upTo (if fSame f then 1 else length (fFun f))) (0, st).

(* fsmd.cc 250-281 *)
Definition fsmdVal (f : fsmd) (p : params) (b : nat) (mass : R) (m : option nat) (c : rcache) : option (C * rcache) :=
  match nth b (fFun f) None with
  | None => Some (RtoC 1, c)
  | Some fn =>
      let direct := fn (fun i => pPar p (fId f) (nth b (fIndex f) 0 + i)) mass in
      match m with
      | None => Some (direct, c)
      | Some mi =>
          if negb (Ceqb (cComp c (fId f) b mi) (RtoC 0)) then Some (cComp c (fId f) b mi, c)
          else do c' <- storeEqual (fId f) (fEqual f) b mi direct c; Some (direct, c')
      end
  end.

(* ---------------- model.cc ---------------- *)
(* model.h; wave names of each bin *)
(* model.h: the data members, as set by model.cc 43-120 *)
Record model := MD { mComps : list component; mFsmd : option fsmd; mWaves : list (list str) }.

(* resonanceFitReadConfig.cc 658-668: index of a wave in every bin (the last one with this name) *)
Definition lastIndex (n : str) (l : list str) : option nat :=
  fold_left (fun a i => if str_eqb (nth i l []) n then Some i else a) (upTo (length l)) None.
(* resonanceFitReadConfig.cc 658-668 *)
Definition readIndices (waves : list (list str)) (n : str) : list (option nat) := map (lastIndex n) waves.

(* model.cc 186-200: _waveComponentChannel *)
Definition waveComponentChannel (md : model) (b w : nat) : list (nat * nat) :=
  let n := nth w (nth b (mWaves md) []) [] in
  flat_map (fun i => match nth_error (mComps md) i with
    | None => []
    | Some o => flat_map (fun ch => match nth_error (oChans o) ch with
        | Some chan => if str_eqb (chName chan) n then [(i, ch)] else []
        | None => []
        end) (upTo (length (oChans o)))
    end) (upTo (length (mComps md))).

(* one of the three import loops of model.cc 294-306: [a] = (parcount, state) *)
Definition importLoop (imp : nat -> component -> params * rcache -> option (nat * (params * rcache))) (md : model)
  (a : nat * (params * rcache)) : option (nat * (params * rcache)) :=
  foldO (fun o (a : nat * (params * rcache)) => do r <- imp (fst a) o (snd a); Some (fst a + fst r, snd r)) (mComps md) a.
(* model.cc 286-314 *)
Definition importAll (md : model) (par : nat -> R) (st : params * rcache) : option (params * rcache) :=
  do a1 <- importLoop (importCouplings par) md (0, st);
  do a2 <- importLoop (importBranchings par) md a1;
  do a3 <- importLoop (importParameters par) md a2;
  match mFsmd md with
  | None => Some (snd a3)
  | Some f => do a4 <- importFsmd par (fst a3) f (snd a3); Some (snd a4)
  end.

(* model.cc 317-354 *)
Definition sumStep (md : model) (p : params) (b : nat) (mass : R) (m : option nat) (x : nat * nat) (a : C * rcache) : option (C * rcache) :=
  match nth_error (mComps md) (fst x) with
  | None => None
  | Some o =>
      do v <- compVal o p b mass m (snd a);
      do g <- couplingPS o p (snd x) b mass m (snd v);
      Some ((fst a + fst v * fst g)%C, snd g)
  end.
(* model.cc 317-354 *)
Definition productionAmplitude (md : model) (p : params) (w b : nat) (mass : R) (m : option nat) (c : rcache) : option (C * rcache) :=
  let calc :=
    do s <- foldO (sumStep md p b mass m) (waveComponentChannel md b w) (RtoC 0, c);
    do t <- (match mFsmd md with
             | None => Some s
             | Some f => do v <- fsmdVal f p b mass m (snd s); Some ((fst s * fst v)%C, snd v)
             end);
    Some t in
  match m with
  | None => calc
  | Some mi =>
      if negb (Ceqb (cProd c w b mi) (RtoC 0)) then Some (cProd c w b mi, c)
      else do t <- calc; do c' <- setProdAmp (Some w) (Some b) (Some mi) (fst t) (snd t); Some (fst t, c')
  end.

(* ---------------- function.cc ---------------- *)
(* the calls a fit makes: import of a parameter vector (function.cc 148-164) and evaluation of production
   amplitudes at mass-bin centres (function.cc 264-282, 319-323) or at other masses (resonanceFitPlot.cc 200) *)
Inductive rcall := Import (par : nat -> R) | Eval (w b m : nat) | EvalAt (w b : nat) (mass : R).
(* function.cc 148-164, model.cc 317-354 *)
Definition rstep (md : model) (mc : nat -> nat -> R) (call : rcall) (st : params * rcache) : option (list C * (params * rcache)) :=
  match call with
  | Import par => do s <- importAll md par st; Some ([], s)
  | Eval w b m => do r <- productionAmplitude md (fst st) w b (mc b m) (Some m) (snd st); Some ([fst r], (fst st, snd r))
  | EvalAt w b mass => do r <- productionAmplitude md (fst st) w b mass None (snd st); Some ([fst r], (fst st, snd r))
  end.
(* results of a sequence of calls *)
(* histories of the calls of rstep (function.cc 148-164) *)
Fixpoint rrun (md : model) (mc : nat -> nat -> R) (h : list rcall) (st : params * rcache) : option (list C * (params * rcache)) :=
  match h with
  | [] => Some ([], st)
  | call :: h' => do r <- rstep md mc call st; do q <- rrun md mc h' (snd r); Some (fst r ++ fst q, snd q)
  end.

(* function.cc 148-164: the parameters and the cache are thread_local variables of the method, i.e. created
   by the first call in a thread, with the extents of that call's object, and used by all objects afterwards *)
Record rfunction := RF { rfModel : model; rfMc : nat -> nat -> R; rfWaves : nat; rfChans : nat; rfBins : nat; rfMass : nat }.
(* function.cc 148-164 *)
Definition threadLocal := option (params * rcache).
(* function.cc 148-164 *)
Definition rfInit (f : rfunction) (tl : threadLocal) : params * rcache :=
  match tl with
  | Some st => st
  | None => (newParams, newCache (rfWaves f) (length (mComps (rfModel f)) + 1) (rfChans f) (rfBins f) (rfMass f))
  end.
(* one call chiSquare(par): the production amplitudes [qs] it needs, and the new thread_local state *)
(* function.cc 148-164 *)
Definition chiSquareAmps (f : rfunction) (par : nat -> R) (qs : list (nat * nat * nat)) (tl : threadLocal) : option (list C * threadLocal) :=
  do r <- rrun (rfModel f) (rfMc f) (Import par :: map (fun q => Eval (fst (fst q)) (snd (fst q)) (snd q)) qs) (rfInit f tl);
  Some (fst r, Some (snd r)).
