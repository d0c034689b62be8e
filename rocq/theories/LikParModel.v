(* Model of the parameter bookkeeping of partialWaveFit/pwaLikelihood.{h,cc}: wave numbers
   per reflectivity and rank -> fit parameters, production amplitudes and back.

   Simplifications: double is R; boost::multi_arrays indexed [rank][reflectivity][wave] are
   functions of the three indices (the loops only visit indices inside the extents; where
   the code may leave them the model checks it, see [anchorInside]); vectors and C arrays
   are lists with checked access (None = access outside). unsigned int does not overflow. *)
From Coq Require Import String Ascii List ZArith Reals Bool.
From Coquelicot Require Import Complex.
From Verif Require Import ArrayModel PathModel StrModel DecModel CGBoxModel FitResultModel.
Import ListNotations.
Open Scope list_scope. Open Scope nat_scope.

(* pwaLikelihood.h 118-149: fitParameter; the default constructor marks it as fixed *)
Record fitParameter := FP { fpWave : str; fpRank : nat; fpThr : R; fpFixed : bool; fpReal : bool }.
(* pwaLikelihood.h 118-119: default constructor *)
Definition fpDefault : fitParameter := FP [] 0 0%R true true.

(* pwaLikelihood.cc 107-122: fitParameter::parName *)
Definition parName (p : fitParameter) : str :=
  lit "V"%string ++ (if str_eqb (fpWave p) (lit "flat"%string) then [] else showNN (Z.of_nat (fpRank p)))
  ++ lit "_"%string ++ fpWave p ++ (if fpReal p then lit "_RE"%string else lit "_IM"%string).

(* index of a production amplitude: rank, reflectivity (0 negative, 1 positive), wave *)
Definition idx : Type := nat * nat * nat.
(* representation: component of an index triple of _prodAmpToFuncParMap *)
Definition rk (t : idx) : nat := fst (fst t).
(* representation: component of an index triple of _prodAmpToFuncParMap *)
Definition rf (t : idx) : nat := snd (fst t).
(* representation: component of an index triple of _prodAmpToFuncParMap *)
Definition wv (t : idx) : nat := snd t.
(* representation: equality of index triples *)
Definition idx_eqb (a b : idx) : bool := (rk a =? rk b) && (rf a =? rf b) && (wv a =? wv b).

(* _rank and _nmbWavesRefl[2] *)
Record shape := Shape { shRank : nat; shWaves : nat -> nat }.

(* the loop nest over rank, reflectivity and wave used throughout the class, e.g.
   pwaLikelihood.cc 1524-1526, 1692-1694, 1722-1724 *)
Definition loopWaves (sh : shape) : list idx :=
  flat_map (fun r => flat_map (fun e => map (fun w => (r, e, w)) (List.seq 0 (shWaves sh e))) [0; 1]) (List.seq 0 (shRank sh)).

(* pwaLikelihood.cc 1497-1516: dimension of the function (unsigned arithmetic converted to
   int, hence Z) *)
Definition nmbPars (sh : shape) : Z :=
  fold_left (fun n r =>
      let pos := (Z.of_nat (shWaves sh 1) - Z.of_nat r)%Z in
      let posC := if (pos - 1 <? 0)%Z then 0%Z else (pos - 1)%Z in
      let neg := (Z.of_nat (shWaves sh 0) - Z.of_nat r)%Z in
      let negC := if (neg - 1 <? 0)%Z then 0%Z else (neg - 1)%Z in
      let n := (n + 2 * (posC + negC))%Z in
      let n := if (0 <? pos)%Z then (n + 1)%Z else n in
      if (0 <? neg)%Z then (n + 1)%Z else n)
    (List.seq 0 (shRank sh)) 0%Z
  + 1.

(* _prodAmpToFuncParMap *)
(* pwaLikelihood.h: _prodAmpToFuncParMap, representation as a function *)
Definition parMap : Type := idx -> Z * Z.
(* C++ assignment to an element of a multi_array *)
Definition upd {A} (m : idx -> A) (t : idx) (v : A) : idx -> A := fun u => if idx_eqb u t then v else m u.

(* pwaLikelihood.cc 1486-1556: the variables of buildParDataStruct *)
Record parData := PD { pdIndex : nat; pdPars : list fitParameter; pdFixed : nat; pdMap : parMap }.

(* pwaLikelihood.cc 1527-1552: body of the loop; [names] and [thr] are _waveNames and
   _waveThresholds *)
Definition parStep (names : nat -> nat -> str) (thr : nat -> nat -> R) (massBinCenter : R) (t : idx) (s : parData) : option parData :=
  let r := rk t in let e := rf t in let w := wv t in
  let fixed := (if Req_EM_T (thr e w) 0 then false else if Rle_dec massBinCenter (thr e w) then true else false) in
  if w <? r then Some (PD (pdIndex s) (pdPars s) (pdFixed s) (upd (pdMap s) t (-1, -1)%Z))
  else if w =? r then
    do pars <- wr (pdPars s) (pdIndex s) (FP (names e w) r (thr e w) fixed true);
    Some (PD (pdIndex s + 1) pars (if fixed then pdFixed s + 1 else pdFixed s) (upd (pdMap s) t (Z.of_nat (pdIndex s), -1)%Z))
  else
    do pars <- wr (pdPars s) (pdIndex s) (FP (names e w) r (thr e w) fixed true);
    do pars <- wr pars (pdIndex s + 1) (FP (names e w) r (thr e w) fixed false);
    Some (PD (pdIndex s + 2) pars (if fixed then pdFixed s + 2 else pdFixed s)
             (upd (pdMap s) t (Z.of_nat (pdIndex s), Z.of_nat (pdIndex s + 1))%Z)).

(* pwaLikelihood.cc 1486-1556: buildParDataStruct after the check for wave info; the map is
   value-initialised by the multi_array *)
Definition buildParDataStruct (sh : shape) (names : nat -> nat -> str) (thr : nat -> nat -> R) (massBinCenter : R) : option parData :=
  do s <- foldO (parStep names thr massBinCenter) (loopWaves sh)
             (PD 0 (repeat fpDefault (Z.to_nat (nmbPars sh))) 0 (fun _ => (0, 0)%Z));
  do pars <- wr (pdPars s) (pdIndex s) (FP (lit "flat"%string) 0 0%R false true);
  Some (PD (pdIndex s) pars (pdFixed s) (pdMap s)).

(* pwaLikelihood.cc 1680-1712: copyFromParArray; all production amplitudes and the flat one *)
Definition fromStep (inPar : list R) (t : idx) (s : (idx -> C) * nat) : option ((idx -> C) * nat) :=
  let '(out, i) := s in
  if wv t <? rk t then Some (upd out t (0, 0)%R, i)
  else if wv t =? rk t then do re <- rd inPar i; Some (upd out t (re, 0%R), i + 1)
  else do re <- rd inPar i; do im <- rd inPar (i + 1); Some (upd out t (re, im), i + 2).
(* pwaLikelihood.cc 1680-1712 *)
Definition copyFromParArray (sh : shape) (inPar : list R) : option ((idx -> C) * R) :=
  do s <- foldO (fromStep inPar) (loopWaves sh) (fun _ => RtoC 0, 0);
  do flat <- rd inPar (snd s);
  Some (fst s, flat).

(* pwaLikelihood.cc 1715-1732: copyToParArray into an existing array; generic in the type of
   the numbers so that undefined floating-point values can be represented *)
Section To.
  Context {A : Type} (re im : idx -> A).
  (* pwaLikelihood.cc 1715-1732 *)
  Definition toStep (m : parMap) (t : idx) (out : list A) : option (list A) :=
    let (r, i) := m t in
    do out <- (if (0 <=? r)%Z then wr out (Z.to_nat r) (re t) else Some out);
    if (0 <=? i)%Z then wr out (Z.to_nat i) (im t) else Some out.
  (* pwaLikelihood.cc 1715-1732 *)
  Definition copyToParArray (sh : shape) (m : parMap) (flat : A) (out : list A) : option (list A) :=
    do out <- foldO (toStep m) (loopWaves sh) out;
    wr out (Z.to_nat (nmbPars sh - 1)) flat.
End To.

(* pwaLikelihood.cc 984-1010: CorrectParamSigns. The access [iRank][iRefl][iRank] leaves the
   third extent max(_nmbWavesRefl) if the rank is larger than that. *)
Definition anchorInside (sh : shape) (r : nat) : bool := r <? Nat.max (shWaves sh 0) (shWaves sh 1).
(* pwaLikelihood.cc 984-1010 *)
Definition flipStep (sh : shape) (re : nat * nat) (amps : idx -> C) : option (idx -> C) :=
  let '(r, e) := re in
  if anchorInside sh r then
    if Rlt_dec (Re (amps (r, e, r))) 0 then
      if Req_EM_T (Im (amps (r, e, r))) 0 then
        Some (fold_left (fun a w => upd a (r, e, w) (Copp (a (r, e, w)))) (List.seq 0 (shWaves sh e)) amps)
      else Some amps
    else Some amps
  else None.
(* pwaLikelihood.cc 984-1010 *)
Definition correctParamSigns (sh : shape) (m : parMap) (par : list R) : option (list R) :=
  do s <- copyFromParArray sh par;
  let (amps, flat) := s in
  let flat := if Rlt_dec flat 0 then (- flat)%R else flat in
  do amps <- foldO (flipStep sh) (flat_map (fun r => [(r, 0); (r, 1)]) (List.seq 0 (shRank sh))) amps;
  copyToParArray (fun t => Re (amps t)) (fun t => Im (amps t)) sh m flat (repeat 0%R (Z.to_nat (nmbPars sh))).

(* pwaLikelihood.cc 1624-1665: buildProdAmpArrays: values, parameter indices and names *)
Definition ampStep (names : nat -> nat -> str) (inPar : list R) (t : idx) (s : list (C * (Z * Z) * str) * nat) : option (list (C * (Z * Z) * str) * nat) :=
  let '(out, i) := s in
  if wv t <? rk t then Some (out, i)
  else if wv t =? rk t then
    do re <- rd inPar i;
    Some (out ++ [((re, 0%R), (Z.of_nat i, (-1)%Z), ampName (Z.of_nat (rk t)) (names (rf t) (wv t)))], i + 1)
  else
    do re <- rd inPar i; do im <- rd inPar (i + 1);
    Some (out ++ [((re, im), (Z.of_nat i, Z.of_nat (i + 1)), ampName (Z.of_nat (rk t)) (names (rf t) (wv t)))], i + 2).
(* pwaLikelihood.cc 1624-1665 *)
Definition buildProdAmpArrays (sh : shape) (names : nat -> nat -> str) (inPar : list R) (withFlat : bool) : option (list (C * (Z * Z) * str)) :=
  do s <- foldO (ampStep names inPar) (loopWaves sh) ([], 0);
  let (out, i) := s in
  if withFlat then do f <- rd inPar i; Some (out ++ [((f, 0%R), (Z.of_nat i, (-1)%Z), flatName)]) else Some out.
