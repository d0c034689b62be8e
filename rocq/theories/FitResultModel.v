(* Model of partialWaveFit/fitResult.{h,cc} (storage, names, spin-density matrix,
   intensities), of partialWaveFit/partialWaveFitHelper.cc and of the naming of
   production amplitudes in partialWaveFit/pwaLikelihood.cc.

   Simplifications: double is R, std::complex<double>/TComplex is C, integers are
   unbounded, a matrix is its dimensions and a total function (elements outside are never
   read for regular results), std::map<int,int> is a partial function.  None = abort
   (throw), undefined behaviour, or a regular expression outside the fragment of
   RegexModel.  Warnings are dropped. *)
From Coq Require Import String Ascii List ZArith Bool Reals Lia.
From Coquelicot Require Import Complex.
From Verif Require Import PathModel StrModel DecModel ParticleModel RegexModel.
Import ListNotations.
Open Scope list_scope.
Open Scope nat_scope.

(* ---------------- names ---------------- *)
(* std::string::find(c, pos); None = npos *)
Fixpoint findChar (c : ascii) (s : str) : option nat :=
  match s with
  | [] => None
  | x :: r => if Ascii.eqb x c then Some 0 else match findChar c r with Some i => Some (S i) | None => None end
  end.
(* std::string::find(c, pos) *)
Definition findFrom (c : ascii) (s : str) (pos : nat) : option nat :=
  match findChar c (skipn pos s) with Some i => Some (pos + i) | None => None end.

(* pwaLikelihood.cc 1626-1665 (and parName 109-122 without suffix): the names of the
   production amplitudes *)
Definition ampName (rank : Z) (wave : str) : str := lit "V" ++ showNN rank ++ lit "_" ++ wave.
(* pwaLikelihood.cc 1663: name of the flat wave *)
Definition flatName : str := lit "V_flat".

(* fitResult.h 634-650 *)
Definition waveNameForProdAmp (name : str) : str :=
  match name with
  | [] => []
  | c :: _ => if negb (Ascii.eqb c "V") then []
              else match findChar "_" name with None => [] | Some i => skipn (i + 1) name end
  end.

(* atoi; values beyond the range of int not modelled *)
Definition atoi (s : str) : Z := match readInt s with Some (z, _) => z | None => 0%Z end.
(* fitResult.h 537-550; None = reads behind the end of the empty string *)
Definition rankOfProdAmp (name : str) : option Z :=
  if str_eqb name flatName then Some (-1)%Z
  else match name with [] => None | _ :: r => Some (atoi r) end.

(* partialWaveFitHelper.cc 36-99; None = throw or read outside the string *)
Definition getReflectivity (name : str) : option Z :=
  doP waveNamePos <- (match name with
                      | c :: _ => if Ascii.eqb c "V" then doP p <- findChar "_" name; Some (p + 1) else Some 0
                      | [] => Some 0 end);
  let sign (c : option ascii) := match c with
      | Some c => if Ascii.eqb c "-" then Some (-1)%Z else if Ascii.eqb c "+" then Some 1%Z else None
      | None => None end in
  if str_eqb (skipn waveNamePos name) (lit "flat") then Some 0%Z
  else match nth_error name waveNamePos with
  | Some c =>
      if Ascii.eqb c "[" then
        let startQn := waveNamePos + 1 in
        doP endQn <- findFrom "]" name startQn;
        match findFrom "," name startQn with
        | None => None
        | Some firstSplit =>
            match findFrom "," name (firstSplit + 1) with
            | None => None
            | Some secondSplit =>
                if endQn <? secondSplit then None
                else if endQn - secondSplit <? 3 then None
                else sign (nth_error name (endQn - 1))
            end
        end
      else sign (nth_error name (waveNamePos + 6))
  | None => None
  end.

(* ---------------- storage ---------------- *)
(* representation of complexMatrix, TMatrixT<double> and of the vector of index pairs: rows, columns, elements *)
Record mat (A : Type) := Mat { rows : nat; cols : nat; el : nat -> nat -> A }.
Arguments Mat {A}. Arguments rows {A}. Arguments cols {A}. Arguments el {A}.
(* complexMatrix.h 46-51: a new, empty complexMatrix *)
Definition emptyC : mat C := Mat 0 0 (fun _ _ => RtoC 0).
(* a new, empty TMatrixT<double> (ROOT), fitResult.cc 83-91 *)
Definition emptyR : mat R := Mat 0 0 (fun _ _ => 0%R).

(* fitResult.h 386-402 *)
Record fitResult := FR {
  frNmbEvents : Z; frNormNmbEvents : Z; frBounds : smap (R * R); frLogL : R; frRank : Z;
  frAmps : list C; frAmpNames : list str; frWaveNames : list str;
  frCovValid : bool; frCov : mat R; frCovIdx : list (Z * Z);
  frNorm : mat C; frAcc : mat C; frIdxMap : nat -> option nat; frPhaseSpace : list R;
  frConverged : bool; frHasHessian : bool }.

(* fitResult.cc 83-91 *)
Definition frNew : fitResult :=
  FR 0 0 [] 0 0 [] [] [] false emptyR [] emptyC emptyC (fun _ => None) [] false false.

(* fitResult.cc 161-181 *)
Definition frReset (_ : fitResult) : fitResult :=
  FR 0 0 [] 0 0 [] [] [] false emptyR [] emptyC emptyC (fun _ => None) [] false false.

(* arguments of fill, fitResult.cc 184-198; None = nullptr *)
Record fillArgs := FA {
  faNmbEvents : Z; faNormNmbEvents : Z; faBounds : smap (R * R); faLogL : R; faRank : Z;
  faAmps : list C; faAmpNames : list str; faCov : option (mat R); faCovIdx : list (Z * Z);
  faNorm : option (mat C); faAcc : option (mat C); faPhaseSpace : option (list R);
  faConverged : bool; faHasHessian : bool }.

(* std::find on a vector of strings *)
Fixpoint findStr (w : str) (l : list str) : option nat :=
  match l with
  | [] => None
  | x :: r => if str_eqb x w then Some 0 else match findStr w r with Some i => Some (S i) | None => None end
  end.

(* fitResult.cc 246-252: [i] is the loop counter *)
Fixpoint fillWaves (i : nat) (ampNames : list str) (waves : list str) (m : nat -> option nat) : list str * (nat -> option nat) :=
  match ampNames with
  | [] => (waves, m)
  | n :: r =>
      let w := waveNameForProdAmp n in
      let '(idx, waves') := match findStr w waves with
                            | Some k => (k, waves)
                            | None => (length waves, waves ++ [w])
                            end in
      fillWaves (S i) r waves' (fun k => if k =? i then Some idx else m k)
  end.

(* fitResult.cc 184-255 (the rest of the function only prints warnings) *)
Definition fill (this : fitResult) (a : fillArgs) : fitResult :=
  let covValid := match faCov a with
                  | Some c => negb (rows c =? 0) && negb (cols c =? 0)
                  | None => false end in
  let hasHessian := match faCov a with
                    | Some _ => if covValid then true else faHasHessian a
                    | None => false end in
  let '(waves, m) := fillWaves 0 (faAmpNames a) (frWaveNames this) (frIdxMap this) in
  let m' := match faNorm a, faAcc a with None, None => fun _ => None | _, _ => m end in
  FR (faNmbEvents a) (faNormNmbEvents a) (faBounds a) (faLogL a) (faRank a)
     (faAmps a) (faAmpNames a) waves covValid
     (match faCov a with Some c => c | None => emptyR end) (faCovIdx a)
     (match faNorm a with Some c => c | None => emptyC end)
     (match faAcc a with Some c => c | None => emptyC end) m'
     (match faPhaseSpace a with Some l => l | None => [] end)
     (faConverged a) hasHessian.

(* fitResult.cc 427-447: fill(result, fillCovMatrix, fillIntegralMatrices); the copy
   constructor 94-98 is this on a new object *)
Definition nonEmpty (m : mat C) : bool := negb (rows m =? 0) || negb (cols m =? 0).
(* fitResult.cc 427-447 *)
Definition fillFromResult (this r : fitResult) (fillCov fillInts : bool) : fitResult :=
  fill this (FA (frNmbEvents r) (frNormNmbEvents r) (frBounds r) (frLogL r) (frRank r) (frAmps r) (frAmpNames r)
    (if fillCov && frCovValid r then Some (frCov r) else None) (frCovIdx r)
    (if fillInts && nonEmpty (frNorm r) then Some (frNorm r) else None)
    (if fillInts && nonEmpty (frAcc r) then Some (frAcc r) else None)
    (if fillInts && negb (length (frPhaseSpace r) =? 0) then Some (frPhaseSpace r) else None)
    (frConverged r) (frHasHessian r)).
(* fitResult.cc 94-98 *)
Definition frCopy (r : fitResult) : fitResult := fillFromResult frNew r true true.

(* ---------------- spin-density matrix ---------------- *)
Section Use.
  Variable fr : fitResult.

  (* fitResult.h 218, 220, 234 *)
  Definition waveNameAt (i : nat) : option str := nth_error (frWaveNames fr) i.
  (* fitResult.h 220 *)
  Definition prodAmpNameAt (i : nat) : option str := nth_error (frAmpNames fr) i.
  (* fitResult.h 234 *)
  Definition prodAmpAt (i : nat) : option C := nth_error (frAmps fr) i.

  (* the loops of fitResult.h 556-580 with a possibly aborting condition *)
  Fixpoint filterP {A} (f : A -> option bool) (l : list A) : option (list A) :=
    match l with
    | [] => Some []
    | x :: r => doP b <- f x; doP ys <- filterP f r; Some (if b then x :: ys else ys)
    end.

  (* fitResult.h 553-565 *)
  Definition waveIndicesMatchingPattern (pattern : str) : option (list nat) :=
    filterP (fun i => doP w <- waveNameAt i; regexContains pattern w) (seq 0 (length (frWaveNames fr))).
  (* fitResult.h 568-579 *)
  Definition prodAmpIndicesMatchingPattern (pattern : str) : option (list nat) :=
    filterP (fun i => doP n <- prodAmpNameAt i; regexContains pattern n) (seq 0 (length (frAmps fr))).
  (* fitResult.h 367-369 *)
  Definition prodAmpIndicesForWave (waveIndex : nat) : option (list nat) :=
    doP w <- waveNameAt waveIndex; prodAmpIndicesMatchingPattern (escapeRegExpSpecialChar w).

  (* fitResult.h 540-552 *)
  Definition rankAt (i : nat) : option Z := doP n <- prodAmpNameAt i; rankOfProdAmp n.

  (* first index of the list with the given rank *)
  (* fitResult.h 596-607: search of the partner of the same rank *)
  Fixpoint firstWithRank (r : Z) (l : list nat) : option (option nat) :=
    match l with
    | [] => Some None
    | b :: t => doP rb <- rankAt b; if (r =? rb)%Z then Some (Some b) else firstWithRank r t
    end.

  (* fitResult.h 582-611 *)
  Definition prodAmpIndexPairsForWaves (a b : nat) : option (list (nat * nat)) :=
    doP wa <- waveNameAt a; doP wb <- waveNameAt b;
    doP ra <- getReflectivity wa; doP rb <- getReflectivity wb;
    if negb (ra =? rb)%Z then Some []
    else
      doP ia <- prodAmpIndicesForWave a; doP ib <- prodAmpIndicesForWave b;
      doP ps <- mapP (fun x => doP rx <- rankAt x; doP y <- firstWithRank rx ib; Some (x, y)) ia;
      Some (flat_map (fun p => match snd p with Some y => [(fst p, y)] | None => [] end) ps).

  (* fitResult.cc 771-797 *)
  Definition spinDensityMatrixElem (a b : nat) : option C :=
    doP wa <- waveNameAt a; doP wb <- waveNameAt b;
    doP ra <- getReflectivity wa; doP rb <- getReflectivity wb;
    if negb (ra =? rb)%Z then Some (RtoC 0)
    else
      doP ps <- prodAmpIndexPairsForWaves a b;
      match ps with
      | [] => Some (RtoC 0)
      | _ =>
          doP ts <- mapP (fun p => doP x <- prodAmpAt (fst p); doP y <- prodAmpAt (snd p); Some (x * Cconj y)%C) ps;
          Some (RtoC (IZR (frNormNmbEvents fr)) * fold_left Cplus ts (RtoC 0))%C
      end.

  (* fitResult.cc 906-915; 0/0 (not a number in the code) is None *)
  Definition coherence (a b : nat) : option R :=
    doP rAA <- spinDensityMatrixElem a a; doP rBB <- spinDensityMatrixElem b b; doP rAB <- spinDensityMatrixElem a b;
    let d := (Re rAA * Re rBB)%R in
    if Req_EM_T d 0 then None else Some (sqrt ((Re rAB * Re rAB + Im rAB * Im rAB) / d)).

  (* fitResult.h 240-242 *)
  Definition normIntegral (a b : nat) : C := el (frNorm fr) a b.

  (* fitResult.cc 995-1003 *)
  Definition overlap (a b : nat) : option R :=
    doP s <- spinDensityMatrixElem a b; Some (2 * Re (s * normIntegral a b)%C)%R.

  (* fitResult.h 318-319 *)
  Definition intensity1 (a : nat) : option R :=
    doP s <- spinDensityMatrixElem a a; Some (Re s * Re (normIntegral a a))%R.

  (* fitResult.cc 1040-1047: the double loop over the selected waves *)
  Fixpoint overlaps (i : nat) (js : list nat) (acc : R) : option R :=
    match js with [] => Some acc | j :: r => doP o <- overlap i j; overlaps i r (acc + o)%R end.
  (* fitResult.cc 1040-1047 *)
  Fixpoint intLoopW (done todo : list nat) (acc : R) : option R :=
    match todo with
    | [] => Some acc
    | i :: r => doP x <- intensity1 i; doP acc' <- overlaps i done (acc + x)%R; intLoopW (done ++ [i]) r acc'
    end.
  (* fitResult.cc 1029-1049 *)
  Definition intensityOf (waveIndices : list nat) : option R :=
    match waveIndices with
    | [] => Some 0%R
    | [i] => intensity1 i
    | _ => intLoopW [] waveIndices 0
    end.
  (* fitResult.cc 1028-1049 *)
  Definition intensity (pattern : str) : option R :=
    doP l <- waveIndicesMatchingPattern pattern; intensityOf l.
  (* fitResult.h 335-336: the pattern ".*" matches every name *)
  Definition totalIntensity : option R := intensityOf (seq 0 (length (frWaveNames fr))).

  (* fitResult.cc 668-680: the loop runs over the production amplitudes; names and amplitudes are assumed to be as many *)
  Definition prodAmpIndexOf (name : str) : option nat := findStr name (firstn (length (frAmps fr)) (frAmpNames fr)).
  (* fitResult.cc 653-665 *)
  Definition waveIndexOf (name : str) : option nat := findStr name (frWaveNames fr).
  (* fitResult.cc 683-706: value of a fit parameter by its name; 0 if there is none *)
  Definition fitParameterOf (parName : str) : option R :=
    let realPart := contains (lit "RE") parName || contains (lit "flat") parName in
    let name := if realPart then replaceAll (lit "_RE") [] parName else replaceAll (lit "_IM") [] parName in
    match prodAmpIndexOf name with
    | Some i => doP a <- prodAmpAt i; Some (if realPart then Re a else Im a)
    | None => Some 0%R
    end.
  (* fitResult.cc 746-768 *)
  Definition normIntegralForProdAmp (a b : nat) : option C :=
    doP na <- prodAmpNameAt a; doP nb <- prodAmpNameAt b;
    let flatA := contains (lit "flat") na in
    let flatB := contains (lit "flat") nb in
    if flatA && flatB then Some (RtoC 1)
    else if flatA || flatB then Some (RtoC 0)
    else match frIdxMap fr a, frIdxMap fr b with
         | Some i, Some j => Some (normIntegral i j)
         | _, _ => Some (RtoC 0)
         end.
End Use.
