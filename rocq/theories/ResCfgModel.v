(* Model of the configuration files of the resonance fit (C88): resonanceFit/resonanceFitWriteConfig.cc 53-763,
   resonanceFit/resonanceFitReadConfig.cc 53-1512, the constructors they need (components.cc 198-322, 565-850,
   fsmd.cc 43-190) and parameter.cc.

   Numbers (double) are an abstract type with the operations used here and the texts yaml-cpp writes and reads for them.
   A file is the sequence of calls of YAML::Emitter; reading it back (YAML::LoadFile) builds the tree these calls
   describe, with aliases replaced by the anchored node. Scalars are texts. An exception, 'throw' without one, an
   assertion and the access to a null pointer are None. Simplifications: fit data (mass bins, phase-space integrals,
   interpolators, caches) are left out of components and final-state mass dependence; the arrays of fit parameters have no
   size; messages are left out. *)
From Coq Require Import Ascii String List Bool Arith ZArith.
Import ListNotations.
Open Scope string_scope.
Open Scope list_scope.
Open Scope nat_scope.

(* ---------------- numbers and texts (library: C++ double, yaml-cpp conversions, TFormula) ---------------- *)
(* double with the operations of resonanceFitReadConfig.cc, resonanceFitWriteConfig.cc 113, 163-170, components.cc 600-602;
   texts of yaml-cpp for double, int and bool; parameter names of a TFormula *)
Record lib (D : Type) := Lib {
  showD : D -> string; readD : string -> option D;
  showI : Z -> string; readI : string -> option Z;
  showB : bool -> string; readB : string -> option bool;
  numZero : D; numOne : D; minusOne : D; notANumber : D; infinite : D; numStep : D;
  numEq : D -> D -> bool; numGe0 : D -> bool; numGt : D -> D -> bool;
  numAdd : D -> D -> D; numDiv : D -> D -> D;
  formulaPars : string -> list string }.
Arguments showD {D}. Arguments readD {D}. Arguments showI {D}. Arguments readI {D}. Arguments showB {D}. Arguments readB {D}.
Arguments numZero {D}. Arguments numOne {D}. Arguments minusOne {D}. Arguments notANumber {D}. Arguments infinite {D}. Arguments numStep {D}.
Arguments numEq {D}. Arguments numGe0 {D}. Arguments numGt {D}. Arguments numAdd {D}. Arguments numDiv {D}. Arguments formulaPars {D}.

(* library yaml-cpp, used in yamlCppUtils.hpp 60-84: a node of a YAML document *)
Inductive yaml := YScalar (s : string) | YSeq (l : list yaml) | YMap (l : list (string * yaml)).
(* library: calls of YAML::Emitter, resonanceFitWriteConfig.cc 53-736 *)
Inductive call := BeginMap | EndMap | BeginSeq | EndSeq | Key | Value | Flow | Block | Text (s : string) | Anchor (s : string) | Alias (s : string).
(* library, resonanceFitReadConfig.cc 53-1512: a collection that is not yet complete, with its anchor, the entries in reverse order, and for a map the key
   waiting for its value *)
Inductive open := OSeq (a : option string) (l : list yaml) | OMap (a : option string) (l : list (string * yaml)) (k : option string).
(* library, resonanceFitReadConfig.cc 53-1512: open collections, anchors seen, anchor for the next node, complete document *)
Record loader := Loader { opened : list open; anchors : list (string * yaml); pending : option string; document : option yaml }.
(* library, resonanceFitReadConfig.cc 53-1512: a complete node *)
Definition feed (t : yaml) (o : list open) (tab : list (string * yaml)) : option loader :=
  match o with
  | [] => Some (Loader [] tab None (Some t))
  | OSeq a l :: r => Some (Loader (OSeq a (t :: l) :: r) tab None None)
  | OMap a l None :: r => match t with YScalar k => Some (Loader (OMap a l (Some k) :: r) tab None None) | _ => None end
  | OMap a l (Some k) :: r => Some (Loader (OMap a ((k, t) :: l) None :: r) tab None None)
  end.
(* library, resonanceFitReadConfig.cc 53-1512: the anchor of a node *)
Definition register (a : option string) (t : yaml) (tab : list (string * yaml)) : list (string * yaml) :=
  match a with Some n => (n, t) :: tab | None => tab end.
(* library, resonanceFitReadConfig.cc 53-1512: first entry with a name *)
Fixpoint assoc {A : Type} (k : string) (l : list (string * A)) : option A :=
  match l with [] => None | (n, x) :: r => if String.eqb n k then Some x else assoc k r end.
(* library, resonanceFitReadConfig.cc 53-1512: YAML::LoadFile on the text of one more call *)
Definition load1 (s : loader) (c : call) : option loader :=
  match c with
  | Key | Value | Flow | Block => Some s
  | _ =>
      match document s with
      | Some _ => None
      | None =>
          match c with
          | Text x => feed (YScalar x) (opened s) (register (pending s) (YScalar x) (anchors s))
          | Anchor x => Some (Loader (opened s) (anchors s) (Some x) None)
          | Alias x => match assoc x (anchors s) with Some t => feed t (opened s) (anchors s) | None => None end
          | BeginSeq => Some (Loader (OSeq (pending s) [] :: opened s) (anchors s) None None)
          | BeginMap => Some (Loader (OMap (pending s) [] None :: opened s) (anchors s) None None)
          | EndSeq => match opened s with OSeq a l :: r => feed (YSeq (rev l)) r (register a (YSeq (rev l)) (anchors s)) | _ => None end
          | EndMap => match opened s with OMap a l None :: r => feed (YMap (rev l)) r (register a (YMap (rev l)) (anchors s)) | _ => None end
          | _ => None
          end
      end
  end.
(* library, resonanceFitReadConfig.cc 53-1512: YAML::LoadFile *)
Fixpoint loads (s : loader) (l : list call) : option loader :=
  match l with [] => Some s | c :: r => match load1 s c with Some s' => loads s' r | None => None end end.
(* library, resonanceFitReadConfig.cc 53-1512: YAML::LoadFile *)
Definition loadFile (l : list call) : option yaml :=
  match loads (Loader [] [] None None) l with Some s => document s | None => None end.
(* library, resonanceFitReadConfig.cc 53-1512: node["key"] *)
Definition get (t : yaml) (k : string) : option yaml := match t with YMap l => assoc k l | _ => None end.
(* library, resonanceFitReadConfig.cc 53-1512: node.as<std::string>(), reportingUtils-free part of yamlCppUtils.hpp 86-121 *)
Definition asText (t : yaml) : option string := match t with YScalar s => Some s | _ => None end.
(* yamlCppUtils.hpp 101-107: node.as<double>() and its check *)
Definition asD {D} (L : lib D) (t : yaml) : option D := match t with YScalar s => readD L s | _ => None end.
(* yamlCppUtils.hpp 108-114: node.as<int>() *)
Definition asI {D} (L : lib D) (t : yaml) : option Z := match t with YScalar s => readI L s | _ => None end.
(* yamlCppUtils.hpp 94-100: node.as<bool>() *)
Definition asB {D} (L : lib D) (t : yaml) : option bool := match t with YScalar s => readB L s | _ => None end.
(* yamlCppUtils.hpp 115-116: node.IsSequence() *)
Definition asSeq (t : yaml) : option (list yaml) := match t with YSeq l => Some l | _ => None end.
(* glue: the next step if the value is there *)
Definition bindO {A B : Type} (x : option A) (f : A -> option B) : option B := match x with Some a => f a | None => None end.
(* glue: yamlCppUtils.hpp 124-148 checkIfAllVariablesAreThere for one variable, and its value *)
Definition field {A : Type} (conv : yaml -> option A) (t : yaml) (k : string) : option A := bindO (get t k) conv.
(* glue: a variable that may be missing *)
Definition optional {A : Type} (conv : yaml -> option A) (t : yaml) (k : string) (d : A) : option A :=
  match get t k with None => Some d | Some y => conv y end.
(* glue: a loop over all elements that can fail *)
Fixpoint all {A B : Type} (f : A -> option B) (l : list A) : option (list B) :=
  match l with
  | [] => Some []
  | x :: r => match f x with None => None | Some y => match all f r with None => None | Some t => Some (y :: t) end end
  end.

(* ---------------- objects ---------------- *)
(* parameter.h 43-90 *)
Record param (D : Type) := Param { pName : string; pStart : D; pError : D; pFix : bool; pLower : D; pHasLower : bool; pUpper : D; pHasUpper : bool; pStep : D }.
Arguments Param {D}. Arguments pName {D}. Arguments pStart {D}. Arguments pError {D}. Arguments pFix {D}. Arguments pLower {D}.
Arguments pHasLower {D}. Arguments pUpper {D}. Arguments pHasUpper {D}. Arguments pStep {D}.
(* input.h 48-92: a wave and its mass limits *)
Record wave (D : Type) := Wave { wName : string; wLow : D; wUp : D }.
Arguments Wave {D}. Arguments wName {D}. Arguments wLow {D}. Arguments wUp {D}.
(* input.h 48-92: a bin *)
Record inBin (D : Type) := InBin { bName : string; bWaves : list (wave D); bTPrime : D; bRescale : D; bSys : list string }.
Arguments InBin {D}. Arguments bName {D}. Arguments bWaves {D}. Arguments bTPrime {D}. Arguments bRescale {D}. Arguments bSys {D}.
(* components.h 177-480: the types of components and their own data *)
Inductive kind (D : Type) :=
| FixedWidth
| DynamicWidth (ratio : list D) (l : list Z) (m1 m2 : list D)
| IntegralWidth (ratio : list D) (integrals : list (list (D * D)))
| ConstantBg
| ExpBg (l : Z) (m1 m2 expo : D)
| TPrimeBg (tmeans : list D) (l : Z) (m1 m2 expo : D)
| ExpBgInt (integral : list (D * D)) (expo : D)
| TPrimeBgInt (tmeans : list D) (integral : list (D * D)) (expo : D).
Arguments FixedWidth {D}. Arguments DynamicWidth {D}. Arguments IntegralWidth {D}. Arguments ConstantBg {D}. Arguments ExpBg {D}.
Arguments TPrimeBg {D}. Arguments ExpBgInt {D}. Arguments TPrimeBgInt {D}.
(* components.h 131-170: which coupling and branching belongs to which decay channel *)
Record maps := Maps { mCoup : list nat; mBr : list nat; mFromCoup : list nat; mFromBr : list nat; mFixed : list bool }.
(* components.h 60-170: name and bins of the decay channels *)
Record component (D : Type) := Component { cId : nat; cName : string; cKind : kind D; cPars : list (param D); cChans : list (string * list nat); cMaps : maps }.
Arguments Component {D}. Arguments cId {D}. Arguments cName {D}. Arguments cKind {D}. Arguments cPars {D}. Arguments cChans {D}. Arguments cMaps {D}.
(* fsmd.h 45-125: one formula with its parameters for all bins, or one per bin *)
Record fsmd (D : Type) := Fsmd { fId : nat; fSame : bool; fFuns : list (string * list (param D)) }.
Arguments Fsmd {D}. Arguments fId {D}. Arguments fSame {D}. Arguments fFuns {D}.
(* parameters.h 45-80: component and index; component, coupling and bin; component and branching *)
Record pars (D : Type) := Pars { fPar : nat -> nat -> D; fCoup : nat -> nat -> nat -> D * D; fBr : nat -> nat -> D * D }.
Arguments Pars {D}. Arguments fPar {D}. Arguments fCoup {D}. Arguments fBr {D}.
(* model.h 50-80: what the constructor gets, besides the input *)
Record fitModel (D : Type) := FitModel { mComps : list (component D); mFsmd : option (fsmd D); mAnchors : list (string * string) }.
Arguments FitModel {D}. Arguments mComps {D}. Arguments mFsmd {D}. Arguments mAnchors {D}.

Section WithNumbers.
Context {D : Type} (L : lib D).

(* ---------------- constructors ---------------- *)
(* parameters.cc 38-50, parameters.h: an object before anything is set *)
Definition noPars : pars D := Pars (fun _ _ => numZero L) (fun _ _ _ => (numZero L, numZero L)) (fun _ _ => (numZero L, numZero L)).
(* parameters.h 59 setParameter *)
Definition setPar (id i : nat) (x : D) (p : pars D) : pars D :=
  Pars (fun a b => if Nat.eqb a id && Nat.eqb b i then x else fPar p a b) (fCoup p) (fBr p).
(* parameters.h 58 setCoupling *)
Definition setCoup (id k b : nat) (x : D * D) (p : pars D) : pars D :=
  Pars (fPar p) (fun a c d => if Nat.eqb a id && Nat.eqb c k && Nat.eqb d b then x else fCoup p a c d) (fBr p).
(* parameters.h 57 setBranching *)
Definition setBr (id k : nat) (x : D * D) (p : pars D) : pars D :=
  Pars (fPar p) (fCoup p) (fun a c => if Nat.eqb a id && Nat.eqb c k then x else fBr p a c).

(* library, resonanceFitReadConfig.cc 53-1512, C++: std::string::find("=") with substr, components.cc 256: everything if there is none *)
Fixpoint beforeEq (s : string) : string :=
  match s with
  | EmptyString => EmptyString
  | String c r => if Ascii.eqb c "="%char then EmptyString else String c (beforeEq r)
  end.
(* components.cc 250-291 couplingsQN, readCouplings, readBranching, fixedBranching, couplingIndex *)
Record chanState := ChanState { qns : list ((string * nat) * nat); rdCoup : bool; rdBr : bool; fixBr : bool; coupIx : nat }.
(* glue: couplingsQN.find *)
Fixpoint findQN (q : string) (b : nat) (l : list ((string * nat) * nat)) : option nat :=
  match l with [] => None | ((n, c), x) :: r => if String.eqb n q && Nat.eqb c b then Some x else findQN q b r end.
(* components.cc 259-290: one bin of the wave, the [i]-th *)
Definition chanBin (q : string) (s : chanState) (ib : nat * nat) : option chanState :=
  let '(i, b) := ib in
  let s1 :=
    match findQN q b (qns s) with
    | None =>
        if Nat.ltb 1 i && (negb (rdCoup s) || negb (fixBr s)) then None
        else Some (ChanState (((q, b), coupIx s) :: qns s) true (rdBr s) true (coupIx s))
    | Some x =>
        if Nat.ltb 1 i && (rdCoup s || fixBr s || negb (Nat.eqb (coupIx s) x)) then None
        else Some (ChanState (qns s) false (rdBr s) false x)
    end in
  match s1 with
  | None => None
  | Some s1 => if Nat.ltb 1 i && negb (rdBr s1) then None else Some (ChanState (qns s1) (rdCoup s1) true (fixBr s1) (coupIx s1))
  end.
(* glue: a loop with a state that can fail *)
Fixpoint foldO {A S : Type} (f : S -> A -> option S) (l : list A) (s : S) : option S :=
  match l with [] => Some s | x :: r => match f s x with None => None | Some s' => foldO f r s' end end.
(* components.cc 250-312: one decay channel; the state: couplingsQN, the maps, number of the channel *)
Definition chanStep (useBr : bool) (nrChans : nat) (st : (list ((string * nat) * nat) * maps) * nat) (ch : string * list nat)
    : option ((list ((string * nat) * nat) * maps) * nat) :=
  let '((qn, m), idx) := st in
  let nrC := length (mFromCoup m) in
  let nrB := length (mFromBr m) in
  let start := ChanState qn true false true nrC in
  let s := if useBr && Nat.ltb 1 nrChans then foldO (chanBin (beforeEq (fst ch))) (combine (seq 0 (length (snd ch))) (snd ch)) start else Some start in
  match s with
  | None => None
  | Some s =>
      if rdCoup s && negb (Nat.eqb (coupIx s) nrC) then None
      else
        Some ((qns s, Maps (mCoup m ++ [coupIx s]) (mBr m ++ [nrB]) (mFromCoup m ++ if rdCoup s then [idx] else [])
                        (mFromBr m ++ if rdBr s then [idx] else []) (mFixed m ++ if rdBr s then [fixBr s] else [])), S idx)
  end.
(* components.cc 230-322 *)
Definition mapChannels (useBr : bool) (chans : list (string * list nat)) : option maps :=
  match foldO (chanStep useBr (length chans)) chans (([], Maps [] [] [] [] []), 0) with
  | None => None
  | Some ((_, m), _) => Some (if Nat.eqb (length (mFromBr m)) 0 then Maps (mCoup m) (mBr m) (mFromCoup m) [0] [true] else m)
  end.
(* components.cc 501-509, 553-561, 677-685, 768-772, 816-822, 913-927, 1030-1036, 1119-1133: names of the parameters *)
Definition defaultNames (k : kind D) : list string :=
  match k with
  | FixedWidth | DynamicWidth _ _ _ _ | IntegralWidth _ _ => ["mass"; "width"]
  | ConstantBg => []
  | ExpBg _ _ _ _ | ExpBgInt _ _ => ["g"]
  | TPrimeBg _ _ _ _ _ | TPrimeBgInt _ _ _ => ["m0"; "c0"; "c1"; "c2"; "c3"]
  end%string.
(* components.h 193, 221, 262, 297, 325, 368, 411, 452 getType *)
Definition typeName (k : kind D) : string :=
  match k with
  | FixedWidth => "fixedWidthBreitWigner" | DynamicWidth _ _ _ _ => "dynamicWidthBreitWigner" | IntegralWidth _ _ => "integralWidthBreitWigner"
  | ConstantBg => "constantBackground" | ExpBg _ _ _ _ => "exponentialBackground" | TPrimeBg _ _ _ _ _ => "tPrimeDependentBackground"
  | ExpBgInt _ _ => "exponentialBackgroundIntegral" | TPrimeBgInt _ _ _ => "tPrimeDependentBackgroundIntegral"
  end%string.
(* components.cc 600-602, 726-727: the branching ratios are normalised *)
Definition normalised (ratio : list D) : list D :=
  let sum := fold_left (numAdd L) ratio (numZero L) in map (fun v => numDiv L v sum) ratio.
(* components.cc 565-602, 689-727, 776-799, 826-850, 931-966, 1040-1070, 1137-1170: the constructor of a component, its
   checks and what it keeps *)
Definition construct (useBr : bool) (nrBins : nat) (id : nat) (name : string) (k : kind D) (ps : list (param D)) (chans : list (string * list nat))
    : option (component D) :=
  match mapChannels useBr chans with
  | None => None
  | Some m =>
      let n := length chans in
      let ok k' := if list_eq_dec string_dec (map pName ps) (defaultNames k) then Some (Component id name k' ps chans m) else None in
      match k with
      | FixedWidth => ok k
      | DynamicWidth r l a b =>
          if Nat.ltb (length r) n || negb (Nat.eqb (length l) (length r) && Nat.eqb (length a) (length r) && Nat.eqb (length b) (length r)) then None
          else ok (DynamicWidth (normalised r) l a b)
      | IntegralWidth r ig =>
          if Nat.ltb (length r) n || negb (Nat.eqb (length ig) (length r)) then None else ok (IntegralWidth (normalised r) ig)
      | TPrimeBg tm _ _ _ _ | TPrimeBgInt tm _ _ => if Nat.eqb n 1 && Nat.eqb (length tm) nrBins then ok k else None
      | _ => if Nat.eqb n 1 then ok k else None
      end
  end.

(* ---------------- resonanceFitWriteConfig.cc ---------------- *)
(* glue: key and value of a text *)
Definition kv (k v : string) : list call := [Key; Text k; Value; Text v].
(* resonanceFitWriteConfig.cc 56-74 writeFitQuality *)
Definition writeFitQuality (q : list (string * D)) : list call :=
  [Key; Text "fitquality"; Value; BeginMap] ++ flat_map (fun e => kv (fst e) (showD L (snd e))) q ++ [EndMap].
(* resonanceFitWriteConfig.cc 77-90 writeFreeParameters (yaml-cpp: a vector is a sequence) *)
Definition writeFreeParameters (f : list string) : list call :=
  match f with [] => [] | _ => [Key; Text "freeparameters"; Value; BeginSeq] ++ map Text f ++ [EndSeq] end.
(* resonanceFitWriteConfig.cc 158-172: one wave *)
Definition writeWave (w : wave D) : list call :=
  [BeginMap] ++ kv "name" (wName w) ++ (if numGe0 L (wLow w) then kv "massLower" (showD L (wLow w)) else []) ++
  (if numGe0 L (wUp w) then kv "massUpper" (showD L (wUp w)) else []) ++ [EndMap].
(* resonanceFitWriteConfig.cc 124-149: same waves and mass limits *)
Definition sameWaves (a b : list (wave D)) : bool :=
  Nat.eqb (length a) (length b) &&
  forallb (fun x => String.eqb (wName (fst x)) (wName (snd x)) && numEq L (wLow (fst x)) (wLow (snd x)) && numEq L (wUp (fst x)) (wUp (snd x))) (combine a b).
(* glue: first index of an element of the list for which the test holds, or the length *)
Fixpoint firstIdx {A : Type} (f : A -> bool) (l : list A) : nat :=
  match l with [] => 0 | x :: r => if f x then 0 else S (firstIdx f r) end.
(* library, resonanceFitReadConfig.cc 53-1512: texts of unsigned numbers, std::ostringstream 154, 225 *)
Definition numText (n : nat) : string := showI L (Z.of_nat n).
(* resonanceFitWriteConfig.cc 104-184: one bin; [before]: the bins already written *)
Definition writeBin (before : list (inBin D)) (b : inBin D) : list call :=
  let ia := firstIdx (fun a => sameWaves (bWaves b) (bWaves a)) before in
  [BeginMap] ++ kv "name" (bName b) ++ kv "tPrimeMean" (showD L (bTPrime b)) ++
  (if numEq L (bRescale b) (numOne L) then [] else kv "rescaleErrors" (showD L (bRescale b))) ++
  (match bSys b with [] => [] | s => [Key; Text "systematics"; Value; BeginSeq] ++ map Text s ++ [EndSeq] end) ++
  [Key; Text "waves"; Value] ++
  (if Nat.eqb ia (length before) then [Anchor ("waveset" ++ numText ia); BeginSeq] ++ flat_map writeWave (bWaves b) ++ [EndSeq]
   else [Alias ("waveset" ++ numText ia)]) ++
  [EndMap].
(* glue: all bins *)
Fixpoint writeBins (before : list (inBin D)) (l : list (inBin D)) : list call :=
  match l with [] => [] | b :: r => writeBin before b ++ writeBins (before ++ [b]) r end.
(* resonanceFitWriteConfig.cc 93-188 writeInput *)
Definition writeInput (l : list (inBin D)) : list call := [Key; Text "input"; Value; BeginSeq] ++ writeBins [] l ++ [EndSeq].
(* resonanceFitWriteConfig.cc 207-240: one anchor *)
Definition writeAnchor (before : list (string * string)) (a : string * string) : list call :=
  let ia := firstIdx (fun x => String.eqb (fst a) (fst x) && String.eqb (snd a) (snd x)) before in
  if Nat.eqb ia (length before) then
    [Anchor ("anchor" ++ numText ia); Flow; BeginSeq; Value; Text (fst a); Value; Text (snd a); EndSeq; Block]
  else [Alias ("anchor" ++ numText ia)].
(* glue: all anchors *)
Fixpoint writeAnchorList (before l : list (string * string)) : list call :=
  match l with [] => [] | a :: r => writeAnchor before a ++ writeAnchorList (before ++ [a]) r end.
(* resonanceFitWriteConfig.cc 191-244 writeModelAnchors *)
Definition writeModelAnchors (l : list (string * string)) : list call :=
  [Key; Text "anchorwave"; Value; BeginSeq] ++ writeAnchorList [] l ++ [EndSeq].
(* resonanceFitWriteConfig.cc 247-285 writeModelParameter *)
Definition writeParam (p : param D) (value error : D) : list call :=
  [Key; Text (pName p); Value; BeginMap] ++ kv "val" (showD L value) ++ kv "error" (showD L error) ++
  (if pHasLower p then kv "lower" (showD L (pLower p)) else []) ++ (if pHasUpper p then kv "upper" (showD L (pUpper p)) else []) ++
  kv "step" (showD L (pStep p)) ++ kv "fix" (showB L (pFix p)) ++ [EndMap].
(* glue: sequence of two numbers *)
Definition writePair (x : D * D) : list call := [BeginSeq; Text (showD L (fst x)); Text (showD L (snd x)); EndSeq].
(* resonanceFitWriteConfig.cc 310-361 writeModelComponentDecayChannelIntegral *)
Definition writeIntegral (ig : list (D * D)) : list call :=
  [Key; Text "integral"; Value; Flow; BeginSeq] ++ flat_map writePair ig ++ [EndSeq; Block].
(* resonanceFitWriteConfig.cc 493-514, 528-550: data of the type for one (extra) decay channel *)
Definition writeChannelData (k : kind D) (i : nat) : list call :=
  match k with
  | DynamicWidth r l a b =>
      kv "mIsobar1" (showD L (nth i a (numZero L))) ++ kv "mIsobar2" (showD L (nth i b (numZero L))) ++
      kv "relAngularMom" (showI L (nth i l 0%Z)) ++ kv "branchingRatio" (showD L (nth i r (numZero L)))
  | IntegralWidth r ig => writeIntegral (nth i ig []) ++ kv "branchingRatio" (showD L (nth i r (numZero L)))
  | _ => []
  end.
(* components.h 107, 223, 264 getTotalNrChannels *)
Definition totalChannels (c : component D) : nat :=
  match cKind c with DynamicWidth r _ _ _ | IntegralWidth r _ => length r | _ => length (cChans c) end.
(* components.h 109-113: is the decay channel the first one with its coupling *)
Definition masterCoup (c : component D) (i : nat) : bool := Nat.eqb (nth (nth i (mCoup (cMaps c)) 0) (mFromCoup (cMaps c)) 0) i.
(* components.h 109-113 *)
Definition masterBr (c : component D) (i : nat) : bool := Nat.eqb (nth (nth i (mBr (cMaps c)) 0) (mFromBr (cMaps c)) 0) i.
(* components.h 120 *)
Definition nrBranchings (c : component D) : nat := length (mFromBr (cMaps c)).
(* resonanceFitWriteConfig.cc 450-517: one decay channel *)
Definition writeChannel (c : component D) (fp : pars D) (ich : nat * (string * list nat)) : list call :=
  let '(i, ch) := ich in
  [BeginMap] ++ kv "amp" (fst ch) ++
  (if masterCoup c i then
     [Key; Text "couplings"; Value; BeginSeq] ++ flat_map (fun b => [Flow] ++ writePair (fCoup fp (cId c) (nth i (mCoup (cMaps c)) 0) b) ++ [Block]) (snd ch) ++ [EndSeq]
   else []) ++
  (if Nat.ltb 1 (nrBranchings c) && masterBr c i then
     [Key; Text "branching"; Value; Flow] ++ writePair (fBr fp (cId c) (nth i (mBr (cMaps c)) 0)) ++ [Block]
   else []) ++
  writeChannelData (cKind c) i ++ [EndMap].
(* resonanceFitWriteConfig.cc 558-595: data of the other types *)
Definition writeOwnData (k : kind D) : list call :=
  match k with
  | ExpBg l a b e | TPrimeBg _ l a b e => kv "mIsobar1" (showD L a) ++ kv "mIsobar2" (showD L b) ++ kv "relAngularMom" (showI L l) ++ kv "exponent" (showD L e)
  | ExpBgInt ig e | TPrimeBgInt _ ig e => writeIntegral ig ++ kv "exponent" (showD L e)
  | _ => []
  end.
(* glue: elements with their index *)
Definition indexed {A : Type} (l : list A) : list (nat * A) := combine (seq 0 (length l)) l.
(* resonanceFitWriteConfig.cc 420-598 writeModelComponent *)
Definition writeComponent (fp fe : pars D) (c : component D) : list call :=
  [BeginMap] ++ kv "name" (cName c) ++ kv "type" (typeName (cKind c)) ++
  flat_map (fun x => writeParam (snd x) (fPar fp (cId c) (fst x)) (fPar fe (cId c) (fst x))) (indexed (cPars c)) ++
  [Key; Text "decaychannels"; Value; BeginSeq] ++ flat_map (writeChannel c fp) (indexed (cChans c)) ++ [EndSeq] ++
  (if Nat.ltb (length (cChans c)) (totalChannels c) then
     [Key; Text "extradecaychannels"; Value; BeginSeq] ++
     flat_map (fun i => [BeginMap] ++ writeChannelData (cKind c) i ++ [EndMap]) (seq (length (cChans c)) (totalChannels c - length (cChans c))) ++ [EndSeq]
   else []) ++
  writeOwnData (cKind c) ++ [EndMap].
(* resonanceFitWriteConfig.cc 602-624 writeModelComponents *)
Definition writeComponents (fp fe : pars D) (l : list (component D)) : list call :=
  [Key; Text "components"; Value; BeginSeq] ++ flat_map (writeComponent fp fe) l ++ [EndSeq].
(* resonanceFitWriteConfig.cc 627-652 writeModelFsmdBin; fsmd.cc 171-174 getParameterIndex is [off] *)
Definition writeFsmdBin (fp fe : pars D) (id off : nat) (f : string * list (param D)) : list call :=
  [BeginMap] ++ kv "formula" (fst f) ++
  flat_map (fun x => writeParam (snd x) (fPar fp id (off + fst x)) (fPar fe id (off + fst x))) (indexed (snd f)) ++ [EndMap].
(* glue: all bins *)
Fixpoint writeFsmdBins (fp fe : pars D) (id off : nat) (l : list (string * list (param D))) : list call :=
  match l with [] => [] | f :: r => writeFsmdBin fp fe id off f ++ writeFsmdBins fp fe id (off + length (snd f)) r end.
(* resonanceFitWriteConfig.cc 655-684 writeModelFsmd: the pointer is used without a check *)
Definition writeFsmd (fp fe : pars D) (f : option (fsmd D)) : option (list call) :=
  match f with
  | None => None
  | Some f =>
      Some ([Key; Text "finalStateMassDependence"; Value] ++
        (if fSame f then [] else [BeginSeq]) ++
        writeFsmdBins fp fe (fId f) 0 (if fSame f then firstn 1 (fFuns f) else fFuns f) ++
        (if fSame f then [] else [EndSeq]))
  end.
(* resonanceFitWriteConfig.cc 687-709, 712-763 writeModel, writeConfig *)
Definition writeConfig (input : list (inBin D)) (m : fitModel D) (fp fe : pars D) (q : list (string * D)) (free : list string) : option (list call) :=
  match writeFsmd fp fe (mFsmd m) with
  | None => None
  | Some f =>
      Some ([BeginMap] ++ writeFitQuality q ++ writeFreeParameters free ++ writeInput input ++
        [Key; Text "model"; Value; BeginMap] ++ writeModelAnchors (mAnchors m) ++ writeComponents fp fe (mComps m) ++ f ++ [EndMap; EndMap])
  end.

(* ---------------- resonanceFitReadConfig.cc ---------------- *)
(* resonanceFitReadConfig.cc 81-96: a number of the fit quality *)
Definition readQuality (t : yaml) : option D :=
  match asD L t with
  | Some x => Some x
  | None => match asText t with
            | Some s => if String.eqb s "nan" then Some (notANumber L) else if String.eqb s "inf" then Some (infinite L) else None
            | None => None
            end
  end.
(* resonanceFitReadConfig.cc 75-111; the map keeps the order of the file here (std::map: sorted by name) *)
Fixpoint readQualities (seen : list string) (l : list (string * yaml)) : option (list (string * D)) :=
  match l with
  | [] => Some []
  | (k, t) :: r =>
      match readQuality t with
      | None => None
      | Some x => if existsb (String.eqb k) seen then None
                  else match readQualities (k :: seen) r with None => None | Some q => Some ((k, x) :: q) end
      end
  end.
(* resonanceFitReadConfig.cc 53-113 *)
Definition readFitQuality (root : yaml) : option (list (string * D)) :=
  match get root "fitquality" with
  | None => Some []
  | Some (YMap l) => readQualities [] l
  | Some _ => None
  end.
(* resonanceFitReadConfig.cc 116-159 *)
Definition readFreeParameters (root : yaml) : option (list string) :=
  match get root "freeparameters" with
  | None => Some []
  | Some (YSeq []) => None
  | Some (YSeq l) => all asText l
  | Some _ => None
  end.
(* resonanceFitReadConfig.cc 185-237: one wave; [before]: the waves already read *)
Definition readWave (before : list (wave D)) (t : yaml) : option (wave D) :=
  bindO (field asText t "name") (fun n =>
    if existsb (fun w => String.eqb (wName w) n) before then None
    else bindO (optional (asD L) t "massLower" (minusOne L)) (fun lo =>
         bindO (optional (asD L) t "massUpper" (minusOne L)) (fun up => Some (Wave n lo up)))).
(* glue: all waves *)
Fixpoint readWaveList (before : list (wave D)) (l : list yaml) : option (list (wave D)) :=
  match l with
  | [] => Some before
  | t :: r => match readWave before t with None => None | Some w => readWaveList (before ++ [w]) r end
  end.
(* resonanceFitReadConfig.cc 274-330: one bin *)
Definition readBin (t : yaml) : option (inBin D) :=
  bindO (field asText t "name") (fun n =>
  bindO (field asSeq t "waves") (fun wl =>
  bindO (field (asD L) t "tPrimeMean") (fun tp =>
  bindO (readWaveList [] wl) (fun ws =>
  bindO (optional (asD L) t "rescaleErrors" (numOne L)) (fun rs =>
  bindO (optional (fun y => bindO (asSeq y) (all asText)) t "systematics" []) (fun sys =>
  Some (InBin n ws tp rs sys))))))).
(* resonanceFitReadConfig.cc 250-334 *)
Definition readInput (root : yaml) : option (list (inBin D)) := bindO (field asSeq root "input") (all readBin).
(* resonanceFitReadConfig.cc 365-383: one anchor *)
Definition readAnchor (t : yaml) : option (string * string) :=
  match t with
  | YSeq [a; b] => bindO (asText a) (fun x => bindO (asText b) (fun y => Some (x, y)))
  | YMap [_; _] => None
  | _ => None
  end.
(* resonanceFitReadConfig.cc 340-384 readModelAnchors *)
Definition readModelAnchors (t : yaml) : option (list (string * string)) := bindO (field asSeq t "anchorwave") (all readAnchor).
(* resonanceFitReadConfig.cc 417-435: the error *)
Definition readError (t : yaml) (d : D) : option D :=
  match get t "error" with
  | None => Some d
  | Some y =>
      match asD L y with
      | Some x => Some x
      | None => match asText y with Some s => if String.eqb s "nan" then Some (notANumber L) else None | None => None end
      end
  end.
(* resonanceFitReadConfig.cc 439-461: a limit *)
Definition readLimit (t : yaml) (k : string) (d : D) : option (D * bool) :=
  match get t k with None => Some (d, false) | Some y => bindO (asD L y) (fun x => Some (x, true)) end.
(* resonanceFitReadConfig.cc 387-471 readModelParameter; [p]: the parameter with its default values *)
Definition readParam (t : yaml) (name : string) (p : param D) : option (param D) :=
  bindO (get t name) (fun y =>
  bindO (field (asD L) y "val") (fun v =>
  bindO (field (asB L) y "fix") (fun fx =>
  bindO (readError y (pError p)) (fun e =>
  bindO (readLimit y "lower" (pLower p)) (fun lo =>
  bindO (readLimit y "upper" (pUpper p)) (fun up =>
  bindO (optional (asD L) y "step" (pStep p)) (fun st =>
  Some (Param name v e fx (fst lo) (snd lo) (fst up) (snd up) st)))))))).
(* resonanceFitReadConfig.cc 554-591: one point of a phase-space integral; [last]: the mass before *)
Fixpoint readPoints (last : option D) (l : list yaml) : option (list (D * D)) :=
  match l with
  | [] => Some []
  | YSeq [a; b] :: r =>
      bindO (asD L a) (fun m => bindO (asD L b) (fun v =>
        if match last with Some x => numGt L x m | None => false end then None
        else bindO (readPoints (Some m) r) (fun q => Some ((m, v) :: q))))
  | _ => None
  end.
(* resonanceFitReadConfig.cc 529-592 readModelComponentDecayChannelIntegral *)
Definition readIntegral (t : yaml) : option (list (D * D)) :=
  bindO (field asSeq t "integral") (fun l => if Nat.ltb (length l) 2 then None else readPoints None l).
(* resonanceFitReadConfig.cc 655-731 readModelComponentDecayChannels: one decay channel; [before]: those already read;
   the bins are those with the wave (components.cc 166-180) *)
Definition readChannel (input : list (inBin D)) (before : list (string * list nat)) (t : yaml) : option (string * list nat) :=
  bindO (field asText t "amp") (fun n =>
    let bins := map fst (filter (fun x => existsb (fun w => String.eqb (wName w) n) (bWaves (snd x))) (indexed input)) in
    if existsb (fun c => String.eqb (fst c) n) before then None
    else match bins with [] => None | _ => Some (n, bins) end).
(* glue: all decay channels *)
Fixpoint readChannelList (input : list (inBin D)) (before : list (string * list nat)) (l : list yaml) : option (list (string * list nat)) :=
  match l with
  | [] => Some before
  | t :: r => match readChannel input before t with None => None | Some c => readChannelList input (before ++ [c]) r end
  end.
(* resonanceFitReadConfig.cc 789-812, 859-886: the nodes of decay channels and extra decay channels *)
Definition channelNodes (t : yaml) : option (list yaml) :=
  bindO (field asSeq t "decaychannels") (fun a =>
    match get t "extradecaychannels" with None | Some (YScalar _) | Some (YMap []) => Some a | Some (YSeq b) => Some (a ++ b) | Some (YMap _) => None end).
(* resonanceFitReadConfig.cc 764-1037: the data of the component of a type *)
Definition readKind (input : list (inBin D)) (type : string) (t : yaml) : option (kind D) :=
  let tmeans := map bTPrime input in
  let one l := bindO (field (asD L) t "mIsobar1") (fun a => bindO (field (asD L) t "mIsobar2") (fun b => l a b)) in
  let two := numAdd L (numOne L) (numOne L) in
  if String.eqb type "fixedWidthBreitWigner" then Some FixedWidth
  else if String.eqb type "dynamicWidthBreitWigner" then
    bindO (channelNodes t) (fun ns =>
    bindO (all (fun n => field (asD L) n "branchingRatio") ns) (fun r =>
    bindO (all (fun n => field (asI L) n "relAngularMom") ns) (fun l =>
    bindO (all (fun n => field (asD L) n "mIsobar1") ns) (fun a =>
    bindO (all (fun n => field (asD L) n "mIsobar2") ns) (fun b => Some (DynamicWidth r l a b))))))
  else if String.eqb type "integralWidthBreitWigner" then
    bindO (channelNodes t) (fun ns =>
    bindO (all (fun n => field (asD L) n "branchingRatio") ns) (fun r =>
    bindO (all readIntegral ns) (fun ig => Some (IntegralWidth r ig))))
  else if String.eqb type "constantBackground" then Some ConstantBg
  else if String.eqb type "exponentialBackground" then
    bindO (optional (asI L) t "relAngularMom" 0%Z) (fun l => one (fun a b =>
    bindO (optional (asD L) t "exponent" two) (fun e => Some (ExpBg l a b e))))
  else if String.eqb type "tPrimeDependentBackground" then
    bindO (optional (asI L) t "relAngularMom" 0%Z) (fun l => one (fun a b =>
    bindO (optional (asD L) t "exponent" two) (fun e => Some (TPrimeBg tmeans l a b e))))
  else if String.eqb type "exponentialBackgroundIntegral" then
    bindO (readIntegral t) (fun ig => bindO (field (asD L) t "exponent") (fun e => Some (ExpBgInt ig e)))
  else if String.eqb type "tPrimeDependentBackgroundIntegral" then
    bindO (readIntegral t) (fun ig => bindO (field (asD L) t "exponent") (fun e => Some (TPrimeBgInt tmeans ig e)))
  else None.
(* parameter.cc 33-45, components.cc 501-509 and the others: a parameter before it is read (its step size is one of two
   values there) *)
Definition freshParam (n : string) : param D := Param n (numZero L) (numZero L) false (numZero L) false (numZero L) false (numStep L).
(* resonanceFitReadConfig.cc 1041-1151 readModelComponent *)
Definition readComponentObject (useBr : bool) (input : list (inBin D)) (id : nat) (t : yaml) : option (component D) :=
  bindO (optional asText t "type" "fixedWidthBreitWigner"%string) (fun type =>
  bindO (field asText t "name") (fun name =>
  bindO (readKind input type t) (fun k =>
  bindO (all (fun n => readParam t n (freshParam n)) (defaultNames k)) (fun ps =>
  bindO (field asSeq t "decaychannels") (fun ds =>
  bindO (readChannelList input [] ds) (fun chans =>
  construct useBr (length input) id name k ps chans)))))).
(* glue: sequence of two numbers *)
Definition readPair (t : yaml) : option (D * D) :=
  match t with YSeq [a; b] => bindO (asD L a) (fun x => bindO (asD L b) (fun y => Some (x, y))) | _ => None end.
(* resonanceFitReadConfig.cc 1184-1227: couplings of a decay channel *)
Definition readCouplings (id k : nat) (bins : list nat) (t : yaml) (fp : pars D) : option (pars D) :=
  bindO (field asSeq t "couplings") (fun l =>
    if Nat.eqb (length l) (length bins) then
      bindO (all readPair l) (fun xs => Some (fold_left (fun p x => setCoup id k (fst x) (snd x) p) (combine bins xs) fp))
    else None).
(* resonanceFitReadConfig.cc 1180-1276: one decay channel *)
Definition readChannelPars (c : component D) (fp : pars D) (x : nat * ((string * list nat) * yaml)) : option (pars D) :=
  let '(i, (ch, t)) := x in
  bindO (if masterCoup c i then readCouplings (cId c) (nth i (mCoup (cMaps c)) 0) (snd ch) t fp else Some fp) (fun fp1 =>
    if Nat.ltb 1 (nrBranchings c) then
      if masterBr c i then
        bindO (field readPair t "branching") (fun x =>
          let k := nth i (mBr (cMaps c)) 0 in
          Some (setBr (cId c) k (if nth k (mFixed (cMaps c)) false then (numOne L, numZero L) else x) fp1))
      else Some fp1
    else Some (setBr (cId c) 0 (numOne L, numZero L) fp1)).
(* resonanceFitReadConfig.cc 1171-1174 *)
Definition takeParams (id : nat) (val : param D -> D) (ps : list (nat * param D)) (fp : pars D) : pars D :=
  fold_left (fun p x => setPar id (fst x) (val (snd x)) p) ps fp.
(* resonanceFitReadConfig.cc 1153-1281 readModelComponent *)
Definition readComponent (useBr : bool) (input : list (inBin D)) (id : nat) (t : yaml) (fp fe : pars D) : option (component D * pars D * pars D) :=
  bindO (readComponentObject useBr input id t) (fun c =>
  bindO (field asSeq t "decaychannels") (fun ds =>
    let fp1 := takeParams id pStart (indexed (cPars c)) fp in
    let fe1 := takeParams id pError (indexed (cPars c)) fe in
    bindO (foldO (readChannelPars c) (indexed (combine (cChans c) ds)) fp1) (fun fp2 => Some (c, fp2, fe1)))).
(* resonanceFitReadConfig.cc 1307-1333 *)
Fixpoint readComponentList (useBr : bool) (input : list (inBin D)) (before : list (component D)) (l : list yaml) (fp fe : pars D)
    : option (list (component D) * pars D * pars D) :=
  match l with
  | [] => Some (before, fp, fe)
  | t :: r =>
      bindO (readComponent useBr input (length before) t fp fe) (fun x =>
        let '(c, fp1, fe1) := x in
        if existsb (fun b => String.eqb (cName b) (cName c)) before then None
        else readComponentList useBr input (before ++ [c]) r fp1 fe1)
  end.
(* resonanceFitReadConfig.cc 1336-1374 readModelFsmdBin *)
Definition readFsmdBin (t : yaml) : option (string * list (param D)) :=
  match t with
  | YMap _ =>
      bindO (field asText t "formula") (fun f =>
      bindO (all (fun n => readParam t n (freshParam n)) (formulaPars L f)) (fun ps => Some (f, ps)))
  | _ => None
  end.
(* resonanceFitReadConfig.cc 1429-1456: one formula per bin *)
Fixpoint readFsmdBins (id off : nat) (l : list yaml) (fp fe : pars D) : option (list (string * list (param D)) * pars D * pars D) :=
  match l with
  | [] => Some ([], fp, fe)
  | t :: r =>
      bindO (readFsmdBin t) (fun f =>
        let ps := map (fun x => (off + fst x, snd x)) (indexed (snd f)) in
        bindO (readFsmdBins id (off + length (snd f)) r (takeParams id pStart ps fp) (takeParams id pError ps fe)) (fun x =>
          let '(fs, fp1, fe1) := x in Some (f :: fs, fp1, fe1)))
  end.
(* resonanceFitReadConfig.cc 1377-1466 readModelFsmd, fsmd.cc 152-160: as many formulas as bins *)
Definition readFsmd (nrBins id : nat) (t : yaml) (fp fe : pars D) : option (option (fsmd D) * pars D * pars D) :=
  match get t "finalStateMassDependence" with
  | None => Some (None, fp, fe)
  | Some (YMap m) => bindO (readFsmdBins id 0 [YMap m] fp fe) (fun x => let '(fs, fp1, fe1) := x in Some (Some (Fsmd id true fs), fp1, fe1))
  | Some (YSeq l) =>
      bindO (readFsmdBins id 0 l fp fe) (fun x => let '(fs, fp1, fe1) := x in
        if Nat.eqb (length fs) nrBins then Some (Some (Fsmd id false fs), fp1, fe1) else None)
  | Some _ => None
  end.
(* resonanceFitReadConfig.cc 1472-1512 readModel; the parameters are empty before *)
Definition readModel (useBr : bool) (input : list (inBin D)) (root : yaml) : option (fitModel D * pars D * pars D) :=
  bindO (get root "model") (fun t =>
  bindO (readModelAnchors t) (fun an =>
  bindO (field asSeq t "components") (fun cs =>
  bindO (readComponentList useBr input [] cs noPars noPars) (fun x =>
    let '(comps, fp, fe) := x in
    bindO (readFsmd (length input) (length comps) t fp fe) (fun y =>
      let '(f, fp1, fe1) := y in Some (FitModel comps f an, fp1, fe1)))))).
End WithNumbers.
