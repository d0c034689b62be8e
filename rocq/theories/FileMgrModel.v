(* Model of pyInterface/module/_fileManager.py: names of amplitude and integral files, selection of
   event files for a bin, bins taken from the event files.
   Dictionaries with insertion order are association lists. None = a Python exception.
   Events types are the integers of class EventsType (60-66). Not modelled: reading of the directories. *)
From Coq Require Import String Ascii List ZArith Reals Bool.
From Verif Require Import PathModel StrModel DecModel CGBoxModel EventMetaModel BinModel.
Import ListNotations.
Open Scope list_scope. Open Scope nat_scope.

(* _fileManager.py 42-48: class InputFile *)
Record inputFile := IFile { dataFileName : str; fileBounds : bin; fileVars : list str }.
(* _fileManager.py 102-112: attributes of fileManager *)
Record fileManager := FM {
  fmAmpDir : str; fmIntDir : str;
  fmEventFiles : list (Z * list inputFile);
  fmWaves : list str;                               (* keys of keyFiles *)
  fmSpecial : list ((Z * nat * nat) * str);         (* _specialAmplitudeFiles *)
  fmMerged : list (Z * list (str * list str));      (* _mergedAmplitudes *)
  fmBins : list bin }.

(* _fileManager.py 60-66 / eventMetadata.h 23-28: value of the enum *)
Definition GENERATED : Z := 2%Z.
(* _fileManager.py 60-66 / eventMetadata.h 23-28: value of the enum *)
Definition ACCEPTED : Z := 3%Z.

(* glue: Python dict lookup *)
Fixpoint zfind {V} (k : Z) (m : list (Z * V)) : option V :=
  match m with [] => None | (q, v) :: r => if Z.eqb k q then Some v else zfind k r end.
(* glue: Python equality of tuples *)
(* glue: Python equality of 3-tuples *)
Definition key_eqb (a b : Z * nat * nat) : bool :=
  let '(t, i, w) := a in let '(t', i', w') := b in Z.eqb t t' && Nat.eqb i i' && Nat.eqb w w'.
(* glue: Python dict lookup *)
(* glue: Python dict lookup *)
Fixpoint kfind {V} (k : Z * nat * nat) (m : list ((Z * nat * nat) * V)) : option V :=
  match m with [] => None | (q, v) :: r => if key_eqb k q then Some v else kfind k r end.
(* d[k] = v for an ordered dict *)
(* Python collections.OrderedDict assignment, 1 element *)
Fixpoint kset {V} (k : Z * nat * nat) (v : V) (m : list ((Z * nat * nat) * V)) : list ((Z * nat * nat) * V) :=
  match m with [] => [(k, v)] | (q, w) :: r => if key_eqb k q then (q, v) :: r else (q, w) :: kset k v r end.
(* Python collections.OrderedDict assignment, 1 element *)
Fixpoint oset {V} (k : str) (v : V) (m : list (str * V)) : list (str * V) :=
  match m with [] => [(k, v)] | (q, w) :: r => if str_eqb k q then (q, v) :: r else (q, w) :: oset k v r end.
(* list.index *)
(* Python list.index, 1st match *)
Fixpoint index (x : str) (l : list str) : option nat :=
  match l with [] => None | y :: r => if str_eqb x y then Some 0 else do n <- index x r; Some (S n) end.
(* Python list.index with multiBin.__eq__, _binning.py: 1st match *)
Fixpoint binIndex (x : bin) (l : list bin) : option nat :=
  match l with [] => None | y :: r => if binEq y x then Some 0 else do n <- binIndex x r; Some (S n) end.
(* os.path.join of two paths *)
(* Python os.path.join of 2 paths *)
Definition pathJoin (dir name : str) : str :=
  match name with
  | c :: _ => if Ascii.eqb c slash then name
              else match dir with [] => name | _ => if Ascii.eqb (last dir "a"%char) slash then dir ++ name else dir ++ slash :: name end
  | [] => match dir with [] => [] | _ => if Ascii.eqb (last dir "a"%char) slash then dir else dir ++ [slash] end
  end.

(* _fileManager.py 336-338, 344-346: "{waveName}_eventFileId-{eventsId}_{eventsType}.root" *)
Definition ampFileName (base : str) (eventFileId : nat) (eventsType : Z) : str :=
  base ++ lit "_eventFileId-" ++ showInt (Z.of_nat eventFileId) ++ lit "_" ++ showInt eventsType ++ lit ".root".
(* _fileManager.py 326-329 *)
Definition mergedWaves (fm : fileManager) (ty : Z) : list str :=
  match zfind ty (fmMerged fm) with Some tags => flat_map snd tags | None => [] end.
(* _fileManager.py 335-346: the wave name, or the unique tag of a merged wave; None = exception *)
Definition baseName (fm : fileManager) (ty : Z) (wave : str) : option str :=
  if existsb (str_eqb wave) (mergedWaves fm ty) then
    match zfind ty (fmMerged fm) with
    | Some tags => match filter (fun t => existsb (str_eqb wave) (snd t)) tags with [t] => Some (fst t) | _ => None end
    | None => None
    end
  else Some wave.
(* _fileManager.py 333-350: one amplitude file *)
Definition ampPath (fm : fileManager) (ty : Z) (id wi : nat) (wave : str) : option str :=
  match kfind (ty, id, wi) (fmSpecial fm) with
  | Some p => Some p
  | None => do b <- baseName fm ty wave; Some (pathJoin (fmAmpDir fm) (ampFileName b id ty))
  end.
(* glue: no counterpart in /repo, map of a possibly raising function *)
Fixpoint mapO {A B} (f : A -> option B) (l : list A) : option (list B) :=
  match l with [] => Some [] | x :: r => do y <- f x; do ys <- mapO f r; Some (y :: ys) end.
(* _fileManager.py 306-352: _getAmplitudeFilePaths; ids = None: all event files *)
Definition getAmplitudeFilePaths (fm : fileManager) (types : list Z) (waveNames : list str) (ids : option (list (Z * list nat)))
  : option (list ((Z * nat * nat) * str)) :=
  match fmEventFiles fm with
  | [] => Some []
  | _ =>
    do waves <- mapO (fun w => do i <- index w (fmWaves fm); Some (i, w)) waveNames;
    foldO (fun ty acc =>
      do out <- (match ids with
                 | None => do fs <- zfind ty (fmEventFiles fm); Some (List.seq 0 (length fs))
                 | Some d => zfind ty d
                 end);
      foldO (fun id acc => foldO (fun '(wi, w) acc => do p <- ampPath fm ty id wi w; Some (kset (ty, id, wi) p acc)) waves acc) out acc) types []
  end.
(* _fileManager.py 267-274: the test of one event file *)
Definition fileOverlaps (mb : bin) (f : inputFile) : bool :=
  forallb (fun '(v, (lo, hi)) => match m_find v mb with
                                 | Some (l, h) => negb (Rltb hi l || Rltb h lo)
                                 | None => true
                                 end) (fileBounds f).
(* _fileManager.py 257-277: _getEventFileIdsForIntegralBin *)
Definition getEventFileIds (fm : fileManager) (mb : bin) (ty : Z) : list nat :=
  match zfind ty (fmEventFiles fm) with
  | None => []
  | Some fs => filter (fun i => match nth_error fs i with Some f => fileOverlaps mb f | None => false end) (List.seq 0 (length fs))
  end.
(* _fileManager.py 235-249: getEventAndAmplitudeFilePathsInBin *)
Definition filesInBin (fm : fileManager) (mb : bin) (ty : Z) : option (list (str * list (str * str))) :=
  match getEventFileIds fm mb ty with
  | [] => Some []
  | ids =>
    do amps <- getAmplitudeFilePaths fm [ty] (fmWaves fm) (Some [(ty, ids)]);
    foldO (fun id acc =>
      do fs <- zfind ty (fmEventFiles fm);
      do f <- nth_error fs id;
      do l <- foldO (fun '(wi, w) acc => do p <- kfind (ty, id, wi) amps; Some (oset w p acc)) (List.combine (List.seq 0 (length (fmWaves fm))) (fmWaves fm)) [];
      Some (oset (dataFileName f) l acc)) ids []
  end.
(* _fileManager.py 187-202: getEventAndAmplitudePairPathsForWave; unknown types and waves give an empty list *)
Definition pairsForWave (fm : fileManager) (ty : Z) (wave : str) : option (list (str * str)) :=
  match zfind ty (fmEventFiles fm), index wave (fmWaves fm) with
  | Some fs, Some wi =>
      do amps <- getAmplitudeFilePaths fm [ty] [wave] None;
      mapO (fun '(id, f) => do p <- kfind (ty, id, wi) amps; Some (dataFileName f, p)) (List.combine (List.seq 0 (length fs)) fs)
  | _, _ => Some []
  end.
(* _fileManager.py 359: name of an integral file *)
Definition integralPath (dir : str) (binID : nat) (ty : Z) : str :=
  dir ++ lit "/integral_binID-" ++ showInt (Z.of_nat binID) ++ lit "_" ++ showInt ty ++ lit ".root".
(* _fileManager.py 252-254, 355-360: getIntegralFilePath; ValueError for an unknown bin, KeyError for another events type *)
Definition getIntegralFilePath (fm : fileManager) (mb : bin) (ty : Z) : option str :=
  do i <- binIndex mb (fmBins fm);
  if Z.eqb ty GENERATED || Z.eqb ty ACCEPTED then Some (integralPath (fmIntDir fm) i ty) else None.
(* _fileManager.py 144-163: without a binning in the configuration the bins are those of the event files;
   None = a file has invalid boundaries (initialize returns False). The warnings about overlaps are not modelled *)
Definition addBin (f : inputFile) (l : list bin) : option (list bin) :=
  do b <- multiBin (fileBounds f);
  Some (if existsb (fun c => binEq b c) l then l else l ++ [b]).
(* _fileManager.py 144-163 *)
Definition binsOfFiles (files : list inputFile) : option (list bin) := foldO addBin files [].
(* _fileManager.py 136-171: the list of bins; for bins from the configuration the event files must have the variables
   of the first bin. None = initialize returns False *)
Definition binList (config : list bin) (files : list (Z * list inputFile)) : option (list bin) :=
  match files with
  | [] => None
  | _ =>
    match sortBins config with
    | [] => binsOfFiles (flat_map snd files)
    | b0 :: r => if forallb (fun f => forallb (fun v => existsb (str_eqb v) (fileVars f)) (variables b0)) (flat_map snd files) then Some (b0 :: r) else None
    end
  end.
