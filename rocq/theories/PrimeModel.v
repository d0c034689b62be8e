(** Model of the prime-number cache used by the relativistic amplitude corrections.
    /repo/relativisticAmpCorrections/primeNumbers.cc and generatePrimeNumberCache.cc *)
From Coq Require Import ZArith List Bool Lia.
Import ListNotations.
Open Scope Z_scope.

(** [for (entryType i = lo; i <= hi; ++i)] as the list of the values of i.  primeNumbers.cc:133 *)
Definition upto (lo hi : Z) : list Z :=
  map (fun k => lo + Z.of_nat k) (seq 0 (Z.to_nat (hi - lo + 1))).

(** primeNumbers.cc:127-139 isPrimeNumber.
    Simplification: (entryType)sqrt((double)number) is the exact integer square root
    (true for numbers below 2^52); entryType is unbounded. *)
Definition isPrimeNumber (number : Z) : bool :=
  if number =? 2 then true
  else
    let maxCandidate := Z.sqrt number in
    forallb (fun i => negb (number mod i =? 0)) (upto 2 (Z.max maxCandidate 2)).

(** The common search loop of the emergency cache (primeNumbers.cc:29-35) and of the cache generator
    (generatePrimeNumberCache.cc:63-70):
      while(found < size) { if(isPrimeNumber(entry)) {store; ++found;} entry += 2; }
    [fuel] bounds the number of iterations; None = not finished within the fuel. *)
Fixpoint searchLoop (fuel : nat) (size : nat) (entry : Z) (found : list Z) : option (list Z) :=
  match fuel with
  | O => None
  | S fuel' =>
      if (length found <? size)%nat then
        searchLoop fuel' size (entry + 2)
                   (if isPrimeNumber entry then found ++ [entry] else found)
      else Some found
  end.

(** generatePrimeNumberCache.cc:56-74: entry 2 is always written, then odd candidates from 3 on.
    Simplification: progress display, TFile and TTree are dropped; the tree is the list of its entries. *)
Definition generateCache (fuel : nat) (cacheSize : nat) : option (list Z) :=
  searchLoop fuel cacheSize 3 [2].

(** primeNumbers.cc:17-18: the block size and the emergency cache size. *)
Definition blockSize : nat := Z.to_nat 100000.
(* primeNumbers.cc:18 *)
Definition emergencyCacheSize : nat := 10.

(** A cache tree: its entries, and whether SetBranchAddress succeeds (branch present with the right type). *)
(* representation of the TTree of primeNumbers.cc:82-118 *)
Record tree := Tree { entries : list Z; branchOk : bool }.

(** What TFile::Open / GetObject find under a file name: None = cannot be opened,
    Some None = opened, but no tree in it. *)
(* representation of a TFile, primeNumbers.cc:82-118 *)
Definition fileContent := option (option tree).

(** primeNumbers.h: _cacheFile (present or not), _cacheTree, _primeNumberCache. _treeEntry is 0 until
    a successful GetEntry; it is only read right after GetEntry. *)
Record pstate := PState { cacheFile : bool; cacheTree : option tree; cache : list Z }.

(** primeNumbers.cc:21-36 constructor. *)
Definition emergencyCache (fuel : nat) : option (list Z) := searchLoop fuel emergencyCacheSize 3 [2].

(** GetEntry(i) followed by reading _treeEntry: the branch value if the branch address is set,
    the initial 0 of _treeEntry otherwise.  primeNumbers.cc:69-73, 109-113.
    Simplification: GetEntry does not fail for an existing entry. *)
Definition getEntry (t : tree) (i : nat) : Z :=
  if branchOk t then nth i (entries t) 0 else 0.

(** primeNumbers.cc:81-117 readCacheFile: (new state, return value). *)
Definition readCacheFile (bs : nat) (f : fileContent) (s : pstate) : pstate * bool :=
  if cacheFile s || (match cacheTree s with Some _ => true | None => false end)
     || negb (length (cache s) =? emergencyCacheSize)%nat
  then (s, false)
  else match f with
       | None => (s, false)
       | Some None => (PState true None (cache s), false)
       | Some (Some t) =>
           if (length (entries t) =? 0)%nat then (PState true (Some t) (cache s), false)
           else if negb (branchOk t) then (PState true (Some t) (cache s), false)
           else
             let n := Nat.min bs (length (entries t)) in
             (PState true (Some t) (map (getEntry t) (seq 0 n)), true)
       end.

(** primeNumbers.cc:51-78 primeNumber: (new state, Some value) or None = abort.
    Simplification: (size_t)((double)index/(double)_blockSize) is exact integer division. *)
Definition primeNumber (bs : nat) (index : nat) (s : pstate) : option (pstate * Z) :=
  let initialSize := length (cache s) in
  if (initialSize <=? index)%nat then
    match cacheTree s with
    | None => None
    | Some t =>
        let nEntries := length (entries t) in
        let toRead := ((index / bs + 1) * bs)%nat in
        if (nEntries <=? toRead)%nat then
          if (nEntries <=? index)%nat then None
          else
            let c := cache s ++ map (getEntry t) (seq initialSize (nEntries - initialSize)) in
            Some (PState (cacheFile s) (cacheTree s) c, nth index c 0)
        else
          let c := cache s ++ map (getEntry t) (seq initialSize (toRead - initialSize)) in
          Some (PState (cacheFile s) (cacheTree s) c, nth index c 0)
    end
  else Some (s, nth index (cache s) 0).

(** Histories of calls on the singleton (primeNumbers.cc:42-48). *)
Inductive pcall :=
| CallRead (f : fileContent)
| CallPrime (index : nat).

(* primeNumbers.cc:51-118: value, true/false or throw of a call *)
Inductive presult :=
| RRead (ok : bool)
| RPrime (index : nat) (value : Z)
| RAbort (index : nat).

(** After an abort the process is gone: no further results. *)
(* histories of calls on the singleton primeNumbers.cc:42-48 *)
Fixpoint runCalls (bs : nat) (l : list pcall) (s : pstate) : list presult :=
  match l with
  | [] => []
  | CallRead f :: l' =>
      let '(s', ok) := readCacheFile bs f s in RRead ok :: runCalls bs l' s'
  | CallPrime i :: l' =>
      match primeNumber bs i s with
      | None => [RAbort i]
      | Some (s', v) => RPrime i v :: runCalls bs l' s'
      end
  end.
