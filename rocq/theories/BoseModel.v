(* Model of the symmetrisation of the final state: decayAmplitude/isobarDecayTopology.cc
   (getBoseSymmetrization, genBoseSymTermMaps, getAllGroupPermutations), isobarAmplitude.cc
   (initSymTermMaps, amplitude, symTermAmp) and decayTopology.cc (revertMomenta with a permutation).

   Simplifications: double is R, std::complex<double> is C; a final-state particle is its name; the
   debug output is left out; std::next_permutation is given by what it does to the sequence. *)
From Coq Require Import String Ascii List ZArith Bool Reals Lia.
From Coquelicot Require Import Complex.
From Verif Require Import PathModel StrModel CGBoxModel.
Import ListNotations.
Open Scope list_scope. Open Scope nat_scope.

(* std::next_permutation (bits/stl_algo.h): [x] is the pivot if the rest is in descending order; the rest is then
   reversed, i.e. ascending, and the first element greater than the pivot is exchanged with it. Without a
   pivot the whole sequence is reversed. *)
Fixpoint swapGreater (x : nat) (l : list nat) : option (nat * list nat) :=
  match l with
  | [] => None
  | y :: t => if x <? y then Some (y, x :: t) else match swapGreater x t with Some (z, t') => Some (z, y :: t') | None => None end
  end.
(* C++ std::next_permutation on a vector of unsigned int *)
Fixpoint nextPerm (l : list nat) : list nat * bool :=
  match l with
  | [] => ([], false)
  | x :: s =>
      let '(s', more) := nextPerm s in
      if more then (x :: s', true)
      else match swapGreater x s' with Some (y, s'') => (y :: s'', true) | None => (s' ++ [x], false) end
  end.

(* assignment to an element of a vector *)
(* C++ assignment to an element of a vector *)
Fixpoint setNth {A} (i : nat) (v : A) (l : list A) : list A :=
  match l, i with [], _ => [] | _ :: t, 0 => v :: t | x :: t, S j => x :: setNth j v t end.

(* isobarDecayTopology.h 45-62 *)
Record symTerm := ST { stFactor : C; stMap : list nat }.
(* isobarDecayTopology.h 51-59: identity map *)
Definition identityTerm (f : C) (n : nat) : symTerm := ST f (List.seq 0 n).

(* isobarDecayTopology.cc 657-661: indices of the final-state particles by name *)
Definition fsIndices (names : list str) : list (str * list nat) :=
  fold_left (fun m i => let nm := nth i names [] in
    m_set nm ((match m_find nm m with Some l => l | None => [] end) ++ [i]) m) (List.seq 0 (length names)) [].

(* isobarDecayTopology.cc 778-808: permutation map of the current sequences; the two maps have the same keys,
   entries are addressed by their position; the assertion in line 788 fails with [None] *)
Definition buildMap (n : nat) (orig new : list (list nat)) : option (list nat) :=
  foldO (fun e pm =>
    if length (snd e) =? length (fst e) then
      Some (fold_left (fun pm j => setNth (nth j (fst e) 0) (nth j (snd e) 0) pm) (List.seq 0 (length (fst e))) pm)
    else None) (List.combine orig new) (repeat 0 n).

(* do ... while (next_permutation(entry k)); [fuel] bounds the number of passes *)
(* the loop idiom of isobarDecayTopology.cc 764-812 and 889-926 *)
Fixpoint permLoop {S} (fuel : nat) (get : S -> list nat) (put : list nat -> S -> S) (body : S -> option S) (s : S) : option S :=
  match fuel with
  | 0 => None
  | Datatypes.S f =>
      do s1 <- body s;
      let '(l, more) := nextPerm (get s1) in
      if more then permLoop f get put body (put l s1) else Some (put l s1)
  end.

(* isobarDecayTopology.cc 764-812: entry [k], [r] entries behind it; state: current sequences and maps found *)
Definition gstate := (list (list nat) * list (list nat))%type.
(* isobarDecayTopology.cc 764-812 *)
Fixpoint genBose (n : nat) (orig : list (list nat)) (fuel : nat) (r k : nat) (s : gstate) : option gstate :=
  permLoop fuel (fun s => nth k (fst s) []) (fun l s => (setNth k l (fst s), snd s))
    (fun s => match r with
              | 0 => do pm <- buildMap n orig (fst s); Some (fst s, snd s ++ [pm])
              | Datatypes.S r' => genBose n orig fuel r' (k + 1) s
              end) s.

(* decayTopology.cc nmbIndistFsParticles: multiplicities by name = sizes of the index lists *)
Definition prodFact (l : list nat) : R := fold_left (fun a n => (a * INR (fact n))%R) l 1%R.
(* isobarDecayTopology.cc 638-670; without final-state particles the end iterator is dereferenced ([None]) *)
Definition getBoseSymmetrization (names : list str) : option (list symTerm) :=
  let orig := map snd (fsIndices names) in
  let norm := RtoC (1 / sqrt (prodFact (map (@length nat) orig)))%R in
  match orig with
  | [] => None
  | _ :: rest => do s <- genBose (length names) orig (fact (length names)) (length rest) 0 (orig, []); Some (map (ST norm) (snd s))
  end.

(* isobarDecayTopology.cc 889-926: all permutations of all groups; the recursion is on the list
   without its last element, so the groups are given in reverse order *)
Definition collect (fuel : nat) (f : list nat -> list (list (list nat))) (cur : list nat) : option (list (list (list nat))) :=
  do s <- permLoop fuel (fun s => fst s) (fun l s => (l, snd s)) (fun s => Some (fst s, snd s ++ f (fst s))) (cur, []); Some (snd s).
(* std::sort *)
Fixpoint insertN (x : nat) (l : list nat) : list nat :=
  match l with [] => [x] | y :: t => if x <? y then x :: l else y :: insertN x t end.
(* C++ std::sort, isobarDecayTopology.cc 900 *)
Definition sortN (l : list nat) : list nat := fold_right insertN [] l.
(* isobarDecayTopology.cc 889-926 *)
Fixpoint groupPermutations (fuel : nat) (rgroups : list (list nat)) : option (list (list (list nat))) :=
  match rgroups with
  | [] => None (* groupsExt.size() - 1 underflows *)
  | [g] => collect fuel (fun cur => [[cur]]) (sortN g)
  | g :: rest => do sub <- groupPermutations fuel rest; collect fuel (fun cur => map (fun p => p ++ [cur]) sub) (sortN g)
  end.
(* isobarDecayTopology.cc 889-926 *)
Definition getAllGroupPermutations (fuel : nat) (groups : list (list nat)) : option (list (list (list nat))) := groupPermutations fuel (rev groups).

(* isobarAmplitude.cc 297-404; [iso] = result of getIsospinSymmetrization (arbitrary), [None] = not requested *)
Definition composeMaps (iso bose : list nat) : list nat := map (fun i => nth (nth i iso 0) bose 0) (List.seq 0 (length bose)).
(* isobarAmplitude.cc 297-404 *)
Definition initSymTermMaps (names : list str) (iso : option (list symTerm)) (useBose : bool) : option (list symTerm) :=
  let n := length names in
  do isoMaps <- (match iso with
                 | None => Some [identityTerm (RtoC 1) n]
                 | Some [] => None
                 | Some [t] => Some [ST (RtoC 1) (stMap t)]
                 | Some l => if forallb (fun t => length (stMap t) =? n) l then Some l else None
                 end);
  do boseMaps <- (if useBose then
                    do l <- getBoseSymmetrization names; match l with [] => None | _ => Some l end
                  else Some [identityTerm (RtoC 1) n]);
  Some (flat_map (fun i => map (fun b => ST (stFactor i * stFactor b)%C (composeMaps (stMap i) (stMap b))) boseMaps) isoMaps).

(* decayTopology.cc 838-865: momenta of the final-state particles; [None] = false is returned (then the amplitude of
   the term is 0, isobarAmplitude.cc 284-288) *)
Definition revertMomenta {V} (d : V) (cache : list V) (nFs : nat) (pm : list nat) : option (list V) :=
  if (length cache =? nFs) && (length pm =? nFs) then Some (map (fun i => nth (nth i pm 0) cache d) (List.seq 0 nFs)) else None.
(* isobarAmplitude.cc 281-294, 118-132: the two-body amplitudes are an arbitrary function [amp] of the momenta *)
Definition symTermAmp {V} (d : V) (cache : list V) (nFs : nat) (amp : list V -> C) (pm : list nat) : C :=
  match revertMomenta d cache nFs pm with Some momenta => amp momenta | None => RtoC 0 end.
(* isobarAmplitude.cc 118-132, 281-294 *)
Definition amplitude {V} (d : V) (cache : list V) (nFs : nat) (amp : list V -> C) (terms : list symTerm) : C :=
  fold_left (fun a t => (a + stFactor t * symTermAmp d cache nFs amp (stMap t))%C) terms (RtoC 0).
