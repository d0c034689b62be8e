(* Model of storageFormats/eventMetadata.{h,cc}: merging of event files, hashing, comparison,
   and the check whether an event is in a kinematic bin *)
From Coq Require Import String Ascii List ZArith Reals Bool.
From Verif Require Import PathModel StrModel CGBoxModel.
Import ListNotations.
Open Scope list_scope. Open Scope nat_scope.

(* eventMetadata.h 21-28 *)
Inductive eventsType := OTHER | REAL | GENERATED | ACCEPTED.
(* C++ operator == of the enum eventMetadata.h 21-28 *)
Definition eventsType_eqb (a b : eventsType) : bool :=
  match a, b with OTHER, OTHER | REAL, REAL | GENERATED, GENERATED | ACCEPTED, ACCEPTED => true | _, _ => false end.
(* a TVector3 *)
Definition vec3 : Type := R * R * R.
(* one entry of the event tree: the momenta of the two TClonesArrays and the double branches *)
Record event := Ev { evProd : list vec3; evDecay : list vec3; evVar : str -> R }.
(* the event tree: whether it has the two branches of momenta, its double branches, its entries *)
(* representation of the TTree of eventMetadata.cc 115-156 *)
Record tree := Tr { trProd : bool; trDecay : bool; trBranch : list str; trEvents : list event }.
(* eventMetadata.h 103-118: the members; floating-point numbers that are not numbers are not modelled *)
Record evtFile := EF { efAux : str; efHash : str; efType : eventsType; efProd : list str; efDecay : list str; efBins : smap (R * R);
                       efVars : list str; efAuxVals : smap R; efTree : option tree }.
(* eventMetadata.cc 22-30: constructor *)
Definition emptyMeta : evtFile := EF [] [] OTHER [] [] [] [] [] None.

(* hashCalculator.cc: every Update feeds the double precision numbers to MD5; the state is the
   list of numbers fed, hash() applies the digest, a parameter of the functions below *)
Definition vecNumbers (v : vec3) : list R := let '(x, y, z) := v in [x; y; z].
(* eventMetadata.cc 145-154, 267-275: what one event contributes *)
Definition eventNumbers (vars : list str) (e : event) : list R :=
  flat_map vecNumbers (evProd e) ++ flat_map vecNumbers (evDecay e) ++ map (evVar e) vars.
(* eventMetadata.cc 131-137: all branches found *)
Definition hasAll (vars : list str) (t : tree) : bool := forallb (fun v => existsb (str_eqb v) (trBranch t)) vars.
(* eventMetadata.cc 115-156: updateHashor: the numbers fed to the hash, None if it fails *)
Definition updateHashor (m : evtFile) (h : list R) : option (list R) :=
  match efTree m with
  | None => None
  | Some t => if trProd t && trDecay t && hasAll (efVars m) t then Some (h ++ flat_map (eventNumbers (efVars m)) (trEvents t)) else None
  end.
(* eventMetadata.cc 159-166: recalculateHash *)
Definition recalculateHash (digest : list R -> str) (m : evtFile) : str := match updateHashor m [] with Some h => digest h | None => [] end.

(* eventMetadata.cc 70-91: operator == *)
Definition decRb (x y : R) : bool := if Req_EM_T x y then true else false.
(* C++ std::map operator ==, used in eventMetadata.cc 70-91 *)
Definition bins_eqb (a b : smap (R * R)) : bool :=
  (length a =? length b) && forallb (fun '((k, (l, u)), (k', (l', u'))) => str_eqb k k' && decRb l l' && decRb u u') (List.combine a b).
(* eventMetadata.cc 70-91 *)
Definition meta_eqb (a b : evtFile) : bool :=
  str_eqb (efHash a) (efHash b) && eventsType_eqb (efType a) (efType b) && list_eqb (efProd a) (efProd b) && list_eqb (efDecay a) (efDecay b)
  && bins_eqb (efBins a) (efBins b) && list_eqb (efVars a) (efVars b).

(* eventMetadata.cc 94-104: appendToAuxString with the delimiter ", " *)
Definition appendAux (cur add : str) : str := match cur with [] => add | _ => cur ++ lit ", "%string ++ add end.

(* eventMetadata.cc 236-252: hull with the boundaries of the next file; None = variable missing.
   The loop runs over the map it modifies, but changes only the element it stands at *)
Fixpoint hull (merged new : smap (R * R)) : option (smap (R * R)) :=
  match merged with
  | [] => Some []
  | (k, (lo, hi)) :: r =>
      match m_find k new with
      | None => None
      | Some (lo', hi') =>
          do r' <- hull r new;
          Some ((k, (if Rlt_dec lo' lo then lo' else lo, if Rlt_dec hi hi' then hi' else hi)) :: r')
      end
  end.
(* eventMetadata.cc 283-295: None = the value differs *)
Definition mergeAux (cur : smap R) (new : smap R) : option (smap R) :=
  foldO (fun '(k, v) acc => match m_find k acc with
                            | None => Some (m_set k v acc)
                            | Some w => if Req_EM_T w v then Some acc else None
                            end) new cur.

(* the locals of merge: the result under construction, first, mergedMultibinBoundaries, the numbers
   fed to the hash, the tree filled so far *)
(* the local variables of eventMetadata.cc 190-300 (merge) *)
Record mstate := MS { msM : evtFile; msFirst : bool; msBins : smap (R * R); msHash : list R; msTree : list event }.
(* what Fill stores: the momenta and the variables of the first file; the other branches of the
   merged tree do not exist, evVar is 0 there *)
Definition project (vars : list str) (e : event) : event :=
  Ev (evProd e) (evDecay e) (fun v => if existsb (str_eqb v) vars then evVar e v else 0%R).
(* eventMetadata.cc 204-296: one input file *)
Definition mergeStep (mergeBins mergeAuxString mergeAuxValues : bool) (f : evtFile) (s : mstate) : option mstate :=
  match efTree f with
  | None => None
  | Some t =>
    let m := msM s in
    let '(m, bins) :=
      if msFirst s then
        (EF (efAux m) (efHash m) (efType m) (efProd f) (efDecay f) (if mergeBins then efBins m else efBins f) (efVars f) (efAuxVals m) (efTree m),
         if mergeBins then efBins f else msBins s)
      else (m, msBins s) in
    let aux := if mergeAuxString then appendAux (efAux m) (efAux f) else efAux m in
    if negb (list_eqb (efProd m) (efProd f)) then None else
    if negb (list_eqb (efDecay m) (efDecay f)) then None else
    do bins <- (if mergeBins then hull bins (efBins f) else if bins_eqb (efBins m) (efBins f) then Some bins else None);
    if negb (trProd t && trDecay t && hasAll (efVars m) t) then None else
    let h := msHash s ++ flat_map (eventNumbers (efVars m)) (trEvents t) in
    let evs := msTree s ++ map (project (efVars m)) (trEvents t) in
    do av <- (if mergeAuxValues then mergeAux (efAuxVals m) (efAuxVals f) else Some (efAuxVals m));
    Some (MS (EF aux (efHash m) (efType m) (efProd m) (efDecay m) (efBins m) (efVars m) av (efTree m)) false bins h evs)
  end.
(* eventMetadata.cc 175-308: merge; None = null pointer returned. Null pointers in the input are not modelled *)
Definition merge (digest : list R -> str) (mergeBins mergeAuxString mergeAuxValues : bool) (fs : list evtFile) : option evtFile :=
  match fs with
  | [] => None
  | _ =>
    do s <- foldO (mergeStep mergeBins mergeAuxString mergeAuxValues) fs (MS emptyMeta true [] [] []);
    let m := msM s in
    Some (EF (efAux m) (digest (msHash s)) (efType m) (efProd m) (efDecay m) (if mergeBins then msBins s else efBins m) (efVars m) (efAuxVals m)
             (Some (Tr true true (efVars m) (msTree s))))
  end.

(* ---- additionalTreeVariables ---- *)
(* eventMetadata.cc 378-398: inBoundaries; vars is the map of the connected variables *)
Definition inBoundaries (vars : smap R) (bounds : smap (R * R)) : bool :=
  forallb (fun '(k, (lo, hi)) => match m_find k vars with
                                 | Some x => if Rlt_dec x lo then false else if Rle_dec hi x then false else true
                                 | None => false
                                 end) bounds.
