(* Model of resonanceFit/minimizerRoot.cc (C91): the variables of the minimizer and the steps of the minimisation, with the
   search for the anchor waves of resonanceFit/model.cc. Components, final-state mass dependence, parameters and their import
   are those of ResCacheModel. Simplifications: double is R, numbers of calls are nat, unsigned int has 32 bits where it can be
   negative; the minimizer of ROOT and chi-square are arbitrary functions; the cache, which does not change parameters (C65), is
   a new one for each import; throw without an exception and accesses outside of vectors are None; messages are left out. *)
From Coq Require Import String Ascii List ZArith Bool Reals.
From Coquelicot Require Import Complex.
From Verif Require Import PathModel StrModel DecModel CGBoxModel ParticleModel AmpIntModel ResCacheModel.
Import ListNotations.
Open Scope list_scope. Open Scope nat_scope.

(* parameter.h 43-91: name, fixed, limits if there are any, step *)
Record minPar := MinPar { mpName : str; mpFixed : bool; mpLow : option R; mpUp : option R; mpStep : R }.
(* components.h 87-174: what ResCacheModel.component leaves out: name, parameters, decay channel of each branching *)
Record minComp := MinComp { mcName : str; mcPars : list minPar; mcFromBran : list nat }.
(* model.h 45-110: parameters of the final-state mass dependence for each bin, name of the anchor wave and its component for
   each bin; cache.cc 32-41: a new cache *)
Record fitModel := FitModel { fmModel : model; fmComps : list minComp; fmFsmd : list (list minPar); fmAnchors : list (str * str); fmCache : rcache }.

(* model.cc 190-227: waves of a bin that are the anchor wave, in a component that is the anchor component *)
Definition anchorMatches (f : fitModel) (b : nat) : list (nat * nat * nat) :=
  let anc := nth b (fmAnchors f) ([], []) in
  flat_map (fun w => let n := nth w (nth b (mWaves (fmModel f)) []) [] in
    flat_map (fun i => match nth_error (mComps (fmModel f)) i, nth_error (fmComps f) i with
      | Some o, Some mc =>
          flat_map (fun ch => match nth_error (oChans o) ch with
            | Some chan => if str_eqb (chName chan) n && str_eqb (fst anc) n && str_eqb (snd anc) (mcName mc) then [(w, i, ch)] else []
            | None => [] end) (upTo (length (oChans o)))
      | _, _ => [] end) (upTo (length (mComps (fmModel f))))) (upTo (length (nth b (mWaves (fmModel f)) []))).
(* model.cc 239-248 *)
Definition firstChannel (o : component) (b : nat) : nat :=
  match find (fun ch => match nth_error (oChans o) ch with Some chan => existsb (Nat.eqb b) (getBins chan) | None => false end) (upTo (length (oChans o))) with
  | Some ch => ch | None => 0 end.
(* model.cc 205-253: wave, component and channel; None: the model is not accepted *)
Definition anchorOf (f : fitModel) (b : nat) : option (nat * nat * nat) :=
  match anchorMatches f b with
  | [(w, i, ch)] => match nth_error (mComps (fmModel f)) i with Some o => if ch =? firstChannel o b then Some (w, i, ch) else None | None => None end
  | _ => None
  end.
(* model.h 80 *)
Definition isAnchor (f : fitModel) (b : nat) (w : option nat) (i : nat) : bool :=
  match anchorOf f b, w with Some (w', i', _), Some w => (w' =? w) && (i' =? i) | _, _ => false end.

(* minimizerRoot.cc 322-365, 451-488: SetFixedVariable, SetVariable, SetLowerLimitedVariable, SetUpperLimitedVariable, SetLimitedVariable *)
Inductive setting := Fixed | Free (step : R) (low up : option R).
(* minimizerRoot.cc 322-365: a variable of the minimizer *)
Record var := Var { vName : str; vStart : R; vSet : setting }.
(* minimizerRoot.cc 345-349: parcount and the variables of the minimizer; the index has to be the next one *)
Definition put (v : var) (s : nat * list var) : option (nat * list var) :=
  if fst s =? length (snd s) then Some (S (fst s), snd s ++ [v]) else None.

(* minimizerRoot.cc 276: the separators *)
Definition isBlank (c : ascii) : bool := Ascii.eqb c " " || Ascii.eqb c "009" || Ascii.eqb c "010".
(* minimizerRoot.cc 276-277: boost::tokenizer, without empty tokens *)
Fixpoint wordsFrom (cur s : str) : list str :=
  match s with
  | [] => match cur with [] => [] | _ => [cur] end
  | c :: r => if isBlank c then match cur with [] => wordsFrom [] r | _ => cur :: wordsFrom [] r end else wordsFrom (cur ++ [c]) r
  end.
(* minimizerRoot.cc 313: find(tokenizeFreeParameters.begin(), tokenizeFreeParameters.end(), ...) *)
Definition has (rel t : str) : bool := existsb (str_eqb t) (wordsFrom [] rel).
(* minimizerRoot.cc 306, 380: substr(0, find("=")) *)
Fixpoint beforeEq (s : str) : str := match s with [] => [] | c :: r => if Ascii.eqb c "=" then [] else c :: beforeEq r end.
(* glue: the part after the first "=", if there is one *)
Fixpoint afterEqO (s : str) : option str := match s with [] => None | c :: r => if Ascii.eqb c "=" then Some r else afterEqO r end.
(* minimizerRoot.cc 381: substr(find("=")+1); npos + 1 is 0 *)
Definition afterEq (s : str) : str := match afterEqO s with Some r => r | None => s end.
(* minimizerRoot.cc 298-299: operator << for size_t *)
Definition dec (n : nat) : str := showNN (Z.of_nat n).

(* minimizerRoot.cc 297-310 *)
Definition coupName (o : component) (mc : minComp) (chan : channel) (b : nat) : str :=
  lit "coupling__bin" ++ dec b ++ lit "__" ++ mcName mc ++ lit "__" ++ (if 1 <? length (oFixed o) then beforeEq (chName chan) else chName chan).
(* minimizerRoot.cc 312-319 *)
Definition coupFree (rel : str) (o : component) (mc : minComp) (chan : channel) (b : nat) : bool :=
  has rel (lit "*") || has rel (lit "coupling") || has rel (lit "coupling__bin" ++ dec b) || has rel (coupName o mc chan b).
(* minimizerRoot.cc 295-366 *)
Definition initCouplingBin (f : fitModel) (P : params) (rel : str) (i k : nat) (o : component) (mc : minComp) (chan : channel) (b : nat)
    (s : nat * list var) : option (nat * list var) :=
  let p := pCoup P i k b in
  let set := if coupFree rel o mc chan b then Free (1 / 10) None None else Fixed in
  do s1 <- put (Var (coupName o mc chan b ++ lit "__real") (fst p) set) s;
  if isAnchor f b (waveIdx chan b) i then put (Var (coupName o mc chan b ++ lit "__imag") 0%R Fixed) s1
  else put (Var (coupName o mc chan b ++ lit "__imag") (snd p) set) s1.
(* minimizerRoot.cc 290-368, for one component *)
Definition initCouplings (f : fitModel) (P : params) (rel : str) (i : nat) (s : nat * list var) : option (nat * list var) :=
  match nth_error (mComps (fmModel f)) i, nth_error (fmComps f) i with
  | Some o, Some mc =>
      foldO (fun k s => match nth_error (oFromCoup o) k with
        | Some ms => match nth_error (oChans o) ms with
            | Some chan => foldO (initCouplingBin f P rel i k o mc chan) (getBins chan) s
            | None => None end
        | None => None end) (upTo (length (oFromCoup o))) s
  | _, _ => None
  end.
(* minimizerRoot.cc 379-388 *)
Definition branName (mc : minComp) (chan : channel) : str :=
  lit "branching__" ++ mcName mc ++ lit "__" ++ beforeEq (chName chan) ++ lit "__" ++ afterEq (chName chan).
(* minimizerRoot.cc 390-396 *)
Definition branFree (rel : str) (mc : minComp) (chan : channel) : bool :=
  has rel (lit "*") || has rel (lit "branching") || has rel (branName mc chan).
(* minimizerRoot.cc 371-428, for one component *)
Definition initBranchings (f : fitModel) (P : params) (rel : str) (i : nat) (s : nat * list var) : option (nat * list var) :=
  match nth_error (mComps (fmModel f)) i, nth_error (fmComps f) i with
  | Some o, Some mc =>
      foldO (fun k s => if nth k (oFixed o) true then Some s else
        match nth_error (mcFromBran mc) k with
        | Some ms => match nth_error (oChans o) ms with
            | Some chan =>
                let set := if branFree rel mc chan then Free (1 / 10) None None else Fixed in
                do s1 <- put (Var (branName mc chan ++ lit "__real") (fst (pBran P i k)) set) s;
                put (Var (branName mc chan ++ lit "__imag") (snd (pBran P i k)) set) s1
            | None => None end
        | None => None end) (upTo (length (oFixed o))) s
  | _, _ => None
  end.
(* minimizerRoot.cc 451-488, 510-547 *)
Definition parSetting (fix_ : bool) (p : minPar) : setting :=
  if fix_ then Fixed else
  match mpLow p, mpUp p with
  | Some l, Some u => Free (mpStep p) (Some l) (Some u)
  | Some l, None => Free (mpStep p) (Some l) None
  | None, Some u => Free (mpStep p) None (Some u)
  | None, None => Free (mpStep p) None None
  end.
(* minimizerRoot.cc 435 *)
Definition parName (mc : minComp) (p : minPar) : str := mcName mc ++ lit "__" ++ mpName p.
(* minimizerRoot.cc 437-447 *)
Definition parFree (rel : str) (mc : minComp) (p : minPar) : bool :=
  has rel (lit "*") || has rel (mcName mc) || has rel (mpName p) || has rel (parName mc p).
(* minimizerRoot.cc 431-491, for one component *)
Definition initPars (f : fitModel) (P : params) (rel : str) (i : nat) (s : nat * list var) : option (nat * list var) :=
  match nth_error (mComps (fmModel f)) i, nth_error (fmComps f) i with
  | Some o, Some mc =>
      foldO (fun k s => match nth_error (mcPars mc) k with
        | Some p => put (Var (parName mc p) (pPar P i k) (parSetting (if mpFixed p then true else negb (parFree rel mc p)) p)) s
        | None => None end) (upTo (oNPar o)) s
  | _, _ => None
  end.
(* minimizerRoot.cc 501-504 *)
Definition fsmdName (b : nat) (p : minPar) : str := lit "fsmd__bin" ++ dec b ++ lit "__" ++ mpName p.
(* minimizerRoot.cc 494-551 *)
Definition initFsmd (f : fitModel) (P : params) (s : nat * list var) : option (nat * list var) :=
  match mFsmd (fmModel f) with
  | None => Some s
  | Some d =>
      foldO (fun b s => foldO (fun k s => match nth_error (nth b (fmFsmd f) []) k with
        | Some p => put (Var (fsmdName b p) (pPar P (length (mComps (fmModel f))) (nth b (fIndex d) 0 + k)) (parSetting (mpFixed p) p)) s
        | None => None end) (upTo (nth b (fNPar d) 0)) s) (upTo (if fSame d then 1 else length (fFun d))) s
  end.
(* minimizerRoot.cc 271-554 *)
Definition initParameters (f : fitModel) (P : params) (rel : str) : option (list var) :=
  let comps := upTo (length (mComps (fmModel f))) in
  do s1 <- foldO (initCouplings f P rel) comps (0, []);
  do s2 <- foldO (initBranchings f P rel) comps s1;
  do s3 <- foldO (initPars f P rel) comps s2;
  do s4 <- initFsmd f P s3;
  Some (snd s4).

(* model.cc 70-104 *)
Definition nrParameters (f : fitModel) : nat :=
  fold_left (fun n o => n + oNPar o
      + fold_left (fun n ms => n + 2 * match nth_error (oChans o) ms with Some chan => length (getBins chan) | None => 0 end) (oFromCoup o) 0
      + fold_left (fun n fx => if (fx : bool) then n else n + 2) (oFixed o) 0) (mComps (fmModel f)) 0
  + match mFsmd (fmModel f) with
    | None => 0
    | Some d => fold_left (fun n b => n + nth b (fNPar d) 0) (upTo (if fSame d then 1 else length (fFun d))) 0
    end.

(* ---------------- minimize ---------------- *)
(* minimizerRoot.cc 148-179: what is asked of the minimizer: the number of calls allowed, and Minimize with new variables or
   Hesse (None) *)
Definition request : Type := nat * option (list var).
(* library, minimizerRoot.cc 168-188, 214-242: the minimizer after Minimize or Hesse: values, errors, covariance matrix, number of calls, status *)
Record outcome := Outcome { oX : nat -> R; oErr : nat -> R; oCov : nat -> nat -> R; oCalls : nat; oStatus : Z; oCovStatus : Z }.
(* minimizerRoot.cc 236-267; edm is left out *)
Record quality := Quality { qMin : Z; qHesse : option Z; qCov : option Z; qContinue : bool; qChi2 : R; qNdf : R; qRedChi2 : option R }.
(* minimizerRoot.cc 124-143: the variables of the function; requests so far, last variables *)
Record mst := MSt { msRel : list str; msRemoved : nat; msBudget : nat; msPar : params; msErr : params; msCov : option (nat -> nat -> R);
  msReqs : list request; msVars : list var; msStop : bool }.

(* minimizerRoot.cc 133-139 *)
Definition defaultOrder : list str := [lit "coupling branching"; lit "coupling branching mass m0"; lit "*"; lit "hesse"].
(* model.cc 286-314 *)
Definition importPars (f : fitModel) (par : nat -> R) (P : params) : option params := do r <- importAll (fmModel f) par (P, fmCache f); Some (fst r).
(* minimizerRoot.cc 193-196; [k] = step - removedSteps *)
Fixpoint dropDone (k : nat) (rel : list str) (removed : nat) : option (list str * nat) :=
  match k with
  | 0 => Some (rel, removed)
  | S k' => match nth_error rel (S k') with
      | Some t => if str_eqb t (lit "hesse") then Some (rel, removed) else dropDone k' (tl rel) (S removed)
      | None => None end
  end.
(* minimizerRoot.cc 146-209: one step; [run] = the minimizer, which knows all requests *)
Definition minStep (f : fitModel) (run : list request -> outcome) (step : nat) (s : mst) : option mst :=
  match nth_error (msRel s) (step - msRemoved s) with
  | None => None
  | Some order =>
      do rv <- (if str_eqb order (lit "hesse") then if step =? 0 then None else Some (None, msVars s)
                else do vs <- initParameters f (msPar s) order; Some (Some vs, vs));
      let reqs := msReqs s ++ [(msBudget s, fst rv)] in
      let out := run reqs in
      do e <- importPars f (oErr out) (msErr s);
      do p <- importPars f (oX out) (msPar s);
      do d <- dropDone (step - msRemoved s) (msRel s) (msRemoved s);
      if msBudget s <=? oCalls out
      then Some (MSt (fst d) (snd d) 0 p e None reqs (snd rv) true)
      else Some (MSt (fst d) (snd d) (msBudget s - oCalls out) p e (Some (oCov out)) reqs (snd rv) false)
  end.
(* minimizerRoot.cc 146-209 *)
Fixpoint minSteps (f : fitModel) (run : list request -> outcome) (todo step : nat) (s : mst) : option mst :=
  match todo with
  | 0 => Some s
  | S t => do s' <- minStep f run step s; if msStop s' then Some s' else minSteps f run t (S step) s'
  end.
(* library: number of variables that are not fixed, minimizerRoot.cc 259 *)
Definition nFreeVars (vs : list var) : nat := length (filter (fun v => match vSet v with Fixed => false | _ => true end) vs).
(* minimizerRoot.cc 236-267; the difference of two unsigned int in line 259 *)
Definition fitQuality (s : mst) (out : outcome) (chi2 : (nat -> R) -> R) (nPoint : nat) : quality :=
  let ndf := IZR ((Z.of_nat nPoint - Z.of_nat (nFreeVars (msVars s))) mod 2 ^ 32) in
  let hesse := str_eqb (last (msRel s) []) (lit "hesse") && negb (msBudget s =? 0) in
  Quality (Z.rem (oStatus out) 10) (if hesse then Some (Z.quot (oStatus out) 100) else None) (if hesse then Some (oCovStatus out) else None)
    (msBudget s =? 0) (chi2 (oX out)) ndf (if Req_EM_T ndf 0 then None else Some (chi2 (oX out) / ndf)%R).
(* minimizerRoot.cc 124-268; [maxCalls] = _maxNmbOfFunctionCalls *)
Definition minimize (f : fitModel) (run : list request -> outcome) (chi2 : (nat -> R) -> R) (nPoint maxCalls : nat) (rel : list str) (P E : params)
    : option (mst * quality) :=
  let orders := match rel with [] => defaultOrder | _ => rel end in
  do s <- minSteps f run (length orders) 0 (MSt orders 0 maxCalls P E None [] [] false);
  Some (s, fitQuality s (run (msReqs s)) chi2 nPoint).
