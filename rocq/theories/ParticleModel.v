(* Model of particleData/particleProperties.{h,cc} and particleData/particleDataTable.cc.

   Simplifications: int is Z, double is R; a std::string is a list of characters;
   undefined behaviour (out-of-range string index) and an abort are [None];
   printing to the terminal is dropped; _massDependencies of decay modes is a
   list of strings that is only copied. *)
From Coq Require Import String Ascii List ZArith NArith Bool Reals Lia.
From Verif Require Import PathModel StrModel DecModel SpinModel.
Import ListNotations.
Open Scope Z_scope.
Open Scope list_scope.

(* glue: no counterpart in /repo, option monad *)
Definition bindP {A B} (o : option A) (f : A -> option B) : option B :=
  match o with None => None | Some x => f x end.
Notation "'doP' x <- e ; r" := (bindP e (fun x => r)) (at level 200, x pattern, e at level 100, r at level 200).

(* C++ operator == of double *)
Definition decR (x y : R) : bool := if Req_EM_T x y then true else false.
(* C++ operator < of double *)
Definition ltR (x y : R) : bool := if Rlt_dec x y then true else false.

(* mathUtils.hpp 108-115 *)
Definition signum (v : Z) : Z := if v <? 0 then -1 else if 0 <? v then 1 else 0.

(* conversionUtils.hpp 48-55: sign(char) *)
Definition signOfChar (c : ascii) : Z :=
  if Ascii.eqb c "+" then 1 else if Ascii.eqb c "-" then -1 else 0.

(* conversionUtils.hpp 61-68: sign(val) *)
Definition signStr (v : Z) : str := if v <? 0 then ["-"%char] else if 0 <? v then ["+"%char] else ["0"%char].

(* boost::lexical_cast<char>(int): the single digit; bad_lexical_cast for longer texts *)
Definition castChar (v : Z) : str := match showInt v with [c] => [c] | _ => [] end.

(* boost::lexical_cast<int>(char) with the bad_lexical_cast handler of the caller *)
Definition castDigit (c : ascii) : Z := if isDigit c then digitVal c else 0.

(* particleProperties.cc 515-531 *)
Definition nameWithCharge (bareName : str) (charge : Z) : str :=
  match bareName with
  | [] => []
  | _ => bareName ++ (if 1 <? Z.abs charge then castChar (Z.abs charge) else []) ++ signStr charge
  end.

(* particleProperties.cc 534-567: (stripped name, charge);
   partName[length - 1] and partName[length - 2] are undefined out of range *)
Definition chargeFromName (partName : str) : option (str * Z) :=
  match rev partName with
  | [] => None
  | last :: r1 =>
      if Ascii.eqb last "+" || Ascii.eqb last "0" || Ascii.eqb last "-" then
        let charge := signOfChar last in
        match r1 with
        | [] => None
        | c :: r2 =>
            let chargeVal := castDigit c in
            if chargeVal =? 0 then Some (rev r1, charge)
            else Some (rev r2, charge * chargeVal)
        end
      else Some (partName, 0)
  end.

(* particleProperties.cc 570-575 *)
Definition stripChargeFromName (partName : str) : option str :=
  doP (n, _) <- chargeFromName partName; Some n.

(* particleProperties.h 60-76 *)
Record decayMode := DM { dmDaughters : list str; dmL : Z; dmS : Z; dmMassDeps : list str }.

(* particleProperties.cc 54-60: the daughters are a multiset built from the given names *)
Definition mkDecay (daughters : list str) (L S : Z) : decayMode := DM (ms_of daughters) L S [].

(* particleProperties.cc 67-78 *)
Definition decayEq (lhs rhs : decayMode) : bool :=
  if negb (list_eqb (dmDaughters lhs) (dmDaughters rhs)) then false
  else if negb (dmL lhs =? -1) && negb (dmL rhs =? -1) && negb (dmL lhs =? dmL rhs) then false
  else if negb (dmS lhs =? -1) && negb (dmS rhs =? -1) && negb (dmS lhs =? dmS rhs) then false
  else true.

(* particleProperties.h 195-210 *)
Record pprops := PP {
  pName : str; pAnti : str; pCharge : Z; pMass : R; pMass2 : R; pWidth : R;
  pB : Z; pI : Z; pS : Z; pCharm : Z; pBeauty : Z; pG : Z; pJ : Z; pP : Z; pC : Z;
  pDecays : list decayMode }.

(* particleProperties.cc 107-124 *)
Definition pDefault : pprops := PP [] [] 0 0%R 0%R 0%R 0 0 0 0 0 0 0 0 0 [].

(* particleProperties.h 101-104, 111 *)
Definition name (p : pprops) : str := nameWithCharge (pName p) (pCharge p).
(* particleProperties.h 103 *)
Definition antiPartName (p : pprops) : str := nameWithCharge (pAnti p) (- pCharge p).
(* particleProperties.h 111 *)
Definition isospinProj (p : pprops) : Z := 2 * pCharge p - (pB p + pS p + pCharm p + pBeauty p).

(* setters, particleProperties.h 147-163, 291-322 *)
Definition setCharge (q : Z) (p : pprops) : option pprops :=
  if Z.abs q <? 10 then
    Some (PP (pName p) (pAnti p) q (pMass p) (pMass2 p) (pWidth p) (pB p) (pI p) (pS p) (pCharm p) (pBeauty p)
             (pG p) (pJ p) (pP p) (pC p) (pDecays p))
  else None.
(* particleProperties.h 147-163, 291-322 *)
Definition setName (n : str) (p : pprops) : option pprops :=
  doP (bare, q) <- chargeFromName n;
  setCharge q (PP bare (pAnti p) (pCharge p) (pMass p) (pMass2 p) (pWidth p) (pB p) (pI p) (pS p) (pCharm p) (pBeauty p)
             (pG p) (pJ p) (pP p) (pC p) (pDecays p)).
(* particleProperties.h 147-163, 291-322 *)
Definition setAntiPartName (n : str) (p : pprops) : option pprops :=
  doP a <- stripChargeFromName n;
  Some (PP (pName p) a (pCharge p) (pMass p) (pMass2 p) (pWidth p) (pB p) (pI p) (pS p) (pCharm p) (pBeauty p)
             (pG p) (pJ p) (pP p) (pC p) (pDecays p)).
(* particleProperties.h 147-163, 291-322 *)
Definition setMass (m : R) (p : pprops) : pprops :=
  PP (pName p) (pAnti p) (pCharge p) m (m * m)%R (pWidth p) (pB p) (pI p) (pS p) (pCharm p) (pBeauty p)
             (pG p) (pJ p) (pP p) (pC p) (pDecays p).
(* particleProperties.h 147-163, 291-322 *)
Definition setWidth (w : R) (p : pprops) : pprops :=
  PP (pName p) (pAnti p) (pCharge p) (pMass p) (pMass2 p) w (pB p) (pI p) (pS p) (pCharm p) (pBeauty p)
             (pG p) (pJ p) (pP p) (pC p) (pDecays p).
(* particleProperties.h 147-163, 291-322 *)
Definition setBaryonNmb (b : Z) (p : pprops) : pprops :=
  PP (pName p) (pAnti p) (pCharge p) (pMass p) (pMass2 p) (pWidth p) b (pI p) (pS p) (pCharm p) (pBeauty p)
             (pG p) (pJ p) (pP p) (pC p) (pDecays p).
(* particleProperties.h 147-163, 291-322 *)
Definition setIsospin (i : Z) (p : pprops) : pprops :=
  PP (pName p) (pAnti p) (pCharge p) (pMass p) (pMass2 p) (pWidth p) (pB p) (Z.abs i) (pS p) (pCharm p) (pBeauty p)
             (pG p) (pJ p) (pP p) (pC p) (pDecays p).
(* particleProperties.h 147-163, 291-322 *)
Definition setStrangeness (s : Z) (p : pprops) : pprops :=
  PP (pName p) (pAnti p) (pCharge p) (pMass p) (pMass2 p) (pWidth p) (pB p) (pI p) s (pCharm p) (pBeauty p)
             (pG p) (pJ p) (pP p) (pC p) (pDecays p).
(* particleProperties.h 147-163, 291-322 *)
Definition setCharm (c : Z) (p : pprops) : pprops :=
  PP (pName p) (pAnti p) (pCharge p) (pMass p) (pMass2 p) (pWidth p) (pB p) (pI p) (pS p) c (pBeauty p)
             (pG p) (pJ p) (pP p) (pC p) (pDecays p).
(* particleProperties.h 147-163, 291-322 *)
Definition setBeauty (b : Z) (p : pprops) : pprops :=
  PP (pName p) (pAnti p) (pCharge p) (pMass p) (pMass2 p) (pWidth p) (pB p) (pI p) (pS p) (pCharm p) b
             (pG p) (pJ p) (pP p) (pC p) (pDecays p).
(* particleProperties.h 147-163, 291-322 *)
Definition setG (g : Z) (p : pprops) : pprops :=
  PP (pName p) (pAnti p) (pCharge p) (pMass p) (pMass2 p) (pWidth p) (pB p) (pI p) (pS p) (pCharm p) (pBeauty p)
             (signum g) (pJ p) (pP p) (pC p) (pDecays p).
(* particleProperties.h 147-163, 291-322 *)
Definition setJ (j : Z) (p : pprops) : pprops :=
  PP (pName p) (pAnti p) (pCharge p) (pMass p) (pMass2 p) (pWidth p) (pB p) (pI p) (pS p) (pCharm p) (pBeauty p)
             (pG p) (Z.abs j) (pP p) (pC p) (pDecays p).
(* particleProperties.h 147-163, 291-322 *)
Definition setP (P : Z) (p : pprops) : pprops :=
  PP (pName p) (pAnti p) (pCharge p) (pMass p) (pMass2 p) (pWidth p) (pB p) (pI p) (pS p) (pCharm p) (pBeauty p)
             (pG p) (pJ p) (signum P) (pC p) (pDecays p).
(* particleProperties.h 147-163, 291-322 *)
Definition setC (C : Z) (p : pprops) : pprops :=
  PP (pName p) (pAnti p) (pCharge p) (pMass p) (pMass2 p) (pWidth p) (pB p) (pI p) (pS p) (pCharm p) (pBeauty p)
             (pG p) (pJ p) (pP p) (signum C) (pDecays p).
(* particleProperties.h 147-163, 291-322 *)
Definition setDecays (d : list decayMode) (p : pprops) : pprops :=
  PP (pName p) (pAnti p) (pCharge p) (pMass p) (pMass2 p) (pWidth p) (pB p) (pI p) (pS p) (pCharm p) (pBeauty p)
             (pG p) (pJ p) (pP p) (pC p) d.

(* particleProperties.h 238-248; the integer division [isospin / 2] truncates *)
Definition isMeson (p : pprops) : bool :=
  (Z.abs (pCharge p) <=? 1) && (pB p =? 0) && (pI p <=? 2) && (Z.abs (pS p) <=? 1) &&
  (Z.abs (pCharm p) <=? 1) && (Z.abs (pBeauty p) <=? 1) && isEven (pJ p) && (Z.abs (pP p) =? 1) &&
  (Z.abs (pC p) <=? 1) &&
  (negb (Z.abs (pCharge p) =? 0) || (pG p =? powMinusOne (Z.quot (pI p) 2) * pC p)).

(* particleProperties.h 250-259 *)
Definition isBaryon (p : pprops) : bool :=
  (Z.abs (pCharge p) <=? 2) && (pB p =? 1) && (pI p <=? 3) && (Z.abs (pS p) <=? 3) &&
  (Z.abs (pCharm p) <=? 3) && (Z.abs (pBeauty p) <=? 3) && isOdd (pJ p) && (Z.abs (pP p) =? 1) &&
  (pC p =? 0) && (pG p =? 0).

(* particleProperties.h 271-278 *)
Definition isPhoton (p : pprops) : bool :=
  (pCharge p =? 0) && (pB p =? 0) && (pI p =? 0) && (pS p =? 0) && (pCharm p =? 0) && (pBeauty p =? 0) &&
  (pJ p =? 2) && (pP p =? -1) && (pC p =? -1) && (pG p =? 0).

(* particleProperties.h 281-288 *)
Definition isItsOwnAntiPart (p : pprops) : bool :=
  (isMeson p || isPhoton p) && str_eqb (name p) (antiPartName p) && (pCharge p =? 0) && (pB p =? 0) &&
  (isospinProj p =? 0) && (pS p =? 0) && (pCharm p =? 0) && (pBeauty p =? 0).

(* particleProperties.cc 230-234 *)
Definition isSpinExotic (p : pprops) : bool := isMeson p && igjpIsExotic (pI p) (pG p) (pJ p) (pP p).

(* particleProperties.cc 237-241 *)
Definition hasDecay (p : pprops) (d : decayMode) : bool := existsb (fun x => decayEq x d) (pDecays p).

(* ---------------- data table ---------------- *)
(* particleDataTable.cc 91, 136-143 *)
Definition table := smap pprops.
(* particleDataTable.cc 136-143 *)
Definition isInTable (t : table) (n : str) : bool := match m_find n t with None => false | Some _ => true end.
(* particleDataTable.cc 146-157 *)
Definition entry (t : table) (n : str) : option pprops := m_find n t.
(* particleDataTable.cc 235-253 *)
Definition addEntry (t : table) (p : pprops) : table * bool :=
  match m_find (name p) t with
  | Some _ => (t, false)
  | None => (m_set (name p) p t, true)
  end.

(* particleProperties.cc 249-271: the new value of the object, if found; None = undefined
   behaviour, Some None = not found , object unchanged *)
Definition fillFromDataTable (t : table) (partName : str) : option (option pprops) :=
  if isInTable t partName then Some (entry t partName)
  else doP s <- stripChargeFromName partName;
       Some (entry t (if str_eqb partName s then partName ++ ["0"%char] else partName)).

(* antiparticle name of one daughter, particleProperties.cc 331-333: a
   default-constructed record is filled from the table *)
Definition antiDaughter (t : table) (d : str) : option str :=
  doP f <- fillFromDataTable t d;
  Some (antiPartName (match f with Some p => p | None => pDefault end)).

(* glue: no counterpart in /repo, map of a possibly aborting function *)
Fixpoint mapP {A B} (f : A -> option B) (l : list A) : option (list B) :=
  match l with
  | [] => Some []
  | x :: r => doP y <- f x; doP ys <- mapP f r; Some (y :: ys)
  end.

(* particleProperties.cc 323-338 *)
Definition antiDecay (t : table) (d : decayMode) : option decayMode :=
  doP ds <- mapP (antiDaughter t) (dmDaughters d);
  Some (DM (ms_of ds) (dmL d) (dmS d) (dmMassDeps d)).

(* particleProperties.cc 300-342 *)
Definition antiPartProperties (t : table) (convertDecaysModes : bool) (p : pprops) : option pprops :=
  if isItsOwnAntiPart p then
    if convertDecaysModes then Some p else Some (setDecays [] p)
  else
    doP a <- setName (pAnti p) pDefault;
    doP a <- setAntiPartName (pName p) a;
    doP a <- setCharge (- pCharge p) a;
    let a := setMass (pMass p) a in
    let a := setWidth (pWidth p) a in
    let a := setBaryonNmb (- pB p) a in
    let a := setIsospin (pI p) a in
    let a := setStrangeness (- pS p) a in
    let a := setCharm (- pCharm p) a in
    let a := setBeauty (- pBeauty p) a in
    let a := setG (pG p) a in
    let a := setJ (pJ p) a in
    let a := setP (pP p) a in
    let a := setC (pC p) a in
    if convertDecaysModes then
      doP ds <- mapP (antiDecay t) (pDecays p); Some (setDecays ds a)
    else Some a.

(* std::string::find(literal) != npos *)
Fixpoint isPrefix (a b : str) : bool :=
  match a, b with
  | [], _ => true
  | x :: a', y :: b' => Ascii.eqb x y && isPrefix a' b'
  | _, _ => false
  end.
(* std::string::find(pattern) != npos *)
Fixpoint contains (pat s : str) : bool :=
  isPrefix pat s || match s with [] => false | _ :: r => contains pat r end.

(* particleProperties.cc 190-218 *)
Definition selEq (lhs rhs : pprops) (selector : str) : bool :=
  let all := contains (lit "allQn") selector in
  let chk (key : string) (a b : Z) := (negb (contains (lit key) selector) && negb all) || (a =? b) in
  chk "charge"%string (pCharge lhs) (pCharge rhs) && chk "baryonNmb"%string (pB lhs) (pB rhs) &&
  chk "I"%string (pI lhs) (pI rhs) && chk "strangeness"%string (pS lhs) (pS rhs) &&
  chk "charm"%string (pCharm lhs) (pCharm rhs) && chk "beauty"%string (pBeauty lhs) (pBeauty rhs) &&
  chk "G"%string (pG lhs) (pG rhs) && chk "J"%string (pJ lhs) (pJ rhs) &&
  chk "P"%string (pP lhs) (pP rhs) && chk "C"%string (pC lhs) (pC rhs).

(* particleDataTable.cc 160-232 *)
Definition listed (p : pprops) (l : list str) : bool :=
  existsb (fun n => str_eqb (name p) n || str_eqb (pName p) n) l.
(* particleDataTable.cc 160-232: the body of the loop *)
Definition entryMatches (prototype : pprops) (sel : str) (minMass factor : R)
    (white black : list str) (decay : decayMode) (forceDecayCheck : bool) (p : pprops) : bool :=
  if negb (selEq p prototype sel) then false
  else if ltR 0 minMass && ltR (pMass p + factor * pWidth p)%R minMass then false
  else if negb (match white with [] => true | _ => listed p white end) then false
  else if listed p black then false
  else if (0 <? Z.of_nat (length (dmDaughters decay))) && (0 <? Z.of_nat (length (pDecays p)))
       then hasDecay p decay
       else negb forceDecayCheck.
(* particleDataTable.cc 160-232 *)
Definition entriesMatching (t : table) (prototype : pprops) (sel : str) (minMass factor : R)
    (white black : list str) (decay : decayMode) (forceDecayCheck : bool) : list pprops :=
  filter (entryMatches prototype sel minMass factor white black decay forceDecayCheck) (map snd t).

(* particleProperties.cc 578-595 *)
Definition isEqualTo (p q : pprops) : bool :=
  str_eqb (name p) (name q) && str_eqb (antiPartName p) (antiPartName q) && (pCharge p =? pCharge q) &&
  decR (pMass p) (pMass q) && decR (pWidth p) (pWidth q) && (pB p =? pB q) && (pI p =? pI q) &&
  (pS p =? pS q) && (pCharm p =? pCharm q) && (pBeauty p =? pBeauty q) && (pG p =? pG q) &&
  (pJ p =? pJ q) && (pP p =? pP q) && (pC p =? pC q).

(* ---------------- text form ---------------- *)
Definition tab : ascii := ascii_of_nat 9.
(* C++ formatted input of a double: characters accumulated (num_get) *)
Definition numChar (c : ascii) : bool :=
  isDigit c || existsb (Ascii.eqb c) (list_ascii_of_string "+-.eE").

(* Formatted output and input of doubles is a parameter of the functions below:
   [showD] is operator<<, [parseD] the conversion of the longest prefix of number
   characters done by operator>> *)
(* C++ operator >> for double *)
Definition readD (parseD : str -> option R) (s : str) : option (R * str) :=
  let (w, r) := span numChar (skipWs s) in
  doP d <- parseD w; Some (d, r).

(* particleProperties.cc 447-465 *)
Definition dump (showD : R -> str) (p : pprops) : str :=
  name p ++ tab :: antiPartName p ++ tab :: showD (pMass p) ++ tab :: showD (pMass2 p) ++ tab ::
  showD (pWidth p) ++ tab :: showInt (pB p) ++ tab :: showInt (pI p) ++ tab :: showInt (pS p) ++ tab ::
  showInt (pCharm p) ++ tab :: showInt (pBeauty p) ++ tab :: showInt (pG p) ++ tab :: showInt (pJ p) ++ tab ::
  showInt (pP p) ++ tab :: showInt (pC p).

(* the 13 extractions of particleProperties.cc 477-489; None = stream failure *)
Definition parseLine (parseD : str -> option R) (s : str) :=
  doP (nm, s) <- readStr s;
  doP (anti, s) <- readStr s;
  doP (mass, s) <- readD parseD s;
  doP (width, s) <- readD parseD s;
  doP (b, s) <- readInt s;
  doP (i, s) <- readInt s;
  doP (st, s) <- readInt s;
  doP (ch, s) <- readInt s;
  doP (be, s) <- readInt s;
  doP (g, s) <- readInt s;
  doP (j, s) <- readInt s;
  doP (p, s) <- readInt s;
  doP (c, s) <- readInt s;
  Some (nm, anti, mass, width, (b, i, st, ch, be), (g, j, p, c)).

(* particleProperties.cc 468-512; None = undefined behaviour or abort *)
Definition readLine (parseD : str -> option R) (s : str) (this : pprops) : option (bool * pprops) :=
  match parseLine parseD s with
  | None => Some (false, this)
  | Some (nm, anti, mass, width, (b, i, st, ch, be), (g, j, pp, c)) =>
      doP x <- setName nm this;
      doP x <- setAntiPartName anti x;
      Some (true, setC c (setP pp (setJ j (setG g (setBeauty be (setCharm ch (setStrangeness st
                  (setIsospin i (setBaryonNmb b (setWidth width (setMass mass x)))))))))))
  end.

(* particleProperties.h 333-353 on the list of remaining lines: (stream ok, record, rest) *)
Fixpoint extract (parseD : str -> option R) (lines : list str) (this : pprops) : option (bool * pprops * list str) :=
  match lines with
  | [] => Some (false, this, [])
  | l :: r =>
      match l with
      | [] => extract parseD r this
      | c :: _ => if Ascii.eqb c "#" then extract parseD r this
                  else doP (_, p) <- readLine parseD l this; Some (true, p, r)
      end
  end.

(* particleDataTable.cc 292-315 on the list of lines; fuel = number of lines + 1 *)
Fixpoint readTableF (fuel : nat) (parseD : str -> option R) (lines : list str) (t : table) : option table :=
  match fuel with
  | O => Some t
  | S f =>
      doP (ok, p, r) <- extract parseD lines pDefault;
      if ok then
        let t := fst (addEntry t p) in
        doP t <- (if isItsOwnAntiPart p then Some t
                  else doP a <- antiPartProperties t false p; Some (fst (addEntry t a)));
        readTableF f parseD r t
      else Some t
  end.
(* particleDataTable.cc 292-315 *)
Definition readTable (parseD : str -> option R) (lines : list str) (t : table) : option table :=
  readTableF (S (length lines)) parseD lines t.
