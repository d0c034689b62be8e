(* Model of decayAmplitude/evtTreeHelper.cc and of the GEANT particle IDs of particleData/particleDataTable.cc.
   Simplifications: int is Z, double is R; output and input of doubles are the parameters [showD] and [parseD] as in
   ParticleModel; a failed assertion, throw without an exception and undefined behaviour are None; a tree is the list of its
   entries, a TClonesArray the list of its elements (None: an empty slot); an input stream that could be opened is its text;
   messages, progress display and performance statistics are left out. *)
From Coq Require Import String Ascii List ZArith NArith Bool Reals.
From Verif Require Import PathModel StrModel DecModel ParticleModel.
Import ListNotations.
Open Scope Z_scope.
Open Scope list_scope.

(* particleDataTable.cc 55-86: bimap of names and GEANT IDs *)
Definition nameGeantIdMap : list (str * Z) :=
  [(lit "gamma", 1); (lit "e+", 2); (lit "e-", 3); (lit "mu+", 5); (lit "mu-", 6); (lit "pi0", 7); (lit "pi+", 8); (lit "pi-", 9);
   (lit "K_L", 10); (lit "K+", 11); (lit "K-", 12); (lit "n", 13); (lit "p+", 14); (lit "pbar-", 15); (lit "K_S", 16); (lit "eta", 17);
   (lit "Lambda", 18); (lit "nbar", 25); (lit "Lambdabar", 26); (lit "rho(770)0", 57); (lit "rho(770)+", 58); (lit "rho(770)-", 59);
   (lit "omega(782)", 60); (lit "eta'(982)", 61); (lit "phi(1020)", 62)].
(* particleDataTable.cc 97: _nameGeantIdMap.right.find *)
Definition findId (id : Z) : option str := option_map fst (find (fun e => snd e =? id) nameGeantIdMap).
(* particleDataTable.cc 115: _nameGeantIdMap.left.find *)
Definition findName (n : str) : option Z := option_map snd (find (fun e => str_eqb (fst e) n) nameGeantIdMap).
(* particleDataTable.cc 96-106 *)
Definition particleNameFromGeantId (id : Z) : option str :=
  match findId id with
  | None => Some (lit "unknown")
  | Some n => doP (bareName, charge) <- chargeFromName n; Some (nameWithCharge bareName charge)
  end.
(* particleDataTable.cc 109-125: ID and charge *)
Definition geantIdAndChargeFromParticleName (name : str) : option (Z * Z) :=
  doP (bareName, charge) <- chargeFromName name;
  Some (match findName name with
        | Some id => id
        | None => match findName bareName with Some id => id | None => 0 end
        end, charge).

(* evtTreeHelper.cc 68-90 *)
Definition checkParticleCharge (name : str) (chargeToCheck : Z) : option bool :=
  if str_eqb name (lit "unknown") then Some false
  else doP (_, charge) <- chargeFromName name; Some (chargeToCheck =? charge).
(* evtTreeHelper.cc 93-112 *)
Definition getParticleMass (pdt : table) (name : str) : option R :=
  if isInTable pdt name then Some (match entry pdt name with Some p => pMass p | None => 0%R end)
  else doP n <- stripChargeFromName name;
       Some (if isInTable pdt n then match entry pdt n with Some p => pMass p | None => 0%R end else 0%R).

(* glue: TVector3 and an entry of the tree *)
Record vec := Vec { vX : R; vY : R; vZ : R }.
(* evtTreeHelper.cc 339-346: the two branches *)
Record evEntry := EvEntry { enProd : list (option vec); enDecay : list (option vec) }.
(* evtTreeHelper.cc 398, 432: new((( *array)[i]) after Clear(): slots left out stay empty *)
Definition putAt (i : nat) (v : vec) (l : list (option vec)) : list (option vec) := l ++ repeat None (i - length l) ++ [Some v].

(* evtTreeHelper.cc 366, 388: getline: the lines of the text; a last line without newline counts if it is not empty *)
Fixpoint linesFrom (cur s : str) : list str :=
  match s with
  | [] => match cur with [] => [] | _ => [cur] end
  | c :: r => if Ascii.eqb c "010" then cur :: linesFrom [] r else linesFrom (cur ++ [c]) r
  end.
(* evtTreeHelper.cc 388-392, 422-427: lineStream >> id >> charge >> momX >> momY >> momZ >> E *)
Definition readPart (parseD : str -> option R) (line : str) : option (Z * Z * vec) :=
  doP (id, s) <- readInt line;
  doP (charge, s) <- readInt s;
  doP (x, s) <- readD parseD s;
  doP (y, s) <- readD parseD s;
  doP (z, s) <- readD parseD s;
  doP (_, _) <- readD parseD s;
  Some (id, charge, Vec x y z).
(* evtTreeHelper.cc 416-441: names, momenta, success, remaining lines; break leaves this loop only *)
Fixpoint readDecay (parseD : str -> option R) (todo i : nat) (lines : list str) (names : list str) (moms : list (option vec)) (success : bool)
    : option (list str * list (option vec) * bool * list str) :=
  match todo with
  | O => Some (names, moms, success, lines)
  | S t =>
      match lines with
      | [] => Some (names ++ repeat [] todo, moms, success, [])
      | l :: r =>
          match readPart parseD l with
          | Some (id, charge, v) =>
              doP n <- particleNameFromGeantId id;
              doP c <- checkParticleCharge n charge;
              readDecay parseD t (S i) r (names ++ [n]) (putAt i v moms) (if c then success else false)
          | None => readDecay parseD t (S i) r (names ++ [[]]) moms false
          end
      end
  end.
(* evtTreeHelper.cc 363-451: end of the loop over events, or names and entry of an event and the remaining lines *)
Inductive evtRead := Break (success : bool) | Ev (success : bool) (prodNames decayNames : list str) (e : evEntry) (rest : list str).
(* evtTreeHelper.cc 363-451 *)
Definition readEvent (parseD : str -> option R) (lines : list str) (success : bool) : option evtRead :=
  match lines with
  | [] => Some (Break success)
  | l :: r =>
      let nmbParticles := match readInt l with Some (n, _) => n | None => 0 end in
      let success := match readInt l with Some _ => success | None => false end in
      if nmbParticles <=? 0 then None else
      match r with
      | [] => Some (Break success)
      | b :: r2 =>
          match readPart parseD b with
          | None => None
          | Some (id, charge, v) =>
              doP n <- particleNameFromGeantId id;
              doP c <- checkParticleCharge n charge;
              doP (decayNames, moms, success, r3) <- readDecay parseD (Z.to_nat (nmbParticles - 1)) 0 r2 [] [] (if c then success else false);
              if (0 <? length decayNames)%nat && (length decayNames =? length moms)%nat
              then Some (Ev success [n] decayNames (EvEntry [Some v] moms) r3) else None
          end
      end
  end.
(* evtTreeHelper.cc 359-505: every event takes lines, so that [fuel] = number of lines + 1 is enough *)
Fixpoint fillLoop (parseD : str -> option R) (fuel : nat) (maxNmbEvents : Z) (lines : list str) (success : bool) (tree : list evEntry) (names : list str * list str)
    : option (bool * list evEntry * (list str * list str)) :=
  match fuel with
  | O => None
  | S f =>
      doP x <- readEvent parseD lines success;
      match x with
      | Break s => Some (s, tree, names)
      | Ev s pn dn e rest =>
          let tree' := tree ++ [e] in
          doP names' <- (if (length tree =? 0)%nat then Some (pn, dn)
                         else if list_eqb pn (fst names) && list_eqb dn (snd names) then Some names else None);
          if (0 <? maxNmbEvents) && (maxNmbEvents <=? Z.of_nat (length tree')) then Some (s, tree', names')
          else fillLoop parseD f maxNmbEvents rest s tree' names'
      end
  end.
(* evtTreeHelper.cc 322-516: success, tree, names of production and decay particles *)
Definition fillTreeFromEvt (parseD : str -> option R) (inEvt : str) (maxNmbEvents : Z) : option (bool * list evEntry * (list str * list str)) :=
  let lines := linesFrom [] inEvt in fillLoop parseD (S (length lines)) maxNmbEvents lines true [] ([], []).

(* evtTreeHelper.cc 588-595, 612-619 *)
Definition partText (pdt : table) (showD : R -> str) (name : str) (mom : vec) : option str :=
  doP mass <- getParticleMass pdt name;
  doP (id, charge) <- geantIdAndChargeFromParticleName name;
  let E := sqrt (mass * mass + (vX mom * vX mom + vY mom * vY mom + vZ mom * vZ mom)) in
  Some (showInt id ++ [" "%char] ++ showInt charge ++ [" "%char] ++ showD (vX mom) ++ [" "%char] ++ showD (vY mom) ++ [" "%char] ++ showD (vZ mom)
        ++ [" "%char] ++ showD E ++ ["010"%char]).
(* evtTreeHelper.cc 605-625 *)
Fixpoint decayText (pdt : table) (showD : R -> str) (names : list str) (moms : list (option vec)) : option str :=
  match names, moms with
  | [], _ => Some []
  | n :: ns, Some v :: ms => doP a <- partText pdt showD n v; doP b <- decayText pdt showD ns ms; Some (a ++ b)
  | _, _ => None
  end.
(* evtTreeHelper.cc 555-628: the text of one event; an event without particles is skipped *)
Definition eventText (pdt : table) (showD : R -> str) (pn dn : list str) (e : evEntry) : option str :=
  if negb ((length pn =? length (enProd e))%nat && (length dn =? length (enDecay e))%nat) then None
  else match pn, enProd e with
  | [], _ => Some []
  | p :: _, v :: _ =>
      match dn with
      | [] => Some []
      | _ => match v with
             | None => None
             | Some v =>
                 doP a <- partText pdt showD p v;
                 doP b <- decayText pdt showD dn (enDecay e);
                 Some (showInt (1 + Z.of_nat (length dn)) ++ ["010"%char] ++ a ++ b)
             end
      end
  | _ :: _, [] => None
  end.
(* evtTreeHelper.cc 546-547, 645-646: number of events that are processed *)
Definition upToMax {A} (maxNmbEvents : Z) (l : list A) : list A := if 0 <? maxNmbEvents then firstn (Z.to_nat maxNmbEvents) l else l.
(* evtTreeHelper.cc 549-628 *)
Fixpoint eventTexts (pdt : table) (showD : R -> str) (pn dn : list str) (tree : list evEntry) : option str :=
  match tree with
  | [] => Some []
  | e :: r => doP a <- eventText pdt showD pn dn e; doP b <- eventTexts pdt showD pn dn r; Some (a ++ b)
  end.
(* evtTreeHelper.cc 519-632: what is written; the return value is true *)
Definition writeEvtFromTree (pdt : table) (showD : R -> str) (tree : list evEntry) (pn dn : list str) (maxNmbEvents : Z) : option str :=
  eventTexts pdt showD pn dn (upToMax maxNmbEvents tree).

(* evtTreeHelper.cc 636-716: [initKin] = initKinematicsData, [ampOf] = readKinematicsData and the amplitude; success and the
   amplitudes; None: false before any event is read *)
Definition processTree {A} (initKin : bool) (ampOf : evEntry -> option A) (tree : list evEntry) (maxNmbEvents : Z) (ampValues : list A) : bool * list A :=
  if initKin then
    fold_left (fun s e => match ampOf e with Some a => (fst s, snd s ++ [a]) | None => (false, snd s) end) (upToMax maxNmbEvents tree) (true, ampValues)
  else (false, ampValues).

(* evtTreeHelper.cc 200-225: root files: none, first one cannot be opened, or particle names found in the first one *)
Inductive rootInput := NoRoot | RootUnopened | RootNames (prod decay : option (list str)).
(* evtTreeHelper.cc 257-285, 290-318: comparison with the names known; the block that reports an inconsistency is part of the body
   of the loop over the names *)
Definition namesLoop (names known : list str) : bool :=
  match names, known with
  | [], _ => true
  | n :: _, k :: _ => if negb (str_eqb n k) then false else false
  | _ :: _, [] => false
  end.
(* evtTreeHelper.cc 257-285, 290-318 *)
Definition namesConsistent (names known : list str) : bool :=
  if negb (length names =? length known)%nat then false else namesLoop names known.
(* evtTreeHelper.cc 227-321: [None] in the list: the file cannot be opened *)
Fixpoint openEvt (parseD : str -> option R) (files : list (option str)) (trees : list (list evEntry)) (prod decay : option (list str))
    : option (bool * list (list evEntry) * option (list str) * option (list str)) :=
  match files with
  | [] => Some (match prod, decay with Some _, Some _ => true | _, _ => false end, trees, prod, decay)
  | None :: r => openEvt parseD r trees prod decay
  | Some text :: r =>
      doP (ok, tree, (pn, dn)) <- fillTreeFromEvt parseD text (-1);
      let trees' := if ok then trees ++ [tree] else trees in
      match prod with
      | Some k => if negb (namesConsistent pn k) then Some (false, trees', prod, decay) else
          match decay with
          | Some d => if negb (namesConsistent dn d) then Some (false, trees', prod, decay) else openEvt parseD r trees' prod decay
          | None => openEvt parseD r trees' prod (Some dn) end
      | None =>
          match decay with
          | Some d => if negb (namesConsistent dn d) then Some (false, trees', Some pn, decay) else openEvt parseD r trees' (Some pn) decay
          | None => openEvt parseD r trees' (Some pn) (Some dn) end
      end
  end.
(* evtTreeHelper.cc 178-321: success, the trees of the .evt files, the names *)
Definition openRootEvtFiles (parseD : str -> option R) (root : rootInput) (evtFiles : list (option str))
    : option (bool * list (list evEntry) * option (list str) * option (list str)) :=
  match root with
  | NoRoot | RootUnopened => openEvt parseD evtFiles [] None None
  | RootNames (Some p) (Some d) => openEvt parseD evtFiles [] (Some p) (Some d)
  | RootNames p d => Some (false, [], p, d)
  end.
