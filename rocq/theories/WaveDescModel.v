(* Model of decayAmplitude/waveDescription.cc: writing a decay topology into a key file, reading it back, expanding
   key files with a binning, and wave names; with the helpers of utilities/libConfigUtils.hpp, the factory of
   decayAmplitude/massDependence.cc and the constructors of the production vertices.

   Simplifications: int is Z, double is R; a decay topology is the binary tree of its isobar decay vertices with particles
   by value; a libconfig setting is a tree (a group keeps the order of its entries; a lookup finds the first entry of that
   name; libconfig refuses a second one); the text form of libconfig files is not modelled, so is the limited precision of
   numbers in it; printing is dropped; checkTopology and checkConsistency at the entry of the writer are taken as passed;
   the graph built by createIsobarDecayTopology is the tree.
   [None] = the process is terminated (throw, uncaught exception) or undefined behaviour. *)
From Coq Require Import String Ascii List ZArith Bool Reals.
From Verif Require Import PathModel StrModel DecModel ParticleModel WaveSetModel.
Import ListNotations.
Open Scope list_scope. Open Scope Z_scope.

(* libconfig::Setting (library type of the arguments in waveDescription.cc 673-1160): int, float, string, boolean, group, list *)
Inductive setting :=
  SInt (z : Z) | SFloat (r : R) | SString (s : str) | SBool (b : bool)
| SGroup (l : list (str * setting)) | SList (l : list setting).

(* libconfig Setting::operator[](name) on a group, used in libConfigUtils.hpp 102-156 *)
Fixpoint findKey (k : str) (l : list (str * setting)) : option setting :=
  match l with
  | [] => None
  | (k', v) :: r => if str_eqb k k' then Some v else findKey k r
  end.
(* libconfig Setting::exists and operator[](name), used in libConfigUtils.hpp 102-156: only a group has named entries *)
Definition field (k : str) (s : setting) : option setting := match s with SGroup l => findKey k l | _ => None end.
(* libconfig Setting::lookupValue for int, used in waveDescription.cc 680-709: false if the entry is missing or has another type *)
Definition lookInt (k : str) (s : setting) : option Z := match field k s with Some (SInt z) => Some z | _ => None end.
(* libconfig Setting::lookupValue for double, used in waveDescription.cc 719-771 *)
Definition lookFloat (k : str) (s : setting) : option R := match field k s with Some (SFloat r) => Some r | _ => None end.
(* libconfig Setting::lookupValue for std::string *)
Definition lookStr (k : str) (s : setting) : option str := match field k s with Some (SString r) => Some r | _ => None end.
(* libconfig Setting::lookupValue for bool, used in waveDescription.cc 514-527 *)
Definition lookBool (k : str) (s : setting) : option bool := match field k s with Some (SBool r) => Some r | _ => None end.
(* libconfig Setting::getIndex of the entry with this name in its group, used in waveDescription.cc 918 *)
Fixpoint keyIndex (k : str) (l : list (str * setting)) : nat :=
  match l with
  | [] => 0%nat
  | (k', _) :: r => if str_eqb k k' then 0%nat else S (keyIndex k r)
  end.
(* libconfig Setting::getIndex *)
Definition indexOf (k : str) (s : setting) : nat := match s with SGroup l => keyIndex k l | _ => 0%nat end.
(* libConfigUtils.hpp 102-124 *)
Definition findGroup (k : str) (s : setting) : option setting :=
  match field k s with Some (SGroup l) => Some (SGroup l) | _ => None end.
(* libConfigUtils.hpp 126-156: a non-empty list *)
Definition findList (k : str) (s : setting) : option (list setting) :=
  match field k s with Some (SList (x :: l)) => Some (x :: l) | _ => None end.
(* libconfig conversion of a setting to a double, used in massDependence.cc 189-215: SettingTypeException unless it is a float *)
Definition asFloat (s : setting) : option R := match s with SFloat r => Some r | _ => None end.

(* ---------------- mass dependences ---------------- *)
(* massDependence.h 427-458: parameters a, r, M0, G0, phiF, phiR, phiRsin, F, R, MMax and the tag *)
Record glass := Glass { gA : R; gr : R; gM0 : R; gG0 : R; gPhiF : R; gPhiR : R; gPhiRsin : R; gF : R; gR : R; gMMax : R; gTag : str }.
(* massDependence.h 140-492: the mass-dependence classes with their parameters *)
Inductive mdep :=
  MFlat | MBinned (lo hi : R) | MBW | MConstWidth | MRho | MF0 | MF0Flatte | MAmpM | MAmpVes | MAmpKachaev | MRhoPrime
| MGlass (g : glass) | MPalano (mmax : R).
(* massDependence.h 151, 178, 203, 222, 246, 267, 287, 345, 366, 395, 415, 442, 485 *)
Definition mdName (m : mdep) : str :=
  match m with
  | MFlat => lit "flat"%string
  | MBinned _ _ => lit "binned"%string
  | MBW => bwName
  | MConstWidth => lit "constWidthBreitWigner"%string
  | MRho => lit "rhoBreitWigner"%string
  | MF0 => lit "f0980BreitWigner"%string
  | MF0Flatte => lit "f0980FlatteBesII"%string
  | MAmpM => lit "piPiSWaveAuMorganPenningtonM"%string
  | MAmpVes => lit "piPiSWaveAuMorganPenningtonVes"%string
  | MAmpKachaev => lit "piPiSWaveAuMorganPenningtonKachaev"%string
  | MRhoPrime => lit "rhoPrime"%string
  | MGlass _ => lit "KPiSGLASS"%string
  | MPalano _ => lit "KPiSPalanoPennington"%string
  end.
(* massDependence.h 86-87: only the types are compared *)
Definition mdEqual (m n : mdep) : bool := str_eqb (mdName m) (mdName n).
(* massDependence.cc 680-684: characters that are not allowed in a tag *)
Definition tagChar (c : ascii) : bool := existsb (Ascii.eqb c) (list_ascii_of_string "><][="%string).
(* massDependence.cc 189-215 *)
Definition createBinned (settings : option setting) : option mdep :=
  match settings with
  | None => None
  | Some s =>
      match findList (lit "bounds"%string) s with
      | Some [a; b] =>
          doP mMin <- asFloat a; doP mMax <- asFloat b;
          if ltR mMax mMin then None else Some (MBinned mMin mMax)
      | _ => None
      end
  end.
(* massDependence.cc 662-691, with lookupParameter 100-107 *)
Definition createGlass (settings : option setting) : option mdep :=
  match settings with
  | None => None
  | Some s =>
      doP a <- lookFloat (lit "a"%string) s; doP r <- lookFloat (lit "r"%string) s;
      doP M0 <- lookFloat (lit "M0"%string) s; doP G0 <- lookFloat (lit "G0"%string) s;
      doP phiF <- lookFloat (lit "phiF"%string) s; doP phiR <- lookFloat (lit "phiR"%string) s;
      doP phiRsin <- lookFloat (lit "phiRsin"%string) s; doP F <- lookFloat (lit "F"%string) s;
      doP Rr <- lookFloat (lit "R"%string) s; doP MMax <- lookFloat (lit "MMax"%string) s;
      doP tag <- lookStr (lit "tag"%string) s;
      if existsb tagChar tag then None else Some (MGlass (Glass a r M0 G0 phiF phiR phiRsin F Rr MMax tag))
  end.
(* massDependence.cc 751-762: 2.4 GeV unless given *)
Definition createPalano (settings : option setting) : mdep :=
  MPalano (match settings with
           | Some s => match lookFloat (lit "MMax"%string) s with Some m => m | None => (24 / 10)%R end
           | None => (24 / 10)%R
           end).
(* massDependence.cc 111-144 with the templates 60-90; [Some None] = null pointer, the name is unknown.
   The constructors of the AMP, GLASS and Palano-Pennington parameterisations that abort if pi, K or eta are missing in the
   table are taken to succeed *)
Definition createMassDependence (ty : str) (settings : option setting) : option (option mdep) :=
  if str_eqb ty [] then Some (Some MBW)
  else if str_eqb ty (lit "f_0(980)"%string) then Some (Some MF0)
  else if str_eqb ty (lit "f_0(980)Flatte"%string) then Some (Some MF0Flatte)
  else if str_eqb ty (mdName MFlat) then Some (Some MFlat)
  else if str_eqb ty (mdName (MBinned 0 0)) then doP m <- createBinned settings; Some (Some m)
  else if str_eqb ty (mdName MBW) then Some (Some MBW)
  else if str_eqb ty (mdName MConstWidth) then Some (Some MConstWidth)
  else if str_eqb ty (mdName MRho) then Some (Some MRho)
  else if str_eqb ty (mdName MF0) then Some (Some MF0)
  else if str_eqb ty (mdName MF0Flatte) then Some (Some MF0Flatte)
  else if str_eqb ty (mdName MAmpM) then Some (Some MAmpM)
  else if str_eqb ty (mdName MAmpVes) then Some (Some MAmpVes)
  else if str_eqb ty (mdName MAmpKachaev) then Some (Some MAmpKachaev)
  else if str_eqb ty (mdName MRhoPrime) then Some (Some MRhoPrime)
  else if str_eqb ty (lit "KPiSGLASS"%string) then doP m <- createGlass settings; Some (Some m)
  else if str_eqb ty (mdName (MPalano 0)) then Some (Some (createPalano settings))
  else Some None.
(* waveDescription.cc 834-851 *)
Definition mapMassDependenceType (massDepKey : option setting) : option mdep :=
  let ty := match massDepKey with Some s => match lookStr (lit "name"%string) s with Some n => n | None => [] end | None => [] end in
  doP m <- createMassDependence ty massDepKey;
  Some (match m with Some d => d | None => MBW end).

(* ---------------- decay topologies ---------------- *)
(* isobarDecayTopology.h, isobarDecayVertex.h 120-126: final-state particle, or vertex with parent, L, S, mass dependence
   and two daughters *)
Inductive wdecay := WFs (p : particle) | WNode (p : particle) (L S : Z) (md : mdep) (d1 d2 : wdecay).
(* isobarDecayVertex.h 87-92: the particle at the top of a (sub)decay *)
Definition wTop (d : wdecay) : particle := match d with WFs p => p | WNode p _ _ _ _ _ => p end.
(* decayTopology.h 116: isFsParticle *)
Definition isFs (d : wdecay) : bool := match d with WFs _ => true | _ => false end.
(* isobarDecayVertex.cc 131-143 with interactionVertex.cc 100-112 *)
Definition vertexEqual (v w : wdecay) : bool :=
  match v, w with
  | WNode p L Sp md a b, WNode p' L' Sp' md' a' b' =>
      partEqual p p' && partEqual (wTop a) (wTop a') && partEqual (wTop b) (wTop b') && (L =? L') && (Sp =? Sp') && mdEqual md md'
  | _, _ => false
  end.
(* interactionVertex.h 115-116, leptoProductionVertex.h 129: kind, incoming particles, outgoing particles after the X particle (which is the top of the decay) and
   the beam polarisation *)
Record prodVert := PV { pvLepto : bool; pvIn : list particle; pvOut : list particle; pvPol : R }.
(* diffractiveDissVertex.cc 57-89 *)
Definition createDiffractive (beam target : particle) (recoil : option particle) : prodVert :=
  PV false [beam; target] [match recoil with Some r => r | None => target end] 0.
(* C++ conversion of int to unsigned int, 32 bits *)
Definition toUnsigned (z : Z) : Z := z mod 4294967296.
(* C++ conversion of unsigned int to int, 32 bits *)
Definition toInt (z : Z) : Z := if z <? 2147483648 then z else z - 4294967296.

(* ---------------- reading ---------------- *)
(* particle.h 160-169 with particle.cc 76-92: a particle that is not in the table gets at least the name *)
Definition createParticle (t : table) (n : str) : option particle :=
  doP f <- fillFromDataTable t n;
  match f with
  | Some p => Some (Part p 0 (-1) 0)
  | None => doP p <- setName n pDefault; Some (Part p 0 (-1) 0)
  end.
(* leptoProductionVertex.cc 61-93: a recoil particle that is given is not added *)
Definition createLepto (t : table) (beam target : particle) (recoil : option particle) : option prodVert :=
  doP gamma <- createParticle t (lit "gamma"%string);
  Some (PV true [beam; target; gamma] ((match recoil with None => [target] | Some _ => [] end) ++ [beam]) 0).
(* waveDescription.cc 801-831: [Some None] = false is returned *)
Definition readParticle (t : table) (key : setting) : option (option particle) :=
  match lookStr (lit "name"%string) key with
  | None => Some None
  | Some n =>
      doP p <- createParticle t n;
      let p := match lookInt (lit "spinProj"%string) key with Some m => Part (ptP p) m (ptIndex p) (ptRefl p) | None => p end in
      let p := match lookInt (lit "index"%string) key with Some i => Part (ptP p) (ptM p) i (ptRefl p) | None => p end in
      Some (Some p)
  end.
(* waveDescription.cc 673-716; particleProperties.cc 133-155 and particle.cc 95-108 for the constructor *)
Definition readX (key : setting) : option (option particle) :=
  match lookInt (lit "isospin"%string) key, lookInt (lit "J"%string) key, lookInt (lit "P"%string) key, lookInt (lit "M"%string) key with
  | Some Iso, Some J, Some P, Some M =>
      let opt k := match lookInt k key with Some z => z | None => 0 end in
      doP p <- setName (lit "X"%string) pDefault;
      let p := setC (opt (lit "C"%string)) (setP P (setJ J (setG (opt (lit "G"%string)) (setIsospin Iso p)))) in
      let p := setBaryonNmb (opt (lit "baryonNmb"%string)) p in
      let p := setBeauty (opt (lit "beauty"%string)) (setCharm (opt (lit "charm"%string)) (setStrangeness (opt (lit "strangeness"%string)) p)) in
      Some (Some (Part p M (-1) (opt (lit "refl"%string))))
  | _, _, _, _ => Some None
  end.
(* waveDescription.cc 719-771: beam, recoil and target in the order of the map *)
Definition mapProductionVertexType (t : table) (key : setting) (ty : str) : option (option prodVert) :=
  let diff := str_eqb ty (lit "diffractiveDissVertex"%string) in
  let lepto := str_eqb ty (lit "leptoProductionVertex"%string) in
  if diff || lepto then
    let get k := match findGroup k key with
                 | Some s => doP p <- readParticle t s; Some (Some p)
                 | None => Some None
                 end in
    doP beam <- get (lit "beam"%string);
    doP recoil <- get (lit "recoil"%string);
    doP target <- get (lit "target"%string);
    match beam, recoil, target with
    | Some (Some b), (None | Some (Some _)), Some (Some tg) =>
        let r := match recoil with Some o => o | None => None end in
        if diff then Some (Some (createDiffractive b tg r))
        else doP v <- createLepto t b tg r;
             let pol := match findGroup (lit "beam"%string) key with
                        | Some s => match lookFloat (lit "longPol"%string) s with Some x => x | None => 0%R end
                        | None => 0%R
                        end in
             Some (Some (PV (pvLepto v) (pvIn v) (pvOut v) pol))
    | _, _, _ => Some None
    end
  else Some None.
(* waveDescription.cc 775-798 *)
Definition constructProductionVertex (t : table) (root : setting) : option (option prodVert) :=
  match findGroup (lit "productionVertex"%string) root with
  | None => Some None
  | Some key => mapProductionVertexType t key (match lookStr (lit "type"%string) key with Some ty => ty | None => [] end)
  end.
(* waveDescription.cc 864-874: final-state daughters that could be read, and whether all could *)
Fixpoint readFs (t : table) (keys : list setting) : option (list particle * bool) :=
  match keys with
  | [] => Some ([], true)
  | k :: r =>
      doP p <- readParticle t k; doP q <- readFs t r;
      Some (match p with Some x => (x :: fst q, snd q) | None => (fst q, false) end)
  end.
(* waveDescription.cc 876-888: isobar daughters; [last] = isobarDaughters.back(), undefined while the vector is empty *)
Fixpoint readIsobars (t : table) (rec : setting -> particle -> option (option wdecay)) (last : option particle) (keys : list setting)
  : option (list wdecay * bool) :=
  match keys with
  | [] => Some ([], true)
  | k :: r =>
      doP p <- readParticle t k;
      match p with
      | Some x => doP d <- rec k x; doP q <- readIsobars t rec (Some x) r;
                  Some (match d with Some y => (y :: fst q, snd q) | None => (fst q, false) end)
      | None => doP l <- last; doP _ <- rec k l; doP q <- readIsobars t rec last r; Some (fst q, false)
      end
  end.
(* waveDescription.cc 854-936; [fuel] bounds the depth of the setting; [Some None] = false is returned *)
Fixpoint readVertex (fuel : nat) (t : table) (key : setting) (parent : particle) : option (option wdecay) :=
  match fuel with
  | O => None
  | S n =>
      doP fs <- readFs t (match findList (lit "fsParticles"%string) key with Some l => l | None => [] end);
      doP iso <- readIsobars t (readVertex n t) None (match findList (lit "isobars"%string) key with Some l => l | None => [] end);
      if negb (snd fs && snd iso) then Some None
      else
        let '(L, Sp) := match lookInt (lit "L"%string) key with
                        | Some L => (L, match lookInt (lit "S"%string) key with Some Sp => Sp | None => 0 end)
                        | None => (0, 0)
                        end in
        let ds := match fst fs, fst iso with
                  | [f], [i] => if (indexOf (lit "fsParticles"%string) key <? indexOf (lit "isobars"%string) key)%nat
                                then Some (WFs f, i) else Some (i, WFs f)
                  | [f; g], [] => Some (WFs f, WFs g)
                  | [], [i; j] => Some (i, j)
                  | _, _ => None
                  end in
        match ds with
        | None => Some None
        | Some (a, b) =>
            doP md <- (if str_eqb (pName (ptP parent)) (lit "X"%string) then Some MFlat
                       else mapMassDependenceType (findGroup (lit "massDep"%string) key));
            Some (Some (WNode parent (toUnsigned L) (toUnsigned Sp) md a b))
        end
  end.
(* isobarDecayTopology.cc 274-303: charges from the final state up; [top] = the parent is the X particle *)
Fixpoint isobarCharges (t : table) (top : bool) (d : wdecay) : option wdecay :=
  match d with
  | WFs p => Some (WFs p)
  | WNode p L Sp md x1 x2 =>
      doP y1 <- isobarCharges t false x1;
      doP y2 <- isobarCharges t false x2;
      let q := pCharge (ptP (wTop y1)) + pCharge (ptP (wTop y2)) in
      doP pp <- setCharge q (ptP p);
      doP pp <- (if negb (pCharge (ptP p) =? q) && negb top then
                   doP f <- fillFromDataTable t (name pp); Some (match f with Some e => e | None => pp end)
                 else Some pp);
      let pp := if top && negb (pCharge pp =? 0) && negb (pC pp =? 0) then setC 0 pp else pp in
      Some (WNode (Part pp (ptM p) (ptIndex p) (ptRefl p)) L Sp md y1 y2)
  end.
(* glue: no counterpart in /repo, a bound for the depth of a setting *)
Fixpoint ssize (s : setting) : nat :=
  match s with
  | SGroup l => S (fold_right (fun kv a => ssize (snd kv) + a)%nat 0%nat l)
  | SList l => S (fold_right (fun x a => ssize x + a)%nat 0%nat l)
  | _ => 1%nat
  end.
(* waveDescription.cc 397-468 *)
Definition constructDecayTopology (t : table) (fromTemplate : bool) (root : setting) : option (option (prodVert * wdecay)) :=
  match findGroup (lit "decayVertex"%string) root with
  | None => Some None
  | Some dv =>
      doP X <- (match findGroup (lit "XQuantumNumbers"%string) dv with
                | None => if fromTemplate then doP p <- createParticle t (lit "X"%string); Some (Some p) else Some None
                | Some q => readX q
                end);
      match X with
      | None => Some None
      | Some x =>
          doP pv <- constructProductionVertex t root;
          match pv, findGroup (lit "XDecay"%string) dv with
          | Some v, Some xd =>
              doP d <- readVertex (S (ssize root)) t xd x;
              match d with
              | None => Some None
              | Some w => doP w <- isobarCharges t true w; Some (Some (v, w))
              end
          | _, _ => Some None
          end
      end
  end.
(* waveDescription.cc 488-539, 939-954: amplitude formalism (canonical or helicity) and options *)
Record ampOpts := AO { aoCanonical : bool; aoBose : bool; aoIsospin : bool; aoRefl : bool }.
(* waveDescription.cc 503-539, 939-954 *)
Definition readAmpOpts (root : setting) : ampOpts :=
  match findGroup (lit "amplitude"%string) root with
  | None => AO false true true true
  | Some a =>
      let b k := match lookBool k a with Some x => x | None => true end in
      AO (match lookStr (lit "formalism"%string) a with Some f => str_eqb f (lit "canonical"%string) | None => false end)
         (b (lit "boseSymmetrize"%string)) (b (lit "isospinSymmetrize"%string)) (b (lit "useReflectivityBasis"%string))
  end.

(* ---------------- writing ---------------- *)
(* waveDescription.cc 957-998; [None] = an out-of-range access, [Some None] = false is returned *)
Definition prodVertKeys (v : prodVert) : option (list (str * setting)) :=
  match pvIn v, pvOut v with
  | beam :: target :: _, recoil :: _ =>
      let nm (p : particle) := (lit "name"%string, SString (name (ptP p))) in
      Some ((lit "type"%string, SString (if pvLepto v then lit "leptoProductionVertex"%string else lit "diffractiveDissVertex"%string)) ::
            (lit "beam"%string, SGroup (nm beam :: if pvLepto v then [(lit "longPol"%string, SFloat (pvPol v))] else [])) ::
            (if str_eqb (name (ptP recoil)) (name (ptP target)) then [] else [(lit "recoil"%string, SGroup [nm recoil])]) ++
            [(lit "target"%string, SGroup [nm target])])
  | _, _ => None
  end.
(* waveDescription.cc 1001-1026 *)
Definition XQnKeys (X : particle) : list (str * setting) :=
  let opt (k : str) z := if z =? 0 then [] else [(k, SInt z)] in
  let p := ptP X in
  [(lit "isospin"%string, SInt (pI p))] ++ opt (lit "G"%string) (pG p) ++ [(lit "J"%string, SInt (pJ p)); (lit "P"%string, SInt (pP p))] ++
  opt (lit "C"%string) (pC p) ++ [(lit "M"%string, SInt (ptM X))] ++ opt (lit "refl"%string) (ptRefl X) ++ opt (lit "baryonNmb"%string) (pB p) ++
  opt (lit "strangeness"%string) (pS p) ++ opt (lit "charm"%string) (pCharm p) ++ opt (lit "beauty"%string) (pBeauty p).
(* waveDescription.cc 1029-1059 *)
Definition massDepKeys (md : mdep) (XDecay : bool) : list (str * setting) :=
  if XDecay && str_eqb (mdName md) (mdName MFlat) then []
  else if negb XDecay && str_eqb (mdName md) (mdName MBW) then []
  else [(lit "massDep"%string,
         SGroup ((lit "name"%string, SString (mdName md)) ::
                 match md with MBinned lo hi => [(lit "bounds"%string, SList [SFloat lo; SFloat hi])] | _ => [] end))].
(* waveDescription.cc 1062-1100: [X] is the decay of the X particle *)
Fixpoint decayKeys (X : wdecay) (d : wdecay) : list (str * setting) :=
  match d with
  | WFs _ => []
  | WNode p L Sp md d1 d2 =>
      let iso x := match x with WFs _ => [] | WNode q _ _ _ _ _ => [SGroup ((lit "name"%string, SString (name (ptP q))) :: decayKeys X x)] end in
      let fs x := match x with WFs q => [SGroup [(lit "name"%string, SString (name (ptP q)))]] | WNode _ _ _ _ _ _ => [] end in
      let listKey (k : str) l := match l with [] => [] | _ => [(k, SList l)] end in
      massDepKeys md (vertexEqual X d) ++
      listKey (lit "isobars"%string) (iso d1 ++ iso d2) ++
      [(lit "L"%string, SInt (toInt L)); (lit "S"%string, SInt (toInt Sp))] ++
      listKey (lit "fsParticles"%string) (fs d1 ++ fs d2)
  end.
(* waveDescription.cc 1103-1130: the keys of a topology; the return value of setProductionVertexKeys is ignored *)
Definition topologyKeys (setProdVert : bool) (v : prodVert) (d : wdecay) : option (list (str * setting)) :=
  doP pv <- (if setProdVert then doP k <- prodVertKeys v; Some [(lit "productionVertex"%string, SGroup k)] else Some []);
  Some (pv ++ [(lit "decayVertex"%string,
                SGroup [(lit "XQuantumNumbers"%string, SGroup (XQnKeys (wTop d))); (lit "XDecay"%string, SGroup (decayKeys d d))])]).
(* waveDescription.cc 1133-1160 *)
Definition amplitudeKeys (a : ampOpts) : list (str * setting) :=
  (if aoCanonical a then [(lit "formalism"%string, SString (lit "canonical"%string))] else []) ++
  (if aoBose a then [] else [(lit "boseSymmetrize"%string, SBool false)]) ++
  (if aoIsospin a then [] else [(lit "isospinSymmetrize"%string, SBool false)]) ++
  (if aoRefl a then [] else [(lit "useReflectivityBasis"%string, SBool false)]).
(* waveDescription.cc 1163-1222: the root group written by writeKeyFile for a topology, and for an amplitude *)
Definition keyFile (v : prodVert) (d : wdecay) (a : option ampOpts) : option setting :=
  doP k <- topologyKeys true v d;
  Some (SGroup (k ++ match a with Some o => [(lit "amplitude"%string, SGroup (amplitudeKeys o))] | None => [] end)).
