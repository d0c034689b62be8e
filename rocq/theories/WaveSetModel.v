(* Model of decayAmplitude/waveSetGenerator.cc: generateWaveSet, createNewDecayTopology and
   setMassDepsForDecayTopology.

   Simplifications: int and unsigned int are Z, double is R; a decay topology is the binary tree of its isobar
   decay vertices with particles by value (the template topology is a binary tree, so the loop over the nodes in reverse
   depth-first order with the map decayPossibilities is the recursion over the tree); a mass
   dependence is given by its name; all printing is dropped; the removal of Bose duplicates and the check of
   the wave names at the end of generateWaveSet are not part of this model.
   [None] = the process is terminated (failed assertion, throw) or undefined behaviour. *)
From Coq Require Import String Ascii List ZArith Bool Reals.
From Verif Require Import PathModel StrModel SpinModel CGModel ParticleModel PhysModel.
Import ListNotations.
Open Scope list_scope. Open Scope Z_scope.

(* particleData/particle.h 60-140: properties, spin projection, index, reflectivity *)
Record particle := Part { ptP : pprops; ptM : Z; ptIndex : Z; ptRefl : Z }.
(* particleData/particle.cc 138-149 *)
Definition partEqual (p q : particle) : bool :=
  isEqualTo (ptP p) (ptP q) && (ptM p =? ptM q) && (ptIndex p =? ptIndex q) && (ptRefl p =? ptRefl q).
(* particleProperties.h 231-236 *)
Definition isXParticle (p : pprops) : bool :=
  str_eqb (pName p) (lit "X"%string) || str_eqb (pName p) (lit "X-"%string) || str_eqb (pName p) (lit "X0"%string) || str_eqb (pName p) (lit "X+"%string).

(* template: final-state particle, or decay vertex with parent particle and mass dependence *)
Inductive tmpl := TFs (p : particle) | TNode (parent : particle) (massDep : str) (d1 d2 : tmpl).
(* decay topology: final-state particle, or decay vertex with parent, L, S, mass dependence and daughters *)
Inductive decay := DFs (p : particle) | DNode (parent : particle) (L S : Z) (massDep : str) (d1 d2 : decay).
(* particle at the top of a (sub)decay, waveSetGenerator.cc 184-189 *)
Definition topPart (d : decay) : particle := match d with DFs p => p | DNode p _ _ _ _ _ => p end.

(* waveSetGenerator.h: parameters *)
(* waveSetGenerator.h: parameters read from the key file, waveSetGenerator.cc 70-135 *)
Record cfg := Cfg { cI : Z * Z; cJ : Z * Z; cM : Z * Z; cL : Z * Z; cS : Z * Z; cRefl : Z; cUseRefl : bool; cExotic : bool;
  cMinMass : bool; cSigma : R; cBlack : list str; cWhite : list str; cForce : bool }.

(* the loops append to one vector in order *)
(* glue: no counterpart in /repo, append the results of a possibly aborting function *)
Fixpoint concatO {A B} (f : A -> option (list B)) (l : list A) : option (list B) :=
  match l with
  | [] => Some []
  | x :: t => doP a <- f x; doP b <- concatO f t; Some (a ++ b)
  end.

(* decayAmplitude/massDependence.h 203 *)
Definition bwName : str := lit "relativisticBreitWigner"%string.
(* std::find on a vector of strings *)
Definition inStr (x : str) (l : list str) : bool := existsb (str_eqb x) l.
(* waveSetGenerator.cc 611-636: mass dependences of one decay mode; state: used names, result *)
Definition massDepStep (known : str -> bool) (st : option (list str * list str)) (md : str) : option (list str * list str) :=
  doP s <- st;
  let '(used, res) := s in
  if inStr md used then Some (used, res)
  else if negb (known md) then None
  else
    let used := md :: used in
    let used := if str_eqb md bwName then [] :: used else used in
    let used := if str_eqb md [] then bwName :: used else used in
    Some (used, res ++ [md]).
(* waveSetGenerator.cc 600-653; [known] = createMassDependence knows the name; the mass dependence of the unchanged topology
   is the one of the template *)
Definition setMassDeps (known : str -> bool) (isobar : pprops) (dm : decayMode) (template : str) : option (list str) :=
  doP s <- fold_left (fun st mode =>
      doP s <- st;
      if negb (decayEq mode dm) then Some s
      else match dmMassDeps mode with
           | [] => if inStr bwName (fst s) then Some s else Some ([] :: bwName :: fst s, snd s ++ [template])
           | l => fold_left (massDepStep known) l (Some s)
           end) (pDecays isobar) (Some ([], []));
  match snd s with [] => Some [template] | l => Some l end.

(* waveSetGenerator.cc 577-599: properties of the parent after createNewDecayTopology *)
Definition newParent (parent : particle) (isobar : pprops) (charge : Z) : option particle :=
  doP p <- setCharge charge isobar; Some (Part p (ptM parent) (ptIndex parent) (ptRefl parent)).

(* waveSetGenerator.cc 337-341 *)
Definition isobarProps (parent : pprops) (B S c b I G J P C : Z) : pprops :=
  setC C (setP P (setJ J (setG G (setIsospin I (setBeauty b (setCharm c (setStrangeness S (setBaryonNmb B parent)))))))).

(* waveSetGenerator.cc 343-392: X particle *)
Definition emitX (c : cfg) (parent : particle) (md : str) (prop : pprops) (charge : Z) (L S J P : Z) (x1 x2 : decay) : option (list decay) :=
  let mLo := spinQnLargerEqual (if cUseRefl c then spinQnSmallerEqual J 0 else - J) (fst (cM c)) in
  let mHi := spinQnSmallerEqual J (snd (cM c)) in
  let reflRange := if cUseRefl c then (if cRefl c =? 0 then (-1, 1) else (signum (cRefl c), signum (cRefl c))) else (0, 0) in
  concatO (fun M => concatO (fun refl =>
    if cUseRefl c && (M =? 0) && (reflectivityFactor J P M refl =? 1) then Some []
    else doP p <- newParent parent prop charge; Some [DNode (Part (ptP p) M (ptIndex p) refl) L S md x1 x2])
    (spinLoop reflRange)) (spinLoop (mLo, mHi)).

(* waveSetGenerator.cc 393-432: isobar *)
Definition emitIsobar (t : table) (known : str -> bool) (c : cfg) (parent : particle) (md : str) (prop : pprops) (charge : Z) (L S : Z) (x1 x2 : decay) : option (list decay) :=
  let d1 := ptP (topPart x1) in let d2 := ptP (topPart x2) in
  let minMass := (if cMinMass c then (pMass d1 - cSigma c * pWidth d1) + (pMass d2 - cSigma c * pWidth d2) else 0)%R in
  let dm := mkDecay [name d1; name d2] L S in
  concatO (fun iso =>
    doP p <- newParent parent iso charge;
    doP mds <- setMassDeps known iso dm md;
    Some (map (fun m => DNode p L S m x1 x2) mds))
  (entriesMatching t prop (lit "allQn"%string) minMass (cSigma c) (cWhite c) (cBlack c) dm (cForce c)).

(* waveSetGenerator.cc 253-341: one combination of S, L, J and I *)
Definition tryQn (t : table) (known : str -> bool) (c : cfg) (parent : particle) (md : str) (x1 x2 : decay) (S L J I : Z) : option (list decay) :=
  let d1 := ptP (topPart x1) in let d2 := ptP (topPart x2) in
  let B := pB d1 + pB d2 in let Q := pCharge d1 + pCharge d2 in let St := pS d1 + pS d2 in
  let ch := pCharm d1 + pCharm d2 in let be := pBeauty d1 + pBeauty d2 in let G := pG d1 * pG d2 in
  let P := pP d1 * pP d2 * powMinusOne (Z.quot L 2) in
  let Iz := 2 * Q - (B + St + ch + be) in
  let C := if (B =? 0) && (Iz =? 0) && (St =? 0) && (ch =? 0) && (be =? 0) then G * powMinusOne (Z.quot I 2) else 0 in
  doP can <- spinStatesCanCouple (pI d1) (isospinProj d1) (pI d2) (isospinProj d2) I Iz;
  if negb can then Some []
  else if negb (cExotic c) && igjpIsExotic I G J P then Some []
  else
    doP anti <- antiPartProperties t false d2;
    let isPair := isEqualTo anti d1 in
    if isPair && negb (G =? powMinusOne (Z.quot (I + L + S) 2)) then Some []
    else if isPair && negb ((Iz =? 0) && (C =? powMinusOne (Z.quot (L + S) 2))) then None
    else if partEqual (topPart x1) (topPart x2) && negb (powMinusOne (Z.quot (I + L + S) 2) =? powMinusOne (pI d1)) then Some []
    else
      let prop := isobarProps (ptP parent) B St ch be I G J P C in
      if isXParticle (ptP parent) then emitX c parent md prop Q L S J P x1 x2
      else emitIsobar t known c parent md prop Q L S x1 x2.

(* waveSetGenerator.cc 181-436: one combination of daughter decays *)
Definition combineDecays (t : table) (known : str -> bool) (c : cfg) (parent : particle) (md : str) (x1 x2 : decay) : option (list decay) :=
  let d1 := ptP (topPart x1) in let d2 := ptP (topPart x2) in
  concatO (fun S =>
    concatO (fun L =>
      concatO (fun J =>
        concatO (fun I => tryQn t known c parent md x1 x2 S L J I)
          (spinLoop (fst (getSpinRangeDemanded (pI d1) (pI d2) (cI c)))))
        (spinLoop (fst (getSpinRangeDemanded L S (cJ c)))))
      (spinLoop (Z.max 0 (fst (cL c)), snd (cL c))))
    (spinLoop (fst (getSpinRangeDemanded (pJ d1) (pJ d2) (cS c)))).

(* waveSetGenerator.cc 162-437 *)
Fixpoint decayPossibilities (t : table) (known : str -> bool) (c : cfg) (tm : tmpl) : option (list decay) :=
  match tm with
  | TFs p => Some [DFs p]
  | TNode parent md t1 t2 =>
      doP l1 <- decayPossibilities t known c t1;
      doP l2 <- decayPossibilities t known c t2;
      concatO (fun x1 => concatO (fun x2 => combineDecays t known c parent md x1 x2) l2) l1
  end.

(* isobarDecayTopology.cc 274-303: from the final state up; [top] = the parent is the X particle, whose charge is not looked
   up in the table *)
Fixpoint calcIsobarCharges (t : table) (top : bool) (d : decay) : option decay :=
  match d with
  | DFs p => Some (DFs p)
  | DNode p L Sp md x1 x2 =>
      doP y1 <- calcIsobarCharges t false x1;
      doP y2 <- calcIsobarCharges t false x2;
      let q := pCharge (ptP (topPart y1)) + pCharge (ptP (topPart y2)) in
      doP pp <- setCharge q (ptP p);
      doP pp <- (if negb (pCharge (ptP p) =? q) && negb top then
                   doP f <- fillFromDataTable t (name pp); Some (match f with Some e => e | None => pp end)
                 else Some pp);
      let pp := if top && negb (pCharge pp =? 0) && negb (pC pp =? 0) then setC 0 pp else pp in
      Some (DNode (Part pp (ptM p) (ptIndex p) (ptRefl p)) L Sp md y1 y2)
  end.

(* diffractiveDissVertex.cc 158-167 *)
Definition setXFlavorQN (beam : pprops) (d : decay) : decay :=
  match d with
  | DFs p => DFs p
  | DNode p L Sp md x1 x2 =>
      DNode (Part (setBeauty (pBeauty beam) (setCharm (pCharm beam) (setStrangeness (pS beam) (setBaryonNmb (pB beam) (ptP p))))) (ptM p) (ptIndex p) (ptRefl p)) L Sp md x1 x2
  end.

(* waveSetGenerator.cc 438-450; the template is checked before (142-151) *)
Definition generateWaves (t : table) (known : str -> bool) (c : cfg) (beam : pprops) (tm : tmpl) : option (list decay) :=
  doP l <- decayPossibilities t known c tm;
  mapP (fun d => doP d' <- calcIsobarCharges t true d; Some (setXFlavorQN beam d')) l.
