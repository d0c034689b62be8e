(* Specification of wave-set generation (C55), independent of the loops of the code: which decays the wave set of a template
   consists of. Spins and isospins in units of hbar/2. *)
From Coq Require Import String List ZArith QArith Bool Reals.
From Verif Require Import PathModel StrModel SpinSpec CGSpec ParticleModel ParticleProps ParticleProps2 WaveSetModel.
Import ListNotations.
Open Scope list_scope. Open Scope Z_scope.

Definition inRange (r : Z * Z) (x : Z) : Prop := fst r <= x <= snd r.

(* d1 is the antiparticle of d2 *)
Definition antiPair (d1 d2 : pprops) : Prop :=
  name d1 = antiPartName d2 /\ antiPartName d1 = name d2 /\ pCharge d1 = - pCharge d2 /\ pMass d1 = pMass d2 /\ pWidth d1 = pWidth d2 /\
  pB d1 = - pB d2 /\ pS d1 = - pS d2 /\ pCharm d1 = - pCharm d2 /\ pBeauty d1 = - pBeauty d2 /\
  pI d1 = pI d2 /\ pG d1 = pG d2 /\ pJ d1 = pJ d2 /\ pP d1 = pP d2 /\ pC d1 = pC d2.
(* the same particle in every respect, including spin projection, final-state index and reflectivity *)
Definition sameParticle (p q : particle) : Prop :=
  let d1 := ptP p in let d2 := ptP q in
  name d1 = name d2 /\ antiPartName d1 = antiPartName d2 /\ pCharge d1 = pCharge d2 /\ pMass d1 = pMass d2 /\ pWidth d1 = pWidth d2 /\
  pB d1 = pB d2 /\ pS d1 = pS d2 /\ pCharm d1 = pCharm d2 /\ pBeauty d1 = pBeauty d2 /\
  pI d1 = pI d2 /\ pG d1 = pG d2 /\ pJ d1 = pJ d2 /\ pP d1 = pP d2 /\ pC d1 = pC d2 /\
  ptM p = ptM q /\ ptIndex p = ptIndex q /\ ptRefl p = ptRefl q.

(* the decay into p1 and p2 with total spin S, orbital angular momentum L, spin J and isospin I is allowed *)
Record allowedVertex (c : cfg) (p1 p2 : particle) (S L J I : Z) : Prop := {
  aS : couples (pJ (ptP p1)) (pJ (ptP p2)) S /\ inRange (cS c) S;
  aL : (exists l, 0 <= l /\ L = 2 * l) /\ inRange (cL c) L;
  aJ : couples L S J /\ inRange (cJ c) J;
  aI : couples (pI (ptP p1)) (pI (ptP p2)) I /\ inRange (cI c) I;
  (* the isospin Clebsch-Gordan coefficient does not vanish *)
  aIz : let i1 := isospinProj (ptP p1) in let i2 := isospinProj (ptP p2) in
        cgAdmissible (pI (ptP p1)) i1 (pI (ptP p2)) i2 I (i1 + i2) /\
        ~ (sumQ (Z.to_nat (I + (i1 + i2) + 1)) (wignerTerm (pI (ptP p1)) i1 (pI (ptP p2)) i2 I (i1 + i2)) == 0)%Q;
  (* IG(JP) can be that of a quark-antiquark state, unless exotic states are requested *)
  aX : cExotic c = true \/ forall i j l, I = 2 * i -> J = 2 * j -> L = 2 * l ->
       let G := pG (ptP p1) * pG (ptP p2) in let P := pP (ptP p1) * pP (ptP p2) * minusOnePow l in
       G <> 0 -> P <> 0 -> quarkModelIGJP i G j P;
  (* G parity of particle-antiparticle systems; symmetry of systems of two identical particles *)
  aPair : antiPair (ptP p1) (ptP p2) -> forall n, I + L + S = 2 * n -> pG (ptP p1) * pG (ptP p2) = minusOnePow n;
  aIdent : sameParticle p1 p2 -> forall n, I + L + S = 2 * n -> minusOnePow n = minusOnePow (pI (ptP p1)) }.

(* quantum numbers of the parent: conserved or fixed by the daughters *)
Record parentQn (d1 d2 : pprops) (L J I : Z) (p : pprops) : Prop := {
  qCharge : pCharge p = pCharge d1 + pCharge d2; qB : pB p = pB d1 + pB d2; qS : pS p = pS d1 + pS d2;
  qCharm : pCharm p = pCharm d1 + pCharm d2; qBeauty : pBeauty p = pBeauty d1 + pBeauty d2;
  qI : pI p = I; qJ : pJ p = J; qG : pG p = pG d1 * pG d2;
  qP : forall l, L = 2 * l -> pP p = pP d1 * pP d2 * minusOnePow l;
  (* C parity is defined for neutral states without flavour *)
  qC : (pCharge p = 0 /\ pB p = 0 /\ pS p = 0 /\ pCharm p = 0 /\ pBeauty p = 0 -> forall i, I = 2 * i -> pC p = pG p * minusOnePow i) /\
       (~ (pCharge p = 0 /\ pB p = 0 /\ pS p = 0 /\ pCharm p = 0 /\ pBeauty p = 0) -> pC p = 0) }.

(* spin projection and reflectivity of X *)
Definition allowedMRefl (c : cfg) (J P M refl : Z) : Prop :=
  isProjOf J M /\ inRange (cM c) M /\
  (if cUseRefl c then 0 <= M /\ isSign refl /\ (cRefl c <> 0 -> refl = Z.sgn (cRefl c)) /\
                      (* at M = 0 the amplitude is proportional to 1 - refl P (-1)^J *)
                      (M = 0 -> forall j, J = 2 * j -> refl * P * minusOnePow j <> 1)
   else refl = 0).

(* isobar p fits the mass window, the lists and its decay modes *)
Definition isCandidate (c : cfg) (d1 d2 : pprops) (L S : Z) (p : pprops) : Prop :=
  (cMinMass c = true ->
     let minMass := ((pMass d1 - cSigma c * pWidth d1) + (pMass d2 - cSigma c * pWidth d2))%R in
     (0 < minMass)%R -> (minMass <= pMass p + cSigma c * pWidth p)%R) /\
  (cWhite c <> [] -> onList p (cWhite c)) /\ ~ onList p (cBlack c) /\
  (pDecays p = [] -> cForce c = false) /\
  (pDecays p <> [] -> exists m, In m (pDecays p) /\ decayEq m (mkDecay [name d1; name d2] L S) = true).

(* mass dependences requested by the decay modes of p that match the decay; [None] = the default of the template; the default and
   the empty name stand for the relativistic Breit-Wigner; of several requests for the same the first one counts *)
Definition requested (p : pprops) (dm : decayMode) : list (option str) :=
  flat_map (fun m => if decayEq m dm then match dmMassDeps m with [] => [None] | l => map Some l end else []) (pDecays p).
Definition meaning (r : option str) : str := match r with None => bwName | Some [] => bwName | Some s => s end.
Definition massDepChoice (p : pprops) (dm : decayMode) (template : str) (m : str) : Prop :=
  (requested p dm = [] /\ m = template) \/
  exists before r after, requested p dm = before ++ r :: after /\ m = match r with None => template | Some s => s end /\
    forall r', In r' before -> meaning r' <> meaning r.

(* the decays of a template: for every vertex every allowed combination of quantum numbers; an isobar is any matching entry
   of the particle table (with definitions [ps]), X gets every allowed spin projection and reflectivity *)
Inductive wave (ps : list pprops) (c : cfg) : tmpl -> decay -> Prop :=
| WFs p : wave ps c (TFs p) (DFs p)
| WX parent md t1 t2 x1 x2 S L J I p M refl :
    isXParticle (ptP parent) = true -> wave ps c t1 x1 -> wave ps c t2 x2 ->
    allowedVertex c (topPart x1) (topPart x2) S L J I -> parentQn (ptP (topPart x1)) (ptP (topPart x2)) L J I p ->
    (pName p = pName (ptP parent) /\ pAnti p = pAnti (ptP parent) /\ pMass p = pMass (ptP parent) /\ pMass2 p = pMass2 (ptP parent) /\
     pWidth p = pWidth (ptP parent) /\ pDecays p = pDecays (ptP parent)) ->
    allowedMRefl c J (pP p) M refl ->
    wave ps c (TNode parent md t1 t2) (DNode (Part p M (ptIndex parent) refl) L S md x1 x2)
| WIsobar parent md t1 t2 x1 x2 S L J I p m :
    isXParticle (ptP parent) = false -> wave ps c t1 x1 -> wave ps c t2 x2 ->
    allowedVertex c (topPart x1) (topPart x2) S L J I -> parentQn (ptP (topPart x1)) (ptP (topPart x2)) L J I p ->
    entry (addAll ps) (name p) = Some p -> isCandidate c (ptP (topPart x1)) (ptP (topPart x2)) L S p ->
    massDepChoice p (mkDecay [name (ptP (topPart x1)); name (ptP (topPart x2))] L S) md m ->
    wave ps c (TNode parent md t1 t2) (DNode (Part p (ptM parent) (ptIndex parent) (ptRefl parent)) L S m x1 x2).

(* well-formed templates: final-state particles as the setters leave them, charges of the isobars already computed
   (calcIsobarCharges in constructDecayTopology), X at the top only *)
Definition topTmpl (t : tmpl) : particle := match t with TFs p => p | TNode p _ _ _ => p end.
Definition notX (t : tmpl) : Prop := match t with TFs _ => True | TNode p _ _ _ => isXParticle (ptP p) = false end.
Fixpoint tmplOk (t : tmpl) : Prop :=
  match t with
  | TFs p => normalised (ptP p)
  | TNode p _ t1 t2 => tmplOk t1 /\ tmplOk t2 /\ notX t1 /\ notX t2 /\
                       pCharge (ptP p) = pCharge (ptP (topTmpl t1)) + pCharge (ptP (topTmpl t2)) /\ Z.abs (pCharge (ptP p)) <= 9
  end.
(* twice the sum of the spins of the final-state particles *)
Fixpoint spinSum (t : tmpl) : Z := match t with TFs p => pJ (ptP p) | TNode _ _ t1 t2 => spinSum t1 + spinSum t2 end.
