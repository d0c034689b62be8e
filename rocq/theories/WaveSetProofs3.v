(* Proofs about WaveSetModel, third part: the generated decays of one vertex and of the whole template. *)
From Coq Require Import String List ZArith QArith Bool Reals Lia Lra Permutation Sorted.
From Verif Require Import PathModel StrModel SpinModel SpinSpec SpinProofs SpinProps CGModel CGSpec CGProofs ParticleModel ParticleProps ParticleProps2 PhysModel PhysProps WaveSetModel WaveSetSpec WaveSetProofs WaveSetProofs2.
Import ListNotations.
Open Scope list_scope. Open Scope Z_scope.

Lemma prop_fields parent x1 x2 L J I p : normalised (ptP (topPart x1)) -> normalised (ptP (topPart x2)) -> 0 <= J -> 0 <= I ->
  (exists l, 0 <= l /\ L = 2 * l) -> isProjOf I (isospinProj (ptP (topPart x1)) + isospinProj (ptP (topPart x2))) ->
  let prop := qnProp parent x1 x2 L J I in
  (parentQn (ptP (topPart x1)) (ptP (topPart x2)) L J I p <->
   pCharge p = pCharge (ptP (topPart x1)) + pCharge (ptP (topPart x2)) /\ pB p = pB prop /\ pI p = pI prop /\ pS p = pS prop /\ pCharm p = pCharm prop /\
   pBeauty p = pBeauty prop /\ pG p = pG prop /\ pJ p = pJ prop /\ pP p = pP prop /\ pC p = pC prop) /\
  pI prop = I /\ pJ prop = J /\ pP prop = qnP x1 x2 L /\ pCharge prop = pCharge (ptP parent).
Proof.
  intros N1 N2 HJ HI (l & Hl & EL) (_ & k & Hk & Ek) prop.
  assert (FG : pG prop = qnG x1 x2) by (apply signum_id; now apply qnG_abs).
  assert (FP : pP prop = qnP x1 x2 L) by (apply signum_id; now apply qnP_abs).
  assert (FC : pC prop = qnC x1 x2 I) by (apply signum_id; now apply qnC_abs).
  assert (FI : pI prop = I) by (change (Z.abs I = I); lia).
  assert (FJ : pJ prop = J) by (change (Z.abs J = J); lia).
  rewrite FG, FP, FC, FI, FJ. split; [|split; [reflexivity|split; [reflexivity|split; [reflexivity|reflexivity]]]].
  change (pB prop) with (pB (ptP (topPart x1)) + pB (ptP (topPart x2))). change (pS prop) with (pS (ptP (topPart x1)) + pS (ptP (topPart x2))).
  change (pCharm prop) with (pCharm (ptP (topPart x1)) + pCharm (ptP (topPart x2))). change (pBeauty prop) with (pBeauty (ptP (topPart x1)) + pBeauty (ptP (topPart x2))).
  clear FG FP FC FI FJ prop.
  assert (EP : qnP x1 x2 L = pP (ptP (topPart x1)) * pP (ptP (topPart x2)) * minusOnePow l) by (unfold qnP; rewrite pm1, (half_quot L l) by lia; reflexivity).
  unfold qnC. cbv zeta. set (d1 := ptP (topPart x1)) in *. set (d2 := ptP (topPart x2)) in *.
  match goal with |- context [if ?u then _ else 0] => set (b := u) end.
  assert (Hb : b = true <-> pCharge d1 + pCharge d2 = 0 /\ pB d1 + pB d2 = 0 /\ pS d1 + pS d2 = 0 /\ pCharm d1 + pCharm d2 = 0 /\ pBeauty d1 + pBeauty d2 = 0).
  { unfold b. rewrite !andb_true_iff, !Z.eqb_eq. lia. }
  assert (EI : b = true -> exists i, 0 <= i /\ I = 2 * i).
  { intros X. apply Hb in X. exists k. unfold isospinProj in Ek. fold d1 d2 in Ek. lia. }
  clearbody b. split.
  - intros [Q B S c be I' J' G P [C1 C2]]. repeat (split; [first [assumption|rewrite EP; now apply P]|]).
    destruct b.
    + destruct (EI eq_refl) as (i & Hi & Ei). rewrite (half_quot I i), pm1 by lia. destruct (proj1 Hb eq_refl) as (Z1 & Z2 & Z3 & Z4 & Z5).
      rewrite (C1 ltac:(repeat split; congruence) i Ei), G. reflexivity.
    + apply C2. intros X. assert (Y : false = true) by (apply Hb; repeat split; destruct X as (X1 & X2 & X3 & X4 & X5); congruence). discriminate Y.
  - intros (Q & B & I' & S & c & be & G & J' & P & C). split; try assumption.
    + intros l' El. rewrite P, EP. now replace l' with l by lia.
    + rewrite C, Q, B, S, c, be. split.
      * intros X. apply Hb in X. intros i Ei. rewrite X. rewrite (half_quot I i), pm1 by lia. unfold qnG. rewrite G. reflexivity.
      * intros X. destruct b; [|reflexivity]. exfalso. apply X. now apply Hb.
Qed.

(* what one vertex yields *)
Definition xWave (c : cfg) parent md x1 x2 S L J I (x : decay) : Prop :=
  exists p M refl, parentQn (ptP (topPart x1)) (ptP (topPart x2)) L J I p /\
    (pName p = pName (ptP parent) /\ pAnti p = pAnti (ptP parent) /\ pMass p = pMass (ptP parent) /\ pMass2 p = pMass2 (ptP parent) /\
     pWidth p = pWidth (ptP parent) /\ pDecays p = pDecays (ptP parent)) /\
    allowedMRefl c J (pP p) M refl /\ x = DNode (Part p M (ptIndex parent) refl) L S md x1 x2.
Definition isoWave ps (c : cfg) parent md x1 x2 S L J I (x : decay) : Prop :=
  exists p m, parentQn (ptP (topPart x1)) (ptP (topPart x2)) L J I p /\ entry (addAll ps) (name p) = Some p /\
    isCandidate c (ptP (topPart x1)) (ptP (topPart x2)) L S p /\
    massDepChoice p (mkDecay [name (ptP (topPart x1)); name (ptP (topPart x2))] L S) md m /\
    x = DNode (Part p (ptM parent) (ptIndex parent) (ptRefl parent)) L S m x1 x2.
Definition vertexWave ps c parent md x1 x2 S L J I x : Prop :=
  if isXParticle (ptP parent) then xWave c parent md x1 x2 S L J I x else isoWave ps c parent md x1 x2 S L J I x.

Record good (c : cfg) (parent : particle) (x1 x2 : decay) : Prop := {
  g1 : normalised (ptP (topPart x1)); g2 : normalised (ptP (topPart x2));
  gQ : pCharge (ptP parent) = pCharge (ptP (topPart x1)) + pCharge (ptP (topPart x2)); gA : Z.abs (pCharge (ptP parent)) <= 9;
  gJ : cUseRefl c = true -> isXParticle (ptP parent) = true -> exists k, pJ (ptP (topPart x1)) + pJ (ptP (topPart x2)) = 2 * k }.

Lemma pprops_eq p q : pName p = pName q -> pAnti p = pAnti q -> pCharge p = pCharge q -> pMass p = pMass q -> pMass2 p = pMass2 q -> pWidth p = pWidth q -> pB p = pB q ->
  pI p = pI q -> pS p = pS q -> pCharm p = pCharm q -> pBeauty p = pBeauty q -> pG p = pG q -> pJ p = pJ q -> pP p = pP q -> pC p = pC q -> pDecays p = pDecays q -> p = q.
Proof. destruct p, q. cbn. intros. subst. reflexivity. Qed.

Lemma emit_specX ps known c parent md x1 x2 S L J I ys : good c parent x1 x2 -> (exists l, 0 <= l /\ L = 2 * l) -> couples (pJ (ptP (topPart x1))) (pJ (ptP (topPart x2))) S -> couples L S J ->
  couples (pI (ptP (topPart x1))) (pI (ptP (topPart x2))) I -> isProjOf I (isospinProj (ptP (topPart x1)) + isospinProj (ptP (topPart x2))) ->
  isXParticle (ptP parent) = true ->
  emit (addAll ps) known c parent md x1 x2 S L J I = Some ys ->
  (forall x, In x ys <-> xWave c parent md x1 x2 S L J I x) /\ NoDup ys.
Proof.
  intros [N1 N2 GQ GA GJ] HL HS HJ HI HP EX H. pose proof (couples_nonneg _ _ _ HJ) as J0. pose proof (couples_nonneg _ _ _ HI) as I0.
  unfold emit in H. cbv zeta in H. rewrite <- GQ in H. rewrite EX in H.
  pose proof (fun p => prop_fields parent x1 x2 L J I p N1 N2 J0 I0 HL HP) as PF. cbv zeta in PF.
  assert (FN : let prop := qnProp parent x1 x2 L J I in pName prop = pName (ptP parent) /\ pAnti prop = pAnti (ptP parent) /\ pMass prop = pMass (ptP parent) /\
    pMass2 prop = pMass2 (ptP parent) /\ pWidth prop = pWidth (ptP parent) /\ pDecays prop = pDecays (ptP parent)) by (repeat split; reflexivity).
  cbv zeta in FN. generalize dependent (qnProp parent x1 x2 L J I). intros prop H PF FN.
  apply emitX_spec in H; [|exact J0|exact GA|now apply qnP_abs|].
  2:{ intros U. destruct (GJ U EX) as [k Hk]. destruct HL as (l & _ & EL). destruct (couples_parity _ _ _ HS) as [u Hu]. destruct (couples_parity _ _ _ HJ) as [v Hv].
        exists (l + k + u + v). lia. }
  destruct H as [H ND]. split; [|exact ND]. intros x. rewrite H. clear H ND. unfold xWave. split.
    + intros (M & refl & HA & ->). eexists. exists M, refl. split; [|split; [|split; [|reflexivity]]].
      * apply PF. cbn [pCharge pB pI pS pCharm pBeauty pG pJ pP pC]. rewrite <- GQ. repeat (split; [reflexivity|]). reflexivity.
      * exact FN.
      * cbn [pP]. destruct (PF pDefault) as (_ & _ & _ & -> & _). exact HA.
    + destruct FN as (G1 & G2 & G3 & G4 & G5 & G6). intros (p & M & refl & HQ & (F1 & F2 & F3 & F4 & F5 & F6) & HA & ->). exists M, refl.
      destruct (PF p) as (E & _ & _ & EP & _). apply E in HQ. destruct HQ as (Q & B & I' & S' & ch & be & G & J' & P & C).
      split; [rewrite P, EP in HA; exact HA|]. f_equal. f_equal. apply pprops_eq; cbn [pName pAnti pCharge pMass pMass2 pWidth pB pI pS pCharm pBeauty pG pJ pP pC pDecays]; try assumption; congruence.
Qed.
Lemma emit_specI ps known c parent md x1 x2 S L J I ys : good c parent x1 x2 -> (exists l, 0 <= l /\ L = 2 * l) -> couples (pJ (ptP (topPart x1))) (pJ (ptP (topPart x2))) S -> couples L S J ->
  couples (pI (ptP (topPart x1))) (pI (ptP (topPart x2))) I -> isProjOf I (isospinProj (ptP (topPart x1)) + isospinProj (ptP (topPart x2))) ->
  isXParticle (ptP parent) = false ->
  emit (addAll ps) known c parent md x1 x2 S L J I = Some ys ->
  (forall x, In x ys <-> isoWave ps c parent md x1 x2 S L J I x) /\ (md = bwName -> NoDup ys).
Proof.
  intros [N1 N2 GQ GA GJ] HL HS HJ HI HP EX H. pose proof (couples_nonneg _ _ _ HJ) as J0. pose proof (couples_nonneg _ _ _ HI) as I0.
  unfold emit in H. cbv zeta in H. rewrite <- GQ in H. rewrite EX in H.
  pose proof (fun p => prop_fields parent x1 x2 L J I p N1 N2 J0 I0 HL HP) as PF. cbv zeta in PF.
  generalize dependent (qnProp parent x1 x2 L J I). intros prop H PF.
  assert (EC : pCharge prop = pCharge (ptP parent)) by apply (PF pDefault).
    apply emitIsobar_spec in H; [|exact GA|exact EC]. destruct H as [H ND]. split; [|exact ND].
    intros x. rewrite H. clear H ND. unfold isoWave, candidate. split.
    + intros (p & m & (HE & Hsel & HC) & HM & ->). exists p, m. split; [|split; [exact HE|split; [exact HC|split; [exact HM|reflexivity]]]].
      apply C58_allQn_checks_everything in Hsel. apply PF. rewrite <- GQ, <- EC. exact Hsel.
    + intros (p & m & HQ & HE & HC & HM & ->). exists p, m. split; [|split; [exact HM|reflexivity]]. split; [exact HE|]. split; [|exact HC].
      apply C58_allQn_checks_everything. apply PF in HQ. rewrite EC, GQ. exact HQ.
Qed.
Lemma emit_spec ps known c parent md x1 x2 S L J I ys : good c parent x1 x2 -> (exists l, 0 <= l /\ L = 2 * l) -> couples (pJ (ptP (topPart x1))) (pJ (ptP (topPart x2))) S -> couples L S J ->
  couples (pI (ptP (topPart x1))) (pI (ptP (topPart x2))) I -> isProjOf I (isospinProj (ptP (topPart x1)) + isospinProj (ptP (topPart x2))) ->
  emit (addAll ps) known c parent md x1 x2 S L J I = Some ys ->
  (forall x, In x ys <-> vertexWave ps c parent md x1 x2 S L J I x) /\ (isXParticle (ptP parent) = true \/ md = bwName -> NoDup ys).
Proof.
  intros G HL HS HJ HI HP H. unfold vertexWave. destruct (isXParticle (ptP parent)) eqn:EX.
  - destruct (emit_specX ps known c parent md x1 x2 S L J I ys G HL HS HJ HI HP EX H) as [A B]. split; [exact A|intros _; exact B].
  - destruct (emit_specI ps known c parent md x1 x2 S L J I ys G HL HS HJ HI HP EX H) as [A B]. split; [exact A|]. intros [X|X]; [discriminate X|exact (B X)].
Qed.
Lemma vertexWave_qn ps c parent md x1 x2 S L J I x : vertexWave ps c parent md x1 x2 S L J I x ->
  exists p m i r md', x = DNode (Part p m i r) L S md' x1 x2 /\ pJ p = J /\ pI p = I.
Proof.
  unfold vertexWave. destruct (isXParticle (ptP parent)).
  - intros (p & M & refl & [] & _ & _ & ->). repeat eexists; eassumption.
  - intros (p & m & [] & _ & _ & _ & ->). repeat eexists; eassumption.
Qed.

Definition loopsI c x1 x2 := spinLoop (fst (getSpinRangeDemanded (pI (ptP (topPart x1))) (pI (ptP (topPart x2))) (cI c))).
Lemma demanded_in a b r x : 0 <= a -> 0 <= b -> In x (spinLoop (fst (getSpinRangeDemanded a b r))) <-> couples a b x /\ inRange r x.
Proof. intros Ha Hb. destruct r as [lo hi]. unfold inRange. cbn [fst snd]. now apply demanded_loop. Qed.

Lemma combine_spec ps known c parent md x1 x2 ys : good c parent x1 x2 -> (forall k, 0 < fst (cL c) -> fst (cL c) <> 2 * k + 1) ->
  combineDecays (addAll ps) known c parent md x1 x2 = Some ys ->
  (forall x, In x ys <-> exists S L J I, allowedVertex c (topPart x1) (topPart x2) S L J I /\ vertexWave ps c parent md x1 x2 S L J I x) /\
  (isXParticle (ptP parent) = true \/ md = bwName -> NoDup ys).
Proof.
  intros HG HLR H. unfold combineDecays in H. cbv zeta in H.
  pose proof (n_I _ (g1 _ _ _ _ HG)) as I1. pose proof (n_I _ (g2 _ _ _ _ HG)) as I2. pose proof (n_J _ (g1 _ _ _ _ HG)) as J1. pose proof (n_J _ (g2 _ _ _ _ HG)) as J2.
  set (d1 := ptP (topPart x1)) in *. set (d2 := ptP (topPart x2)) in *.
  (* innermost body *)
  assert (BI : forall S L J I zs, couples (pJ d1) (pJ d2) S -> (exists l, 0 <= l /\ L = 2 * l) -> couples L S J -> couples (pI d1) (pI d2) I ->
    tryQn (addAll ps) known c parent md x1 x2 S L J I = Some zs ->
    (forall x, In x zs <-> rules c (topPart x1) (topPart x2) S L J I /\ vertexWave ps c parent md x1 x2 S L J I x) /\ (isXParticle (ptP parent) = true \/ md = bwName -> NoDup zs)).
  { intros S L J I zs HS HL HJ HI E.
    destruct (spinStatesCanCouple (pI d1) (isospinProj d1) (pI d2) (isospinProj d2) I (isospinProj d1 + isospinProj d2)) as [a|] eqn:EC.
    2:{ unfold tryQn in E. cbv zeta in E. fold d1 d2 in E. replace (2 * (pCharge d1 + pCharge d2) - _) with (isospinProj d1 + isospinProj d2) in E by (unfold isospinProj; lia).
        rewrite EC in E. discriminate E. }
    destruct (tryQn_eq (addAll ps) known c parent md x1 x2 S L J I a (g1 _ _ _ _ HG) (g2 _ _ _ _ HG) HS HL HJ HI EC) as [[R E']|[R E']]; rewrite E' in E.
    - destruct (emit_spec ps known c parent md x1 x2 S L J I zs HG HL HS HJ HI) as [A B]; [apply R|exact E|]. split; [|exact B]. intros x. rewrite A. tauto.
    - injection E as <-. split; [|intros _; constructor]. intros x. split; [intros []|tauto]. }
  set (LI := spinLoop (fst (getSpinRangeDemanded (pI d1) (pI d2) (cI c)))) in *.
  set (LL := spinLoop (Z.max 0 (fst (cL c)), snd (cL c))) in *.
  assert (InI : forall I, In I LI <-> couples (pI d1) (pI d2) I /\ inRange (cI c) I) by (intros I; now apply demanded_in).
  assert (InL : forall L, In L LL <-> (exists l, 0 <= l /\ L = 2 * l) /\ inRange (cL c) L) by (intros L; now apply LLoop_in).
  assert (InJ : forall S L J, In L LL -> couples (pJ d1) (pJ d2) S -> In J (spinLoop (fst (getSpinRangeDemanded L S (cJ c)))) <-> couples L S J /\ inRange (cJ c) J).
  { intros S L J HL HS. apply demanded_in; [apply InL in HL as ((l & ? & ->) & _); lia|now apply (couples_nonneg _ _ _ HS)]. }
  assert (InS : forall S, In S (spinLoop (fst (getSpinRangeDemanded (pJ d1) (pJ d2) (cS c)))) <-> couples (pJ d1) (pJ d2) S /\ inRange (cS c) S) by (intros S; now apply demanded_in).
  (* I loop *)
  assert (BJ : forall S L J zs, couples (pJ d1) (pJ d2) S -> (exists l, 0 <= l /\ L = 2 * l) -> couples L S J ->
    concatO (fun I => tryQn (addAll ps) known c parent md x1 x2 S L J I) LI = Some zs ->
    (forall x, In x zs <-> exists I, (couples (pI d1) (pI d2) I /\ inRange (cI c) I) /\ rules c (topPart x1) (topPart x2) S L J I /\ vertexWave ps c parent md x1 x2 S L J I x) /\
    (isXParticle (ptP parent) = true \/ md = bwName -> NoDup zs)).
  { intros S L J zs HS HL HJ E. destruct (concatO_in _ _ _ E) as [IN TOT]. split.
    - intros x. rewrite IN. split.
      + intros (I & us & HI & Eu & Hx). apply InI in HI. exists I. split; [exact HI|]. now apply (BI S L J I us HS HL HJ (proj1 HI) Eu).
      + intros (I & HI & R). assert (HI' := HI). apply InI in HI. destruct (TOT I HI) as [us Eu]. exists I, us. split; [exact HI|]. split; [exact Eu|]. now apply (BI S L J I us HS HL HJ (proj1 HI') Eu).
    - intros HX. eapply concatO_NoDup; [exact E|apply spinLoop_NoDup| |].
      + intros I us HI Eu. apply InI in HI. apply (BI S L J I us HS HL HJ (proj1 HI) Eu). exact HX.
      + intros I I' us us' y HI HI' Eu Eu' Hy Hy'. apply InI in HI. apply InI in HI'. apply (BI S L J I us HS HL HJ (proj1 HI) Eu) in Hy. apply (BI S L J I' us' HS HL HJ (proj1 HI') Eu') in Hy'.
        destruct (vertexWave_qn _ _ _ _ _ _ _ _ _ _ _ (proj2 Hy)) as (p & m & i & r & md1 & -> & _ & EI). destruct (vertexWave_qn _ _ _ _ _ _ _ _ _ _ _ (proj2 Hy')) as (p' & m' & i' & r' & md1' & E1 & _ & EI').
        congruence. }
  (* J loop *)
  assert (BL : forall S L zs, couples (pJ d1) (pJ d2) S -> In L LL ->
    concatO (fun J => concatO (fun I => tryQn (addAll ps) known c parent md x1 x2 S L J I) LI) (spinLoop (fst (getSpinRangeDemanded L S (cJ c)))) = Some zs ->
    (forall x, In x zs <-> exists J I, (couples L S J /\ inRange (cJ c) J) /\ (couples (pI d1) (pI d2) I /\ inRange (cI c) I) /\ rules c (topPart x1) (topPart x2) S L J I /\ vertexWave ps c parent md x1 x2 S L J I x) /\
    (isXParticle (ptP parent) = true \/ md = bwName -> NoDup zs)).
  { intros S L zs HS HLL E. assert (HL := proj1 (proj1 (InL L) HLL)). destruct (concatO_in _ _ _ E) as [IN TOT]. split.
    - intros x. rewrite IN. split.
      + intros (J & us & HJ & Eu & Hx). apply (InJ S L J HLL HS) in HJ. apply (BJ S L J us HS HL (proj1 HJ) Eu) in Hx as (I & Hx). exists J, I. tauto.
      + intros (J & I & HJ & R). assert (HJ' := HJ). apply (InJ S L J HLL HS) in HJ. destruct (TOT J HJ) as [us Eu]. exists J, us. split; [exact HJ|]. split; [exact Eu|].
        apply (BJ S L J us HS HL (proj1 HJ') Eu). exists I. exact R.
    - intros HX. eapply concatO_NoDup; [exact E|apply spinLoop_NoDup| |].
      + intros J us HJ Eu. apply (InJ S L J HLL HS) in HJ. apply (BJ S L J us HS HL (proj1 HJ) Eu). exact HX.
      + intros J J' us us' y HJ HJ' Eu Eu' Hy Hy'. apply (InJ S L J HLL HS) in HJ. apply (InJ S L J' HLL HS) in HJ'.
        apply (BJ S L J us HS HL (proj1 HJ) Eu) in Hy as (I & _ & _ & Hy). apply (BJ S L J' us' HS HL (proj1 HJ') Eu') in Hy' as (I' & _ & _ & Hy').
        destruct (vertexWave_qn _ _ _ _ _ _ _ _ _ _ _ Hy) as (p & m & i & r & md1 & -> & EJ & _). destruct (vertexWave_qn _ _ _ _ _ _ _ _ _ _ _ Hy') as (p' & m' & i' & r' & md1' & E1 & EJ' & _).
        congruence. }
  (* L loop *)
  assert (BS : forall S zs, couples (pJ d1) (pJ d2) S ->
    concatO (fun L => concatO (fun J => concatO (fun I => tryQn (addAll ps) known c parent md x1 x2 S L J I) LI) (spinLoop (fst (getSpinRangeDemanded L S (cJ c))))) LL = Some zs ->
    (forall x, In x zs <-> exists L J I, ((exists l, 0 <= l /\ L = 2 * l) /\ inRange (cL c) L) /\ (couples L S J /\ inRange (cJ c) J) /\ (couples (pI d1) (pI d2) I /\ inRange (cI c) I) /\
        rules c (topPart x1) (topPart x2) S L J I /\ vertexWave ps c parent md x1 x2 S L J I x) /\
    (isXParticle (ptP parent) = true \/ md = bwName -> NoDup zs)).
  { intros S zs HS E. destruct (concatO_in _ _ _ E) as [IN TOT]. split.
    - intros x. rewrite IN. split.
      + intros (L & us & HL & Eu & Hx). apply (BL S L us HS HL Eu) in Hx as (J & I & Hx). apply InL in HL. exists L, J, I. tauto.
      + intros (L & J & I & HL & R). apply InL in HL. destruct (TOT L HL) as [us Eu]. exists L, us. split; [exact HL|]. split; [exact Eu|]. apply (BL S L us HS HL Eu). exists J, I. exact R.
    - intros HX. eapply concatO_NoDup; [exact E|apply spinLoop_NoDup| |].
      + intros L us HL Eu. apply (BL S L us HS HL Eu). exact HX.
      + intros L L' us us' y HL HL' Eu Eu' Hy Hy'.
        apply (BL S L us HS HL Eu) in Hy as (J & I & _ & _ & _ & Hy). apply (BL S L' us' HS HL' Eu') in Hy' as (J' & I' & _ & _ & _ & Hy').
        destruct (vertexWave_qn _ _ _ _ _ _ _ _ _ _ _ Hy) as (p & m & i & r & md1 & -> & _). destruct (vertexWave_qn _ _ _ _ _ _ _ _ _ _ _ Hy') as (p' & m' & i' & r' & md1' & E1 & _).
        congruence. }
  (* S loop *)
  destruct (concatO_in _ _ _ H) as [IN TOT]. split.
  - intros x. rewrite IN. split.
    + intros (S & us & HS & Eu & Hx). apply InS in HS. apply (BS S us (proj1 HS) Eu) in Hx as (L & J & I & Hx). exists S, L, J, I. rewrite allowed_rules. fold d1 d2. tauto.
    + intros (S & L & J & I & HA & HV). rewrite allowed_rules in HA. fold d1 d2 in HA. destruct HA as (HS & HA). assert (HS' := HS). apply InS in HS. destruct (TOT S HS) as [us Eu].
      exists S, us. split; [exact HS|]. split; [exact Eu|]. apply (BS S us (proj1 HS') Eu). exists L, J, I. tauto.
  - intros HX. eapply concatO_NoDup; [exact H|apply spinLoop_NoDup| |].
    + intros S us HS Eu. apply InS in HS. apply (BS S us (proj1 HS) Eu). exact HX.
    + intros S S' us us' y HS HS' Eu Eu' Hy Hy'. apply InS in HS. apply InS in HS'.
      apply (BS S us (proj1 HS) Eu) in Hy as (L & J & I & _ & _ & _ & _ & Hy). apply (BS S' us' (proj1 HS') Eu') in Hy' as (L' & J' & I' & _ & _ & _ & _ & Hy').
      destruct (vertexWave_qn _ _ _ _ _ _ _ _ _ _ _ Hy) as (p & m & i & r & md1 & -> & _). destruct (vertexWave_qn _ _ _ _ _ _ _ _ _ _ _ Hy') as (p' & m' & i' & r' & md1' & E1 & _).
      congruence.
Qed.
