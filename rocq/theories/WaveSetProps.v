(* C55: wave-set generation. *)
From Coq Require Import String List ZArith QArith Bool Reals Lia Lra Permutation Sorted.
From Verif Require Import PathModel StrModel SpinModel SpinSpec SpinProofs SpinProps CGModel CGSpec CGProofs ParticleModel ParticleProps ParticleProps2 PhysModel PhysProps VertexModel VertexProps WaveSetModel WaveSetSpec WaveSetProofs WaveSetProofs2 WaveSetProofs3.
Import ListNotations.
Open Scope list_scope. Open Scope Z_scope.

(* the demanded range of L starts at an integer angular momentum (or at a negative value) *)
Definition integerLRange (c : cfg) : Prop := forall k, 0 < fst (cL c) -> fst (cL c) <> 2 * k + 1.
Fixpoint fsParticles (t : tmpl) : list particle := match t with TFs p => [p] | TNode _ _ t1 t2 => fsParticles t1 ++ fsParticles t2 end.

Lemma entry_In ps n p : entry (addAll ps) n = Some p -> In p ps.
Proof. rewrite C20_first_definition_wins. unfold firstNamed. intros H. now apply find_some in H. Qed.

Lemma wave_inv ps c t x : Forall normalised ps -> wave ps c t x -> tmplOk t ->
  pCharge (ptP (topPart x)) = pCharge (ptP (topTmpl t)) /\ (notX t -> normalised (ptP (topPart x))) /\ exists k, pJ (ptP (topPart x)) = spinSum t + 2 * k.
Proof.
  intros HN. rewrite Forall_forall in HN. induction 1 as [p|parent md t1 t2 x1 x2 S L J I p M refl HX W1 IH1 W2 IH2 HA HQ HF HM|parent md t1 t2 x1 x2 S L J I p m HX W1 IH1 W2 IH2 HA HQ HE HC HD]; intros HT.
  - cbn in *. split; [reflexivity|]. split; [auto|]. exists 0. lia.
  - cbn [tmplOk] in HT. destruct HT as (T1 & T2 & X1 & X2 & Q & A). destruct (IH1 T1) as (Q1 & _ & k1 & K1). destruct (IH2 T2) as (Q2 & _ & k2 & K2). cbn [topPart ptP topTmpl spinSum].
    destruct HQ. split; [congruence|]. split; [cbn [notX]; congruence|]. rewrite qJ. destruct HA as [[AS _] [(l & _ & EL) _] [AJ _] _ _ _ _ _].
    destruct (couples_parity _ _ _ AS) as [u Hu]. destruct (couples_parity _ _ _ AJ) as [v Hv]. exists (l + u + v + k1 + k2). lia.
  - cbn [tmplOk] in HT. destruct HT as (T1 & T2 & X1 & X2 & Q & A). destruct (IH1 T1) as (Q1 & _ & k1 & K1). destruct (IH2 T2) as (Q2 & _ & k2 & K2). cbn [topPart ptP topTmpl spinSum].
    destruct HQ. split; [congruence|]. split; [intros _; apply HN; eapply entry_In; exact HE|]. rewrite qJ. destruct HA as [[AS _] [(l & _ & EL) _] [AJ _] _ _ _ _ _].
    destruct (couples_parity _ _ _ AS) as [u Hu]. destruct (couples_parity _ _ _ AJ) as [v Hv]. exists (l + u + v + k1 + k2). lia.
Qed.
Lemma wave_good ps c parent md t1 t2 x1 x2 : Forall normalised ps -> tmplOk (TNode parent md t1 t2) -> wave ps c t1 x1 -> wave ps c t2 x2 ->
  (cUseRefl c = true -> isXParticle (ptP parent) = true -> exists k, spinSum t1 + spinSum t2 = 2 * k) -> good c parent x1 x2.
Proof.
  intros HN (T1 & T2 & X1 & X2 & Q & A) W1 W2 HR. destruct (wave_inv ps c t1 x1 HN W1 T1) as (Q1 & N1 & k1 & K1). destruct (wave_inv ps c t2 x2 HN W2 T2) as (Q2 & N2 & k2 & K2).
  split; auto; [congruence|]. intros U X. destruct (HR U X) as [k Hk]. exists (k + k1 + k2). lia.
Qed.
(* X occurs at the top only, so that the condition on the spins is needed for the whole template only *)
Lemma waves_gen ps known c t : Forall normalised ps -> integerLRange c -> tmplOk t ->
  (cUseRefl c = true -> (exists k, spinSum t = 2 * k) \/ notX t) -> forall l, decayPossibilities (addAll ps) known c t = Some l ->
  forall x, In x l <-> wave ps c t x.
Proof.
  intros HN HL. induction t as [p|parent md t1 IH1 t2 IH2]; intros HT HR l H x; cbn [decayPossibilities] in H.
  - injection H as <-. split; [intros [<-|[]]; constructor|]. intros W. inversion W. now left.
  - assert (HT' := HT). cbn [tmplOk] in HT. destruct HT as (T1 & T2 & X1 & X2 & _ & _).
    destruct (decayPossibilities (addAll ps) known c t1) as [l1|]; [|discriminate H]. destruct (decayPossibilities (addAll ps) known c t2) as [l2|]; [|discriminate H]. cbn [bindP] in H.
    specialize (IH1 T1 (fun _ => or_intror X1) l1 eq_refl). specialize (IH2 T2 (fun _ => or_intror X2) l2 eq_refl).
    assert (HG : forall x1 x2, In x1 l1 -> In x2 l2 -> good c parent x1 x2).
    { intros x1 x2 H1 H2. apply IH1 in H1. apply IH2 in H2. apply (wave_good ps c parent md t1 t2); auto.
      intros U X. destruct (HR U) as [E|E]; [exact E|]. cbn [notX] in E. congruence. }
    destruct (concatO_in _ _ _ H) as [IN TOT]. rewrite IN. split.
    + intros (x1 & us & H1 & Eu & Hx). destruct (concatO_in _ _ _ Eu) as [IN2 _]. apply IN2 in Hx as (x2 & vs & H2 & Ev & Hx).
      apply (combine_spec ps known c parent md x1 x2 vs (HG x1 x2 H1 H2) HL Ev) in Hx as (S & L & J & I & HA & HV).
      apply IH1 in H1. apply IH2 in H2. unfold vertexWave in HV. destruct (isXParticle (ptP parent)) eqn:EX.
      * destruct HV as (p & M & refl & HQ & HF & HM & ->). eapply WX; eassumption.
      * destruct HV as (p & m & HQ & HE & HC & HM & ->). eapply WIsobar; eassumption.
    + intros W.
      assert (HV : exists x1 x2 S L J I, wave ps c t1 x1 /\ wave ps c t2 x2 /\ allowedVertex c (topPart x1) (topPart x2) S L J I /\ vertexWave ps c parent md x1 x2 S L J I x).
      { unfold vertexWave. inversion W; subst; exists x1, x2, S, L, J, I; (split; [assumption|]); (split; [assumption|]); (split; [assumption|]).
        - match goal with H : isXParticle _ = true |- _ => rewrite H end. unfold xWave. do 3 eexists. split; [eassumption|split; [eassumption|split; [eassumption|reflexivity]]].
        - match goal with H : isXParticle _ = false |- _ => rewrite H end. unfold isoWave. do 2 eexists. split; [eassumption|split; [eassumption|split; [eassumption|split; [eassumption|reflexivity]]]]. }
      destruct HV as (x1 & x2 & S & L & J & I & W1 & W2 & HA & HV). apply IH1 in W1. apply IH2 in W2.
      destruct (TOT x1 W1) as [us Eu]. exists x1, us. split; [exact W1|]. split; [exact Eu|]. destruct (concatO_in _ _ _ Eu) as [IN2 TOT2]. apply IN2.
      destruct (TOT2 x2 W2) as [vs Ev]. exists x2, vs. split; [exact W2|]. split; [exact Ev|].
      apply (combine_spec ps known c parent md x1 x2 vs (HG x1 x2 W1 W2) HL Ev). exists S, L, J, I. auto.
Qed.

(* Every emitted decay is a wave of the template, and every wave is emitted. *)
Theorem C55_waves_exact : forall ps known c t l, Forall normalised ps -> tmplOk t -> integerLRange c ->
  (cUseRefl c = true -> exists k, spinSum t = 2 * k) ->
  decayPossibilities (addAll ps) known c t = Some l -> forall x, In x l <-> wave ps c t x.
Proof. intros ps known c t l HN HT HL HR H. apply (waves_gen ps known c t HN HL HT) with (2 := H). intros U. left. auto. Qed.

(* ... exactly once, if the isobars of the template have the default mass dependence *)
Fixpoint defaultMassDeps (t : tmpl) : Prop :=
  match t with TFs _ => True | TNode p md t1 t2 => (isXParticle (ptP p) = false -> md = bwName) /\ defaultMassDeps t1 /\ defaultMassDeps t2 end.
Lemma once_gen ps known c t : Forall normalised ps -> integerLRange c -> tmplOk t -> defaultMassDeps t ->
  (cUseRefl c = true -> (exists k, spinSum t = 2 * k) \/ notX t) -> forall l, decayPossibilities (addAll ps) known c t = Some l -> NoDup l.
Proof.
  intros HN HL. induction t as [p|parent md t1 IH1 t2 IH2]; intros HT HD HR l H; cbn [decayPossibilities] in H.
  - injection H as <-. repeat constructor. intros [].
  - assert (HT' := HT). cbn [tmplOk] in HT. destruct HT as (T1 & T2 & X1 & X2 & _ & _). cbn [defaultMassDeps] in HD. destruct HD as (D & D1 & D2).
    destruct (decayPossibilities (addAll ps) known c t1) as [l1|] eqn:E1; [|discriminate H]. destruct (decayPossibilities (addAll ps) known c t2) as [l2|] eqn:E2; [|discriminate H]. cbn [bindP] in H.
    specialize (IH1 T1 D1 (fun _ => or_intror X1) l1 eq_refl). specialize (IH2 T2 D2 (fun _ => or_intror X2) l2 eq_refl).
    assert (HG : forall x1 x2, In x1 l1 -> In x2 l2 -> good c parent x1 x2).
    { intros x1 x2 H1 H2. apply (waves_gen ps known c t1 HN HL T1 (fun _ => or_intror X1) l1 E1) in H1. apply (waves_gen ps known c t2 HN HL T2 (fun _ => or_intror X2) l2 E2) in H2.
      apply (wave_good ps c parent md t1 t2); auto. intros U X. destruct (HR U) as [E|E]; [exact E|]. cbn [notX] in E. congruence. }
    assert (HX : isXParticle (ptP parent) = true \/ md = bwName) by (destruct (isXParticle (ptP parent)); auto).
    assert (SUB : forall x1 x2 vs y, In x1 l1 -> In x2 l2 -> combineDecays (addAll ps) known c parent md x1 x2 = Some vs -> In y vs ->
       exists p L S m, y = DNode p L S m x1 x2).
    { intros x1 x2 vs y H1 H2 Ev Hy. apply (combine_spec ps known c parent md x1 x2 vs (HG x1 x2 H1 H2) HL Ev) in Hy as (S & L & J & I & _ & HV).
      destruct (vertexWave_qn _ _ _ _ _ _ _ _ _ _ _ HV) as (p & m & i & r & md' & -> & _). eauto. }
    eapply concatO_NoDup; [exact H|exact IH1| |].
    + intros x1 us H1 Eu. eapply concatO_NoDup; [exact Eu|exact IH2| |].
      * intros x2 vs H2 Ev. apply (combine_spec ps known c parent md x1 x2 vs (HG x1 x2 H1 H2) HL Ev). exact HX.
      * intros x2 x2' vs vs' y H2 H2' Ev Ev' Hy Hy'. destruct (SUB x1 x2 vs y H1 H2 Ev Hy) as (p & L & S & m & ->). destruct (SUB x1 x2' vs' _ H1 H2' Ev' Hy') as (p' & L' & S' & m' & E). congruence.
    + intros x1 x1' us us' y H1 H1' Eu Eu' Hy Hy'. apply (concatO_in _ _ _ Eu) in Hy as (x2 & vs & H2 & Ev & Hy). apply (concatO_in _ _ _ Eu') in Hy' as (x2' & vs' & H2' & Ev' & Hy').
      destruct (SUB x1 x2 vs y H1 H2 Ev Hy) as (p & L & S & m & ->). destruct (SUB x1' x2' vs' _ H1' H2' Ev' Hy') as (p' & L' & S' & m' & E). congruence.
Qed.
Theorem C55_each_wave_once : forall ps known c t l, Forall normalised ps -> tmplOk t -> defaultMassDeps t -> integerLRange c ->
  (cUseRefl c = true -> exists k, spinSum t = 2 * k) ->
  decayPossibilities (addAll ps) known c t = Some l -> NoDup l.
Proof. intros ps known c t l HN HT HD HL HR H. apply (once_gen ps known c t HN HL HT HD) with (2 := H). intros U. left. auto. Qed.

(* The generation never aborts (neither of the assertions on particle-antiparticle systems can fail): if the isospins are in the
   range of the Clebsch-Gordan tables and the mass dependences of the table are known. *)
Definition smallIsospin (p : pprops) : Prop := pI p < 9.
Definition knownMassDeps (known : str -> bool) (p : pprops) : Prop := forall m, In m (pDecays p) -> Forall (fun s => known s = true) (dmMassDeps m).
Lemma combine_total ps known c parent md x1 x2 : good c parent x1 x2 -> integerLRange c -> (forall p, In p ps -> knownMassDeps known p) ->
  smallIsospin (ptP (topPart x1)) -> smallIsospin (ptP (topPart x2)) -> exists l, combineDecays (addAll ps) known c parent md x1 x2 = Some l.
Proof.
  intros HG HL HK I1 I2. unfold combineDecays. cbv zeta. pose proof (g1 _ _ _ _ HG) as N1. pose proof (g2 _ _ _ _ HG) as N2.
  apply concatO_total. intros S HS. apply demanded_in in HS as [HS _]; [|apply N1|apply N2].
  apply concatO_total. intros L HLl. apply LLoop_in in HLl as [HLl _]; [|exact HL].
  apply concatO_total. intros J HJ. apply demanded_in in HJ as [HJ _]; [|destruct HLl as (l & ? & ->); lia|now apply (couples_nonneg _ _ _ HS)].
  apply concatO_total. intros I HI. apply demanded_in in HI as [HI _]; [|apply N1|apply N2].
  assert (IB : I < 18) by (destruct HI as (? & ? & k & ? & ? & ?); unfold smallIsospin in *; lia).
  destruct (C05_spinStatesCanCouple_with_projections (pI (ptP (topPart x1))) (isospinProj (ptP (topPart x1))) (pI (ptP (topPart x2))) (isospinProj (ptP (topPart x2))) I
    (isospinProj (ptP (topPart x1)) + isospinProj (ptP (topPart x2)))) as (b & E & _); try (unfold smallIsospin in *; lia).
  destruct (tryQn_eq (addAll ps) known c parent md x1 x2 S L J I b N1 N2 HS HLl HJ HI E) as [[_ E']|[_ E']]; rewrite E'; [|eauto].
  unfold emit. cbv zeta. destruct HG as [_ _ GQ GA _]. rewrite <- GQ. destruct (isXParticle (ptP parent)); [now apply emitX_total|]. apply emitIsobar_total; [exact GA|exact HK].
Qed.
Theorem C55_never_aborts : forall ps known c t, Forall normalised ps -> tmplOk t -> integerLRange c ->
  (cUseRefl c = true -> exists k, spinSum t = 2 * k) ->
  Forall smallIsospin ps -> Forall (knownMassDeps known) ps -> (forall p, In p (fsParticles t) -> smallIsospin (ptP p)) ->
  exists l, decayPossibilities (addAll ps) known c t = Some l.
Proof.
  intros ps known c t HN HT HL HR HI HK HF.
  assert (HR' : cUseRefl c = true -> (exists k, spinSum t = 2 * k) \/ notX t) by auto. clear HR.
  rewrite Forall_forall in HK. revert HT HR' HF. induction t as [p|parent md t1 IH1 t2 IH2]; intros HT HR HF; cbn [decayPossibilities]; [eauto|].
  assert (HT' := HT). cbn [tmplOk] in HT. destruct HT as (T1 & T2 & X1 & X2 & _ & _). cbn [fsParticles] in HF.
  destruct (IH1 T1 (fun _ => or_intror X1)) as [l1 E1]; [intros p Hp; apply HF; apply in_app_iff; now left|].
  destruct (IH2 T2 (fun _ => or_intror X2)) as [l2 E2]; [intros p Hp; apply HF; apply in_app_iff; now right|]. rewrite E1, E2. cbn [bindP].
  assert (SM : forall ti li xi, (forall p, In p (fsParticles ti) -> smallIsospin (ptP p)) -> tmplOk ti -> notX ti -> decayPossibilities (addAll ps) known c ti = Some li -> In xi li ->
     wave ps c ti xi /\ smallIsospin (ptP (topPart xi))).
  { intros ti li xi Hf Ti Xi Ei Hx. apply (waves_gen ps known c ti HN HL Ti (fun _ => or_intror Xi) li Ei) in Hx. split; [exact Hx|].
    rewrite Forall_forall in HI. destruct Hx.
    - apply Hf. now left.
    - cbn [notX] in Xi. congruence.
    - cbn [topPart ptP]. apply HI. eapply entry_In. eassumption. }
  apply concatO_total. intros x1 H1. apply concatO_total. intros x2 H2.
  destruct (SM t1 l1 x1) as [W1 S1]; auto; [intros p Hp; apply HF; apply in_app_iff; now left|].
  destruct (SM t2 l2 x2) as [W2 S2]; auto; [intros p Hp; apply HF; apply in_app_iff; now right|].
  apply combine_total; auto. apply (wave_good ps c parent md t1 t2); auto. intros U X. destruct (HR U) as [E|E]; [exact E|]. cbn [notX] in E. congruence.
Qed.

(* The last step only gives X the flavour of the beam. *)
Lemma setCharge_same p : Z.abs (pCharge p) <= 9 -> setCharge (pCharge p) p = Some p.
Proof. intros H. unfold setCharge. replace (Z.abs (pCharge p) <? 10) with true by lia. destruct p; reflexivity. Qed.
Lemma charges_same ps c t x tb top : Forall normalised ps -> wave ps c t x -> tmplOk t -> calcIsobarCharges tb top x = Some x.
Proof.
  intros HN W. revert top. induction W as [p|parent md t1 t2 x1 x2 S L J I p M refl HX W1 IH1 W2 IH2 HA HQ HF HM|parent md t1 t2 x1 x2 S L J I p m HX W1 IH1 W2 IH2 HA HQ HE HC HD]; intros top HT; [reflexivity| |];
  cbn [tmplOk] in HT; destruct HT as (T1 & T2 & X1 & X2 & Q & A); destruct (wave_inv ps c t1 x1 HN W1 T1) as (Q1 & _); destruct (wave_inv ps c t2 x2 HN W2 T2) as (Q2 & _);
  cbn [calcIsobarCharges]; rewrite (IH1 false T1), (IH2 false T2); cbn [bindP ptP]; destruct HQ as [QQ _ _ _ _ _ _ _ _ [QC1 QC2]]; rewrite <- QQ;
  (rewrite setCharge_same by (rewrite QQ, Q1, Q2, <- Q; exact A)); cbn [bindP]; rewrite Z.eqb_refl; cbn [negb andb bindP];
  (assert (E : (if top && negb (pCharge p =? 0) && negb (pC p =? 0) then setC 0 p else p) = p);
   [destruct (Z.eqb_spec (pCharge p) 0); cbn [negb]; [now rewrite andb_false_r|]; rewrite QC2 by tauto; cbn [Z.eqb negb]; now rewrite andb_false_r|]);
  rewrite E; reflexivity.
Qed.
Theorem C55_final_step : forall ps known c beam t l, Forall normalised ps -> tmplOk t -> integerLRange c ->
  (cUseRefl c = true -> exists k, spinSum t = 2 * k) ->
  decayPossibilities (addAll ps) known c t = Some l -> generateWaves (addAll ps) known c beam t = Some (map (setXFlavorQN beam) l).
Proof.
  intros ps known c beam t l HN HT HL HR H. unfold generateWaves. rewrite H. cbn [bindP].
  assert (HW : forall x, In x l -> wave ps c t x) by (intros x; apply (C55_waves_exact ps known c t l HN HT HL HR H)). clear H. induction l as [|x l IH]; [reflexivity|]. cbn [mapP map].
  rewrite (charges_same ps c t x (addAll ps) true HN (HW x (or_introl eq_refl)) HT). cbn [bindP]. rewrite IH by (intros y Hy; apply HW; now right). reflexivity.
Qed.
(* flavour quantum numbers of the final state *)
Definition fsSum (f : pprops -> Z) (t : tmpl) : Z := fold_right Z.add 0 (map (fun p => f (ptP p)) (fsParticles t)).
Lemma fsSum_node f p md t1 t2 : fsSum f (TNode p md t1 t2) = fsSum f t1 + fsSum f t2.
Proof. unfold fsSum. cbn [fsParticles]. rewrite map_app. induction (map _ (fsParticles t1)) as [|a l IH]; cbn [app fold_right]; lia. Qed.
Lemma fsSum_fs f p : fsSum f (TFs p) = f (ptP p).
Proof. unfold fsSum. cbn. lia. Qed.
Lemma wave_flavour ps c t x : wave ps c t x -> pB (ptP (topPart x)) = fsSum pB t /\ pS (ptP (topPart x)) = fsSum pS t /\ pCharm (ptP (topPart x)) = fsSum pCharm t /\ pBeauty (ptP (topPart x)) = fsSum pBeauty t.
Proof.
  induction 1 as [p|parent md t1 t2 x1 x2 S L J I p M refl HX W1 IH1 W2 IH2 HA HQ HF HM|parent md t1 t2 x1 x2 S L J I p m HX W1 IH1 W2 IH2 HA HQ HE HC HD];
  rewrite ?fsSum_fs, ?fsSum_node; [cbn; auto| |]; cbn [topPart ptP]; destruct HQ; lia.
Qed.
(* If the beam carries the flavour of the final state, the wave set consists exactly of the waves of the template, and additive
   quantum numbers are conserved from X to the final state. *)
Theorem C55_wave_set : forall ps known c beam t l, Forall normalised ps -> tmplOk t -> integerLRange c ->
  (cUseRefl c = true -> exists k, spinSum t = 2 * k) ->
  pB beam = fsSum pB t -> pS beam = fsSum pS t -> pCharm beam = fsSum pCharm t -> pBeauty beam = fsSum pBeauty t ->
  generateWaves (addAll ps) known c beam t = Some l -> forall x, In x l <-> wave ps c t x.
Proof.
  intros ps known c beam t l HN HT HL HR HB HS HC HBe H x.
  destruct (decayPossibilities (addAll ps) known c t) as [l'|] eqn:E.
  2:{ unfold generateWaves in H. rewrite E in H. discriminate H. }
  rewrite (C55_final_step ps known c beam t l' HN HT HL HR E) in H. injection H as <-.
  assert (EQ : map (setXFlavorQN beam) l' = l').
  { rewrite <- (map_id l') at 2. apply map_ext_in. intros y Hy. apply (C55_waves_exact ps known c t l' HN HT HL HR E) in Hy. apply wave_flavour in Hy.
    destruct y as [p|p L S m x1 x2]; [reflexivity|]. cbn [setXFlavorQN topPart ptP] in *. rewrite HB, HS, HC, HBe. destruct Hy as (<- & <- & <- & <-). destruct p as [[] ? ? ?]. reflexivity. }
  rewrite EQ. exact (C55_waves_exact ps known c t l' HN HT HL HR E x).
Qed.

(* Every vertex of every wave passes the consistency check of the decay vertices (C52). *)
Fixpoint vertices (d : decay) : list vertex :=
  match d with DFs _ => [] | DNode p L Sp _ x1 x2 => Vtx (ptP p) (ptP (topPart x1)) (ptP (topPart x2)) L Sp :: vertices x1 ++ vertices x2 end.
Definition flavoured (p : pprops) : Prop := ~ (pB p = 0 /\ pS p = 0 /\ pCharm p = 0 /\ pBeauty p = 0).
Definition goodParity (p : pprops) : Prop := cParityConsistent p /\ (flavoured p -> pG p = 0).
Lemma wave_parity ps c t x : (forall p, In p (fsParticles t) -> goodParity (ptP p)) -> wave ps c t x -> goodParity (ptP (topPart x)).
Proof.
  intros HF W. induction W as [p|parent md t1 t2 x1 x2 S L J I p M refl HX W1 IH1 W2 IH2 HA HQ HF' HM|parent md t1 t2 x1 x2 S L J I p m HX W1 IH1 W2 IH2 HA HQ HE HC HD].
  - apply HF. now left.
  - cbn [fsParticles] in HF. specialize (IH1 (fun p Hp => HF p (in_or_app _ _ _ (or_introl Hp)))). specialize (IH2 (fun p Hp => HF p (in_or_app _ _ _ (or_intror Hp)))). clear HF HF' HM.
    cbn [topPart ptP]. revert HA HQ IH1 IH2. generalize (topPart x1) (topPart x2). intros p1 p2 HA HQ [_ G1] [_ G2]. clear - HA HQ G1 G2.
    assert (FG : flavoured p -> pG p = 0).
    { intros F. destruct HQ as [QQ QB QS QCh QBe QI QJ QG QP [QC1 QC2]]. rewrite QG. unfold flavoured in *.
      destruct (Z.eq_dec (pG (ptP p1)) 0) as [->|N1]; [reflexivity|]. destruct (Z.eq_dec (pG (ptP p2)) 0) as [->|N2]; [lia|]. exfalso. 
      assert (Z1 : pB (ptP p1) = 0 /\ pS (ptP p1) = 0 /\ pCharm (ptP p1) = 0 /\ pBeauty (ptP p1) = 0) by (apply Decidable.not_not; [unfold Decidable.decidable; lia|tauto]).
      assert (Z2 : pB (ptP p2) = 0 /\ pS (ptP p2) = 0 /\ pCharm (ptP p2) = 0 /\ pBeauty (ptP p2) = 0) by (apply Decidable.not_not; [unfold Decidable.decidable; lia|tauto]).
      apply F. lia. }
    split; [|exact FG].
    destruct HQ as [QQ QB QS QCh QBe QI QJ QG QP [QC1 QC2]]. split; [intros N; apply QC2; tauto|]. split; intros E0 i Ei.
    + destruct (Classical_Prop.classic (flavoured p)) as [F|F].
      * rewrite (FG F), QC2 by (unfold flavoured in F; tauto). lia.
      * apply QC1; [unfold flavoured in F; lia|congruence].
    + destruct (Classical_Prop.classic (flavoured p)) as [F|F].
      * rewrite (FG F), QC2 by (unfold flavoured in F; tauto). lia.
      * exfalso. destruct HA as [_ _ _ _ AIz _ _ _]. cbv zeta in AIz. destruct AIz as [(_ & _ & (_ & k & _ & Ek) & _) _].
        assert (isospinProj (ptP p1) + isospinProj (ptP p2) = 0) by (unfold isospinProj, flavoured in *; lia). lia.
  - cbn [fsParticles] in HF. specialize (IH1 (fun p Hp => HF p (in_or_app _ _ _ (or_introl Hp)))). specialize (IH2 (fun p Hp => HF p (in_or_app _ _ _ (or_intror Hp)))). clear HF HE HC HD.
    cbn [topPart ptP]. revert HA HQ IH1 IH2. generalize (topPart x1) (topPart x2). intros p1 p2 HA HQ [_ G1] [_ G2]. clear - HA HQ G1 G2.
    assert (FG : flavoured p -> pG p = 0).
    { intros F. destruct HQ as [QQ QB QS QCh QBe QI QJ QG QP [QC1 QC2]]. rewrite QG. unfold flavoured in *.
      destruct (Z.eq_dec (pG (ptP p1)) 0) as [->|N1]; [reflexivity|]. destruct (Z.eq_dec (pG (ptP p2)) 0) as [->|N2]; [lia|]. exfalso. 
      assert (Z1 : pB (ptP p1) = 0 /\ pS (ptP p1) = 0 /\ pCharm (ptP p1) = 0 /\ pBeauty (ptP p1) = 0) by (apply Decidable.not_not; [unfold Decidable.decidable; lia|tauto]).
      assert (Z2 : pB (ptP p2) = 0 /\ pS (ptP p2) = 0 /\ pCharm (ptP p2) = 0 /\ pBeauty (ptP p2) = 0) by (apply Decidable.not_not; [unfold Decidable.decidable; lia|tauto]).
      apply F. lia. }
    split; [|exact FG].
    destruct HQ as [QQ QB QS QCh QBe QI QJ QG QP [QC1 QC2]]. split; [intros N; apply QC2; tauto|]. split; intros E0 i Ei.
    + destruct (Classical_Prop.classic (flavoured p)) as [F|F].
      * rewrite (FG F), QC2 by (unfold flavoured in F; tauto). lia.
      * apply QC1; [unfold flavoured in F; lia|congruence].
    + destruct (Classical_Prop.classic (flavoured p)) as [F|F].
      * rewrite (FG F), QC2 by (unfold flavoured in F; tauto). lia.
      * exfalso. destruct HA as [_ _ _ _ AIz _ _ _]. cbv zeta in AIz. destruct AIz as [(_ & _ & (_ & k & _ & Ek) & _) _].
        assert (isospinProj (ptP p1) + isospinProj (ptP p2) = 0) by (unfold isospinProj, flavoured in *; lia). lia.
Qed.
Theorem C55_vertices_consistent : forall ps c t x, (forall p, In p (fsParticles t) -> goodParity (ptP p)) -> wave ps c t x -> forall v, In v (vertices x) -> consistent v.
Proof.
  intros ps c t x HF W. induction W as [p|parent md t1 t2 x1 x2 S L J I p M refl HX W1 IH1 W2 IH2 HA HQ HF' HM|parent md t1 t2 x1 x2 S L J I p m HX W1 IH1 W2 IH2 HA HQ HE HC HD]; intros v Hv; [destruct Hv| |];
  (assert (W : goodParity p) by (match goal with |- _ => eapply (wave_parity ps c (TNode parent md t1 t2) (DNode (Part p _ _ _) L S _ x1 x2) HF); econstructor; eassumption end));
  cbn [fsParticles] in HF; specialize (IH1 (fun p Hp => HF p (in_or_app _ _ _ (or_introl Hp)))); specialize (IH2 (fun p Hp => HF p (in_or_app _ _ _ (or_intror Hp))));
  (assert (P1 : goodParity (ptP (topPart x1))) by (apply (wave_parity ps c t1); [intros q Hq; apply HF, in_or_app; now left|exact W1]));
  (assert (P2 : goodParity (ptP (topPart x2))) by (apply (wave_parity ps c t2); [intros q Hq; apply HF, in_or_app; now right|exact W2]));
  cbn [vertices] in Hv; (destruct Hv as [<-|Hv]; [|apply in_app_or in Hv as [Hv|Hv]; auto]);
  destruct HQ as [QQ QB QS QCh QBe QI QJ QG QP _]; destruct HA as [[AS _] [AL _] [AJ _] [AI _] AIz _ _ _];
  unfold consistent; cbn [vParent vD1 vD2 vL vS ptP]; repeat (split; [assumption|]);
  (split; [congruence|]); (split; [|split; [apply W|split; [apply P1|apply P2]]]); unfold isospinCouples; rewrite QI;
  (replace (isospinProj p) with (isospinProj (ptP (topPart x1)) + isospinProj (ptP (topPart x2))) by (unfold isospinProj; lia)); exact AIz.
Qed.
(* ... as the code checks it *)
Theorem C55_vertices_pass_check : forall ps known c t l, Forall normalised ps -> tmplOk t -> integerLRange c ->
  (cUseRefl c = true -> exists k, spinSum t = 2 * k) ->
  (forall p, In p (fsParticles t) -> goodParity (ptP p)) -> decayPossibilities (addAll ps) known c t = Some l ->
  forall x v, In x l -> In v (vertices x) -> 0 <= pI (vParent v) < 18 -> 0 <= pI (vD1 v) < 18 -> 0 <= pI (vD2 v) < 18 -> checkConsistency v = Some true.
Proof.
  intros ps known c t l HN HT HL HR HF H x v Hx Hv I0 I1 I2. apply (C55_waves_exact ps known c t l HN HT HL HR H) in Hx.
  pose proof (C55_vertices_consistent ps c t x HF Hx v Hv) as HC.
  destruct (C52_check_exact v) as (b & E & Hb); auto; [destruct HC as (_ & _ & _ & _ & _ & _ & (k & ? & ->) & _); lia|]. rewrite E. f_equal. now apply Hb.
Qed.
