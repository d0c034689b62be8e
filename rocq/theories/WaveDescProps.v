(* C76: key files: writing a wave and reading it back *)
From Coq Require Import String Ascii List ZArith Bool Reals Lia Lra.
From Verif Require Import PathModel StrModel DecModel ParticleModel WaveSetModel WaveDescModel WaveDescSpec WaveDescProofs.
Import ListNotations.
Open Scope list_scope. Open Scope Z_scope.

Lemma keyFile_some t v d a : readablePV t v -> exists k, prodVertKeys v = Some k /\
  keyFile v d a = Some (SGroup ((lit "productionVertex"%string, SGroup k) :: (lit "decayVertex"%string,
      SGroup [(lit "XQuantumNumbers"%string, SGroup (XQnKeys (wTop d))); (lit "XDecay"%string, SGroup (decayKeys d d))]) ::
      match a with Some o => [(lit "amplitude"%string, SGroup (amplitudeKeys o))] | None => [] end)).
Proof.
  intros H. destruct v as [lep vin vout pol]. unfold readablePV in H. cbn [pvLepto pvIn pvOut pvPol] in H.
  destruct lep; [destruct H as (b & tg & g & r & l & -> & -> & _)|destruct H as (b & tg & r & -> & -> & _)];
    (eexists; split; [reflexivity|reflexivity]).
Qed.

(* what is read from the key file of any readable wave *)
Theorem C76_what_is_read_back : forall t v d a key, readablePV t v -> readableX t d -> keyFile v d a = Some key ->
  (hasGlassX d -> constructDecayTopology t false key = None) /\
  (~ hasGlassX d -> constructDecayTopology t false key = Some (Some (backPV v, backX d))).
Proof.
  intros t v d a key HV HD HK. destruct (keyFile_some t v d a HV) as (k & Hk & E). rewrite E in HK. injection HK as <-.
  set (rest := match a with Some o => _ | None => [] end).
  set (dv := SGroup [(lit "XQuantumNumbers"%string, SGroup (XQnKeys (wTop d))); (lit "XDecay"%string, SGroup (decayKeys d d))]).
  set (root := SGroup _).
  assert (isX (wTop d)) as HX by (destruct d; [destruct HD|apply HD]).
  assert (constructDecayTopology t false root = if glassXb d then None else Some (Some (backPV v, backX d))) as R.
  { unfold constructDecayTopology.
    change (findGroup (lit "decayVertex"%string) root) with (Some dv). cbv iota.
    change (findGroup (lit "XQuantumNumbers"%string) dv) with (Some (SGroup (XQnKeys (wTop d)))). cbv iota.
    rewrite (readX_keys _ HX). cbn [bindP]. unfold root. rewrite (read_PV t v k _ HV Hk). fold root. cbn [bindP].
    change (findGroup (lit "XDecay"%string) dv) with (Some (SGroup (decayKeys d d))). cbv iota.
    rewrite (read_X t d (S (ssize root)) (x0 (wTop d)) HD).
    - destruct (glassXb d); [reflexivity|]. cbn [bindP]. rewrite (charges_backX t d HD). reflexivity.
    - destruct HX as (q & B & Iso & St & c & b & G & J & P & C & EX & _). unfold x0, zeroCharge. cbn [ptP]. rewrite EX. reflexivity.
    - pose proof (depth_keys d d) as HW. unfold root, dv. cbn [ssize fold_right snd] in HW |- *. lia. }
  rewrite R. pose proof (glassXb_spec d) as G. destruct (glassXb d); split; intros H; try reflexivity; exfalso; [apply H, G; reflexivity|].
  apply G in H. discriminate.
Qed.

Lemma bare_plain p : bare p = p <-> plain p.
Proof. destruct p as [pp m i r]. unfold bare, plain. cbn. split; [intros H; injection H as <- <- <-; auto|intros (-> & -> & ->); reflexivity]. Qed.
Lemma isFs_back d : isFs (back d) = isFs d.
Proof. destruct d; [reflexivity|]. cbn [back]. unfold node. destruct (_ && _); reflexivity. Qed.
Lemma back_held d : (back d = d /\ ~ hasGlass d) <-> held d.
Proof.
  induction d as [q|p L Sp md d1 IH1 d2 IH2].
  - cbn [back held hasGlass]. rewrite <- bare_plain. split; [intros [H _]; injection H as H; exact H|intros ->; tauto].
  - cbn [back held hasGlass]. unfold node, fsBeforeIsobar.
    assert ((mdBack md = md /\ ~ (exists g, md = MGlass g)) <-> mdHeld md) as HM.
    { destruct md; cbn; split; try tauto; try (intros; split; [reflexivity|intros [? Q]; discriminate Q]).
      - intros [_ H]. apply H. eexists; reflexivity.
      - intros [H _]. injection H as H. symmetry; exact H.
      - intros ->. split; [reflexivity|intros [? Q]; discriminate Q]. }
    rewrite <- bare_plain.
    split.
    + intros [H HG]. destruct (isFs d1 && negb (isFs d2)) eqn:EB.
      * exfalso. apply andb_prop in EB. destruct EB as [B1 B2]. injection H as _ _ H2 _.
        apply (f_equal isFs) in H2. rewrite isFs_back, B1 in H2. rewrite H2 in B2. discriminate.
      * injection H as Hb Hm H1 H2. split; [exact Hb|]. split; [apply HM; tauto|]. split; [intros [C1 C2]; rewrite C1, C2 in EB; discriminate|].
        split; [apply IH1|apply IH2]; tauto.
    + intros (Hb & Hm & Hf & H1 & H2). apply HM in Hm. apply IH1 in H1. apply IH2 in H2.
      destruct (isFs d1) eqn:B1, (isFs d2) eqn:B2; cbn [andb negb] in *; try (exfalso; apply Hf; auto; fail);
        rewrite Hb, (proj1 Hm), (proj1 H1), (proj1 H2); tauto.
Qed.
Lemma backX_held d : (backX d = d /\ ~ hasGlassX d /\ isFs d = false) <-> heldX d.
Proof.
  destruct d as [q|p L Sp md d1 d2]; [cbn; intuition discriminate|]. cbn [backX heldX hasGlassX]. unfold node, fsBeforeIsobar.
  pose proof (back_held d1) as IH1. pose proof (back_held d2) as IH2.
  split.
  - intros (H & HG & _). destruct (isFs d1 && negb (isFs d2)) eqn:EB.
    + exfalso. apply andb_prop in EB. destruct EB as [B1 B2]. injection H as _ H2 _.
      apply (f_equal isFs) in H2. rewrite isFs_back, B1 in H2. rewrite H2 in B2. discriminate.
    + injection H as Hm H1 H2. split; [symmetry; exact Hm|]. split; [intros [C1 C2]; rewrite C1, C2 in EB; discriminate|].
      split; [apply IH1|apply IH2]; tauto.
  - intros (Hm & Hf & H1 & H2). apply IH1 in H1. apply IH2 in H2. subst md.
    destruct (isFs d1) eqn:B1, (isFs d2) eqn:B2; cbn [andb negb] in *; try (exfalso; apply Hf; auto; fail);
      rewrite (proj1 H1), (proj1 H2); tauto.
Qed.
Lemma known_name t p q : known t p -> known t q -> name (ptP p) = name (ptP q) -> ptP p = ptP q.
Proof. unfold known. intros H1 H2 E. rewrite E, H2 in H1. injection H1 as H1. symmetry; exact H1. Qed.
Lemma bare_eq p q : ptP p = ptP q -> bare p = bare q.
Proof. unfold bare. intros ->. reflexivity. Qed.
Lemma backPV_held t v : readablePV t v -> (backPV v = v <-> heldPV v).
Proof.
  intros HV. destruct v as [lep vin vout pol]. unfold readablePV in HV. cbn [pvLepto pvIn pvOut pvPol] in HV. unfold heldPV, backPV. cbn [pvLepto pvIn pvOut pvPol].
  destruct lep.
  - destruct HV as (b & tg & g & r & l & -> & -> & Kb & Kt & Kr & Kl & Hg & El).
    assert (plain g) as Pg.
    { unfold createParticle in Hg. destruct (fillFromDataTable t (lit "gamma"%string)) as [[?|]|]; cbn [bindP] in Hg; try discriminate.
      - injection Hg as <-. repeat split.
      - destruct (setName (lit "gamma"%string) pDefault); cbn [bindP] in Hg; [injection Hg as <-; repeat split|discriminate]. }
    rewrite !Forall_cons_iff. rewrite <- !bare_plain. rewrite <- bare_plain in Pg.
    destruct (str_eqb (name (ptP r)) (name (ptP tg))) eqn:EN.
    + apply str_eqb_eq in EN. pose proof (bare_eq _ _ (known_name t r tg Kr Kt EN)) as EB. pose proof (bare_eq _ _ El) as EL.
      split.
      * intros H. cbn [app] in H. injection H as H1 H2 H3 H4. rewrite <- EL in H4. rewrite <- EB in H3.
        split; [split; [|split; [|split; [|constructor]]]|split; [split; [|split; [|constructor]]|intros _; exact EN]]; congruence.
      * intros ((H1 & H2 & _) & (H3 & H4 & _) & _). cbn [app]. congruence.
    + split.
      * intros H. cbn [app] in H. injection H as _ _ H3. discriminate.
      * intros (_ & _ & H). specialize (H eq_refl). apply str_eqb_neq in EN. contradiction.
  - destruct HV as (b & tg & r & -> & -> & Kb & Kt & Kr & ->).
    rewrite !Forall_cons_iff. rewrite <- !bare_plain.
    assert ((if str_eqb (name (ptP r)) (name (ptP tg)) then bare tg else bare r) = bare r) as ->.
    { destruct (str_eqb (name (ptP r)) (name (ptP tg))) eqn:EN; [|reflexivity]. apply str_eqb_eq in EN. symmetry. apply bare_eq, (known_name t); assumption. }
    split.
    + intros H. injection H as H1 H2 H3. split; [split; [|split; [|constructor]]|split; [split; [|constructor]|discriminate]]; congruence.
    + intros ((H1 & H2 & _) & (H3 & _) & _). congruence.
Qed.

(* a wave comes back unchanged exactly if the key file can hold it *)
Theorem C76_round_trip_exact : forall t v d a key, readablePV t v -> readableX t d -> keyFile v d a = Some key ->
  (constructDecayTopology t false key = Some (Some (v, d)) <-> heldPV v /\ heldX d).
Proof.
  intros t v d a key HV HD HK. pose proof (C76_what_is_read_back t v d a key HV HD HK) as [HG HN].
  pose proof (backPV_held t v HV) as B1. pose proof (backX_held d) as B2.
  assert (isFs d = false) as HF by (destruct d; [destruct HD|reflexivity]).
  split.
  - intros H. assert (~ hasGlassX d) as G by (intros G; rewrite (HG G) in H; discriminate).
    rewrite (HN G) in H. injection H as H1 H2. split; [apply B1; exact H1|apply B2; auto].
  - intros [H1 H2]. apply B2 in H2. destruct H2 as (H2 & G & _). rewrite (HN G). apply B1 in H1. congruence.
Qed.
Theorem C76_round_trip : forall t v d a key, readablePV t v -> readableX t d -> heldPV v -> heldX d -> keyFile v d a = Some key ->
  constructDecayTopology t false key = Some (Some (v, d)).
Proof. intros t v d a key HV HD H1 H2 HK. apply (C76_round_trip_exact t v d a key HV HD HK); auto. Qed.

(* the options of the amplitude *)
Theorem C76_amplitude_options : forall t v d a key, readablePV t v -> keyFile v d (Some a) = Some key -> readAmpOpts key = a.
Proof.
  intros t v d a key HV HK. destruct (keyFile_some t v d (Some a) HV) as (k & Hk & E). rewrite E in HK. injection HK as <-.
  destruct a as [[] [] [] []]; reflexivity.
Qed.

(* ---------------- examples and defects ---------------- *)
Definition mkP (bareN : string) (q : Z) (m w : R) (Iso G J P C : Z) : pprops := PP (lit bareN) (lit bareN) q m (m * m) w 0 Iso 0 0 0 G J P C [].
Definition piM := mkP "pi" (-1) (14/100) 0 2 (-1) 0 (-1) 0.
Definition piP := mkP "pi" 1 (14/100) 0 2 (-1) 0 (-1) 0.
Definition rho0 := mkP "rho(770)" 0 (77/100) (15/100) 2 1 2 (-1) (-1).
Definition sig0 := mkP "sigma" 0 (60/100) (50/100) 0 1 0 1 1.
Definition prot := PP (lit "p"%string) (lit "pbar"%string) 1 (94/100) (94/100 * (94/100)) 0 1 1 0 0 0 0 1 1 0 [].
Definition muM := mkP "mu" (-1) (1/10) 0 0 0 1 0 0.
Definition delt := PP (lit "Delta"%string) (lit "Deltabar"%string) 1 (123/100) (123/100 * (123/100)) (1/10) 1 3 0 0 0 0 3 1 0 [].
Definition tab : table := map (fun p => (name p, p)) [piM; piP; rho0; sig0; prot; muM; delt].
Definition pl (p : pprops) : particle := Part p 0 (-1) 0.
Definition a1M : particle := Part (PP (lit "X"%string) [] (-1) 0 0 0 0 2 0 0 0 (-1) 2 1 0 []) 0 (-1) 1.
Definition rhoDecay (md : mdep) : wdecay := WNode (pl rho0) 2 0 md (WFs (pl piP)) (WFs (pl piM)).
Definition goodWave : wdecay := WNode a1M 0 2 MFlat (rhoDecay MBW) (WFs (pl piM)).
Definition bachelorFirst : wdecay := WNode a1M 0 2 MFlat (WFs (pl piM)) (rhoDecay MBW).
Definition diffVert : prodVert := createDiffractive (pl piM) (pl prot) None.
Lemma kn p : In p [piM; piP; rho0; sig0; prot; muM; delt] -> known tab (pl p).
Proof. intros H. cbn [In] in H. repeat (destruct H as [<-|H]; [reflexivity|]). destruct H. Qed.
Lemma rhoDecay_readable md : mdOrdered md -> readable tab (rhoDecay md).
Proof.
  intros H. unfold rhoDecay. cbn [readable]. split; [apply kn; cbn; tauto|]. split; [discriminate|]. unfold isU32.
  split; [lia|]. split; [lia|]. split; [exact H|]. split; [reflexivity|]. split; [cbn; lia|]. split; apply kn; cbn; tauto.
Qed.
Lemma a1M_isX : isX a1M.
Proof. unfold isX, a1M. do 10 eexists. split; [reflexivity|]. cbn. repeat split; try lia. Qed.
Lemma diffVert_readable : readablePV tab diffVert.
Proof. do 3 eexists. split; [reflexivity|]. split; [reflexivity|]. split; [apply kn; cbn; tauto|]. split; [apply kn; cbn; tauto|]. split; [apply kn; cbn; tauto|reflexivity]. Qed.
Lemma diffVert_held : heldPV diffVert.
Proof. unfold heldPV. split; [repeat constructor|]. split; [repeat constructor|discriminate]. Qed.
Lemma wave_readable L Sp md m2 : isU32 L -> isU32 Sp -> mdOrdered m2 -> readableX tab (WNode a1M L Sp md (rhoDecay m2) (WFs (pl piM))).
Proof. intros HL HS HM. cbn [readableX]. split; [apply a1M_isX|]. split; [exact HL|]. split; [exact HS|]. split; [reflexivity|]. split; [apply rhoDecay_readable, HM|apply kn; cbn; tauto]. Qed.
Lemma bachelor_readable : readableX tab bachelorFirst.
Proof. unfold bachelorFirst. cbn [readableX]. split; [apply a1M_isX|]. unfold isU32. split; [lia|]. split; [lia|]. split; [reflexivity|]. split; [apply kn; cbn; tauto|apply rhoDecay_readable; exact I]. Qed.
Example C76_example : readablePV tab diffVert /\ readableX tab goodWave /\ heldPV diffVert /\ heldX goodWave /\
  (forall key, keyFile diffVert goodWave (Some (AO true false true true)) = Some key -> constructDecayTopology tab false key = Some (Some (diffVert, goodWave))).
Proof.
  assert (readableX tab goodWave) as H by (apply wave_readable; [unfold isU32; lia|unfold isU32; lia|exact I]).
  pose proof diffVert_held as HV.
  assert (heldX goodWave) as HW.
  { cbn. unfold fsBeforeIsobar, plain. cbn. intuition congruence. }
  split; [apply diffVert_readable|]. split; [exact H|]. split; [exact HV|]. split; [exact HW|].
  intros key HK. exact (C76_round_trip _ _ _ _ _ diffVert_readable H HV HW HK).
Qed.

(* a final-state particle that is the first daughter next to an isobar comes back as the second *)
Theorem C76_daughter_order_refuted : exists t v d key, readablePV t v /\ readableX t d /\ heldPV v /\ keyFile v d None = Some key /\
  exists p L Sp f q L' S' m' e1 e2, d = WNode p L Sp MFlat (WFs f) (WNode q L' S' m' e1 e2) /\
  constructDecayTopology t false key = Some (Some (v, WNode p L Sp MFlat (WNode q L' S' m' e1 e2) (WFs f))).
Proof.
  exists tab, diffVert, bachelorFirst. destruct (keyFile diffVert bachelorFirst None) as [key|] eqn:EK; [|discriminate]. exists key.
  split; [apply diffVert_readable|]. split; [apply bachelor_readable|]. split; [exact diffVert_held|].
  split; [reflexivity|]. do 10 eexists. split; [reflexivity|].
  destruct (C76_what_is_read_back _ _ _ _ _ diffVert_readable bachelor_readable EK) as [_ H].
  rewrite H; [reflexivity|]. cbn. intros [[]|[[g G]|[[]|[]]]]. discriminate.
Qed.
(* the mass dependence of X is written and ignored when reading *)
Theorem C76_X_mass_dependence_refuted : exists t v d key, readablePV t v /\ readableX t d /\ heldPV v /\ keyFile v d None = Some key /\
  exists p L Sp d1 d2, d = WNode p L Sp MBW d1 d2 /\ constructDecayTopology t false key = Some (Some (v, WNode p L Sp MFlat d1 d2)).
Proof.
  set (d := WNode a1M 0 2 MBW (rhoDecay MBW) (WFs (pl piM))).
  assert (readableX tab d) as HR by (apply wave_readable; [unfold isU32; lia|unfold isU32; lia|exact I]).
  exists tab, diffVert, d. destruct (keyFile diffVert d None) as [key|] eqn:EK; [|discriminate]. exists key.
  split; [apply diffVert_readable|]. split; [exact HR|]. split; [exact diffVert_held|].
  split; [reflexivity|]. do 5 eexists. split; [reflexivity|].
  destruct (C76_what_is_read_back _ _ _ _ _ diffVert_readable HR EK) as [_ H].
  rewrite H; [reflexivity|]. cbn. intros [[[g G]|[[]|[]]]|[]]. discriminate.
Qed.
(* reading the key file written for a wave with the GLASS mass dependence terminates the process *)
Theorem C76_glass_refuted : exists t v d key, readablePV t v /\ readableX t d /\ keyFile v d None = Some key /\ constructDecayTopology t false key = None.
Proof.
  set (g := Glass 1 1 1 1 1 1 1 1 1 1 []). set (d := WNode a1M 0 2 MFlat (rhoDecay (MGlass g)) (WFs (pl piM))).
  assert (readableX tab d) as HR by (apply wave_readable; [unfold isU32; lia|unfold isU32; lia|exact I]).
  exists tab, diffVert, d. destruct (keyFile diffVert d None) as [key|] eqn:EK; [|discriminate]. exists key.
  split; [apply diffVert_readable|]. split; [exact HR|]. split; [reflexivity|].
  apply (proj1 (C76_what_is_read_back _ _ _ _ _ diffVert_readable HR EK)). cbn. left. left. eexists. reflexivity.
Qed.
(* the mass limit of the Palano-Pennington amplitude comes back as 2.4 GeV *)
Theorem C76_palano_limit_refuted : exists t v d key, readablePV t v /\ readableX t d /\ keyFile v d None = Some key /\
  exists p L Sp q L' S' e1 e2 f, d = WNode p L Sp MFlat (WNode q L' S' (MPalano 2) e1 e2) f /\
  constructDecayTopology t false key = Some (Some (v, WNode p L Sp MFlat (WNode q L' S' (MPalano (24 / 10)) e1 e2) f)).
Proof.
  set (d := WNode a1M 0 2 MFlat (rhoDecay (MPalano 2)) (WFs (pl piM))).
  assert (readableX tab d) as HR by (apply wave_readable; [unfold isU32; lia|unfold isU32; lia|exact I]).
  exists tab, diffVert, d. destruct (keyFile diffVert d None) as [key|] eqn:EK; [|discriminate]. exists key.
  split; [apply diffVert_readable|]. split; [exact HR|]. split; [reflexivity|]. do 9 eexists. split; [reflexivity|].
  destruct (C76_what_is_read_back _ _ _ _ _ diffVert_readable HR EK) as [_ H].
  rewrite H; [reflexivity|]. cbn. intros [[[g G]|[[]|[]]]|[]]. discriminate.
Qed.
(* a lepton vertex that is created with a recoil particle has the scattered lepton in its place *)
Theorem C76_lepton_recoil_refuted : forall t beam target recoil v, createLepto t beam target (Some recoil) = Some v -> nth_error (pvOut v) 0 = Some beam.
Proof. intros t beam target recoil v. unfold createLepto. destruct (createParticle t (lit "gamma"%string)); [|discriminate]. cbn [bindP]. intros H. injection H as <-. reflexivity. Qed.
Example C76_lepton_recoil_example : exists v, createLepto tab (pl muM) (pl prot) (Some (pl delt)) = Some v.
Proof. eexists. reflexivity. Qed.
(* a key file with an isobar without a name: isobarDaughters.back() of an empty vector *)
Theorem C76_nameless_isobar_refuted : exists t key, constructDecayTopology t false key = None /\
  exists p L Sp f, key = SGroup [(lit "productionVertex"%string, SGroup p); (lit "decayVertex"%string, SGroup [(lit "XQuantumNumbers"%string, SGroup (XQnKeys a1M));
     (lit "XDecay"%string, SGroup [(lit "isobars"%string, SList [SGroup [(lit "L"%string, SInt L)]]); (lit "S"%string, SInt Sp); (lit "fsParticles"%string, SList [f])])])] /\
     prodVertKeys diffVert = Some p.
Proof.
  destruct (prodVertKeys diffVert) as [p|] eqn:EP; [|discriminate].
  exists tab. eexists. split; [|exists p, 0, 0, (SGroup [(lit "name"%string, SString (lit "pi-"%string))]); split; [reflexivity|reflexivity]].
  vm_compute in EP. injection EP as <-. reflexivity.
Qed.
(* S is not read if there is no L *)
Theorem C76_S_without_L_refuted : exists t key, (exists v d, constructDecayTopology t false key = Some (Some (v, d)) /\ exists p md d1 d2, d = WNode p 0 0 md d1 d2) /\
  exists p l, key = SGroup [(lit "productionVertex"%string, SGroup p); (lit "decayVertex"%string, SGroup [(lit "XQuantumNumbers"%string, SGroup (XQnKeys a1M));
     (lit "XDecay"%string, SGroup ((lit "S"%string, SInt 2) :: l))])] /\ findKey (lit "L"%string) l = None.
Proof.
  exists tab.
  set (kf := keyFile diffVert goodWave None).
  assert (exists p, prodVertKeys diffVert = Some p) as [p EP] by (eexists; reflexivity).
  set (l := [(lit "isobars"%string, SList [iskey goodWave (rhoDecay MBW)]); (lit "fsParticles"%string, SList [SGroup [(lit "name"%string, SString (lit "pi-"%string))]])]).
  eexists. split; [|exists p, l; split; [reflexivity|reflexivity]].
  vm_compute in EP. injection EP as <-. exists diffVert, (WNode a1M 0 0 MFlat (rhoDecay MBW) (WFs (pl piM))). split; [vm_compute; reflexivity|]. exists a1M, MFlat, (rhoDecay MBW), (WFs (pl piM)). reflexivity.
Qed.
