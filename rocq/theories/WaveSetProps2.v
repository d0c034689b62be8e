(* C55: concrete wave sets, and where the generation departs from the English claim. *)
From Coq Require Import String List ZArith QArith Bool Reals Lia Lra.
From Verif Require Import PathModel StrModel SpinModel SpinSpec SpinProofs SpinProps CGModel CGSpec ParticleModel ParticleProps ParticleProps2 PhysModel VertexProps WaveSetModel WaveSetSpec WaveSetProofs WaveSetProofs2 WaveSetProofs3 WaveSetProps.
Import ListNotations.
Open Scope list_scope. Open Scope Z_scope.

(* name, antiparticle, charge, B, I, S, G, J, P, C; massless and of zero width *)
Definition mk (n an : string) (q b i s g j pp cc : Z) (ds : list decayMode) : pprops := PP (lit n) (lit an) q 0%R 0%R 0%R b i s 0 0 g j pp cc ds.
Definition piMinus := mk "pi" "pi" (-1) 0 2 0 (-1) 0 (-1) 0 [].
Definition piPlus := mk "pi" "pi" 1 0 2 0 (-1) 0 (-1) 0 [].
Definition eta := mk "eta" "eta" 0 0 0 0 1 0 (-1) 1 [].
Definition kMinus := mk "K" "K" (-1) 0 1 (-1) 0 0 (-1) 0 [].
Definition proton := mk "p" "pbar" 1 1 1 0 0 1 1 0 [].
Definition a0Minus := mk "a0(980)" "a0(980)" (-1) 0 2 0 (-1) 0 1 0 [DM [lit "eta0"; lit "pi-"] 0 0 [lit "flatte"; []; bwName]].
Definition xMinus q := mk "X" "X" q 0 0 0 0 0 0 0 [].
Definition fs (p : pprops) (i : Z) : particle := Part p 0 i 0.

Lemma normed n an q b i s g j pp cc ds : lit n <> [] /\ ~ endsWith chargeChar (lit n) -> lit an <> [] /\ ~ endsWith chargeChar (lit an) -> Z.abs q <= 9 -> 0 <= i -> 0 <= j ->
  Z.abs g <= 1 -> Z.abs pp <= 1 -> Z.abs cc <= 1 -> normalised (mk n an q b i s g j pp cc ds).
Proof. intros. split; cbn [mk pName pAnti pCharge pMass pMass2 pI pJ pG pP pC]; auto. lra. Qed.
Lemma noChargeEnd s c r : rev s = c :: r -> ~ chargeChar c -> ~ endsWith chargeChar s.
Proof. intros E N (x & d & -> & H). rewrite rev_app_distr in E. cbn in E. injection E as -> _. tauto. Qed.
Ltac tname := split; [discriminate|eapply noChargeEnd; [reflexivity|intros [X|[X|X]]; discriminate X]].
Ltac tnorm := apply normed; try (cbn; lia); tname.

Definition cfg0 (useRefl : bool) (L : Z * Z) (exotic : bool) : cfg := Cfg (0, 2) (0, 4) (0, 4) L (0, 4) 0 useRefl exotic false 0%R [] [] false.
Definition show (d : decay) : list Z := match d with DNode p L Sp _ _ _ => [pI (ptP p); pG (ptP p); pJ (ptP p); pP (ptP p); pC (ptP p); ptM p; ptRefl p; L; Sp] | DFs _ => [] end.
Definition etaPi : tmpl := TNode (Part (xMinus (-1)) 0 (-1) 0) bwName (TFs (fs eta 0)) (TFs (fs piMinus 0)).
Definition pPi : tmpl := TNode (Part (xMinus 2) 0 (-1) 0) bwName (TFs (fs proton 0)) (TFs (fs piPlus 0)).
Definition cfgP : cfg := Cfg (0, 4) (0, 4) (-4, 4) (0, 0) (0, 4) 0 true true false 0%R [] [] false.

Lemma eta_ok : normalised eta. Proof. tnorm. Qed.
Lemma pi_ok : normalised piMinus. Proof. tnorm. Qed.
Lemma piP_ok : normalised piPlus. Proof. tnorm. Qed.
Lemma p_ok : normalised proton. Proof. tnorm. Qed.
Lemma a0_ok : normalised a0Minus. Proof. tnorm. Qed.
Lemma etaPi_ok : tmplOk etaPi.
Proof. cbn [tmplOk etaPi fs ptP topTmpl notX]. split; [exact eta_ok|]. split; [exact pi_ok|]. repeat split; cbn; lia. Qed.

(* eta pi-: the waves without and with spin-exotic ones, (I G J P C M refl L S); all hypotheses of the theorems hold *)
Example C55_eta_pi_ex :
  tmplOk etaPi /\ defaultMassDeps etaPi /\ integerLRange (cfg0 true (0, 4) false) /\ (exists k, spinSum etaPi = 2 * k) /\
  (forall p, In p (fsParticles etaPi) -> smallIsospin (ptP p) /\ goodParity (ptP p)) /\
  option_map (map show) (decayPossibilities [] (fun _ => true) (cfg0 true (0, 4) false) etaPi) =
    Some [[2; -1; 0; 1; 0; 0; -1; 0; 0]; [2; -1; 4; 1; 0; 0; -1; 4; 0]; [2; -1; 4; 1; 0; 2; -1; 4; 0]; [2; -1; 4; 1; 0; 2; 1; 4; 0]; [2; -1; 4; 1; 0; 4; -1; 4; 0]; [2; -1; 4; 1; 0; 4; 1; 4; 0]] /\
  option_map (map show) (decayPossibilities [] (fun _ => true) (cfg0 true (0, 2) true) etaPi) =
    Some [[2; -1; 0; 1; 0; 0; -1; 0; 0]; [2; -1; 2; -1; 0; 0; -1; 2; 0]; [2; -1; 2; -1; 0; 2; -1; 2; 0]; [2; -1; 2; -1; 0; 2; 1; 2; 0]].
Proof.
  split; [exact etaPi_ok|]. split; [repeat split; intros; reflexivity|]. split; [intros k; cbn; lia|]. split; [exists 0; reflexivity|].
  split; [|split; vm_compute; reflexivity].
  intros p [<-|[<-|[]]]; (split; [unfold smallIsospin; cbn; lia|]); (split; [|unfold flavoured; cbn; lia]);
    (split; [cbn; lia|]); split; unfold fs, eta, piMinus, mk; cbn [ptP pCharge pI pC pG]; intros H i Hi; try lia. replace i with 0 by lia. reflexivity.
Qed.

(* a decay with an isobar: X- -> a0(980)- eta, a0(980)- -> eta pi-, with the mass dependences of the decay mode of the table *)
Definition etaEtaPi : tmpl := TNode (Part (xMinus (-1)) 0 (-1) 0) bwName (TNode (Part (mk "isobar" "isobar" (-1) 0 0 0 0 0 0 0 []) 0 (-1) 0) bwName (TFs (fs eta 0)) (TFs (fs piMinus 0))) (TFs (fs eta 1)).
Lemma etaEtaPi_ok : tmplOk etaEtaPi.
Proof.
  cbn [tmplOk etaEtaPi fs ptP topTmpl notX]. split; [split; [exact eta_ok|]; split; [exact pi_ok|]; repeat split; cbn; lia|]. split; [exact eta_ok|]. repeat split; cbn; lia.
Qed.
Ltac tcoup k := split; [split; [cbn; lia|split; [cbn; lia|exists k; cbn; lia]]|unfold inRange; cbn; lia].
Example C55_isobar_ex : forall m, In m [lit "flatte"; []] ->
  wave [a0Minus] (cfg0 true (0, 4) false) etaEtaPi
    (DNode (Part (mk "X" "X" (-1) 0 2 0 (-1) 0 (-1) 0 []) 0 (-1) 1) 0 0 bwName
       (DNode (Part a0Minus 0 (-1) 0) 0 0 m (DFs (fs eta 0)) (DFs (fs piMinus 0))) (DFs (fs eta 1))).
Proof.
  intros m Hm. unfold etaEtaPi. apply (WX _ _ (Part (xMinus (-1)) 0 (-1) 0)) with (J := 0) (I := 2).
  - reflexivity.
  - apply (WIsobar _ _ (Part (mk "isobar" "isobar" (-1) 0 0 0 0 0 0 0 []) 0 (-1) 0)) with (J := 0) (I := 2); [reflexivity|constructor|constructor| | |reflexivity| |].
    + split.
      * tcoup 0.
      * split; [exists 0; lia|unfold inRange; cbn; lia].
      * tcoup 0.
      * tcoup 0.
      * apply (can_spec _ _ _ _ _ _ true); [vm_compute; reflexivity|reflexivity].
      * right. intros i j l Hi Hj Hl. replace l with 0 by lia. exact (proj1 (exotic_spec 2 (-1) 0 1 ltac:(lia) ltac:(lia) ltac:(cbn; lia) ltac:(cbn; lia)) eq_refl i j Hi Hj).
      * intros AP. exfalso. destruct AP as (X & _). vm_compute in X. discriminate X.
      * intros AP. exfalso. destruct AP as (X & _). vm_compute in X. discriminate X.
    + split; try reflexivity; [intros l Hl; replace l with 0 by lia; reflexivity|split; [intros (X & _); discriminate X|intros _; reflexivity]].
    + unfold isCandidate. split; [intros X; discriminate X|]. split; [intros X; now elim X|]. split; [intros [[]|[]]|]. split; [intros X; discriminate X|]. intros _. eexists. split; [now left|]. reflexivity.
    + right. destruct Hm as [<-|[<-|[]]].
      * exists [], (Some (lit "flatte")), [Some []; Some bwName]. split; [reflexivity|]. split; [reflexivity|]. intros r' [].
      * exists [Some (lit "flatte")], (Some []), [Some bwName]. split; [reflexivity|]. split; [reflexivity|]. intros r' [<-|[]]. discriminate.
  - constructor.
  - split.
    + tcoup 0.
    + split; [exists 0; lia|unfold inRange; cbn; lia].
    + tcoup 0.
    + tcoup 0.
    + apply (can_spec _ _ _ _ _ _ true); [vm_compute; reflexivity|reflexivity].
    + right. intros i j l Hi Hj Hl. replace l with 0 by lia. exact (proj1 (exotic_spec 2 (-1) 0 (-1) ltac:(lia) ltac:(lia) ltac:(cbn; lia) ltac:(cbn; lia)) eq_refl i j Hi Hj).
    + intros AP. exfalso. destruct AP as (X & _). vm_compute in X. discriminate X.
    + intros AP. exfalso. destruct AP as (X & _). vm_compute in X. discriminate X.
  - split; try reflexivity; [intros l Hl; replace l with 0 by lia; reflexivity|split; [intros (X & _); discriminate X|intros _; reflexivity]].
  - repeat split.
  - split; [split; [cbn; lia|exists 0; lia]|]. split; [unfold inRange; cbn; lia|]. cbn [cUseRefl cfg0 cRefl]. split; [lia|]. split; [left; reflexivity|]. split; [tauto|]. intros _ j Hj. replace j with 0 by lia. cbn. lia.
Qed.

(* ---- departures ---- *)
(* A demanded range of L that starts at a half-integer value yields waves with half-integer orbital angular momentum. *)
Theorem C55_half_integer_L_refuted : exists c t l p L Sp m x1 x2, tmplOk t /\ (exists k, spinSum t = 2 * k) /\
  decayPossibilities (addAll []) (fun _ => true) c t = Some l /\ In (DNode p L Sp m x1 x2) l /\ forall k, L <> 2 * k.
Proof.
  exists (cfg0 true (1, 3) true), etaPi. eexists. eexists. exists 1. do 4 eexists. split; [exact etaPi_ok|]. split; [exists 0; reflexivity|].
  split; [vm_compute; reflexivity|]. split; [left; reflexivity|]. intros k. lia.
Qed.
(* With reflectivity and half-integer spin the waves include negative spin projections of X. *)
Lemma pPi_ok : tmplOk pPi.
Proof. cbn [tmplOk pPi fs ptP topTmpl notX]. split; [exact p_ok|]. split; [exact piP_ok|]. repeat split; cbn; lia. Qed.
Theorem C55_negative_M_refuted : exists c t l p L Sp m x1 x2, tmplOk t /\ integerLRange c /\ cUseRefl c = true /\
  decayPossibilities (addAll []) (fun _ => true) c t = Some l /\ In (DNode p L Sp m x1 x2) l /\ ptM p < 0.
Proof.
  exists cfgP, pPi. eexists. eexists. do 5 eexists. split; [exact pPi_ok|]. split; [intros k; cbn; lia|]. split; [reflexivity|].
  split; [vm_compute; reflexivity|]. split; [left; reflexivity|]. cbn. lia.
Qed.
(* Final-state particles of one kind carry different indices, so that they never count as identical: two pi- in a P wave, which
   Bose symmetry forbids, are emitted. *)
Definition piPi : tmpl := TNode (Part (xMinus (-2)) 0 (-1) 0) bwName (TFs (fs piMinus 0)) (TFs (fs piMinus 1)).
Definition cfgB : cfg := Cfg (0, 4) (0, 4) (0, 4) (0, 4) (0, 4) 0 true true false 0%R [] [] false.
Lemma piPi_ok : tmplOk piPi.
Proof. cbn [tmplOk piPi fs ptP topTmpl notX]. split; [exact pi_ok|]. split; [exact pi_ok|]. repeat split; cbn; lia. Qed.
Theorem C55_identical_final_state_refuted : exists c t l p L Sp m p1 p2, tmplOk t /\ integerLRange c /\ (exists k, spinSum t = 2 * k) /\
  decayPossibilities (addAll []) (fun _ => true) c t = Some l /\ In (DNode p L Sp m (DFs p1) (DFs p2)) l /\
  ptP p1 = ptP p2 /\ exists n, pI (ptP p) + L + Sp = 2 * n /\ minusOnePow n <> minusOnePow (pI (ptP p1)).
Proof.
  assert (HI : integerLRange cfgB) by (intros k; cbn; lia).
  destruct (C55_never_aborts [] (fun _ => true) cfgB piPi) as [l Hl]; try (constructor; fail).
  { exact piPi_ok. } { exact HI. } { intros _. exists 0. reflexivity. }
  { intros p [<-|[<-|[]]]; unfold smallIsospin; cbn; lia. }
  exists cfgB, piPi, l, (Part (mk "X" "X" (-2) 0 4 0 1 2 (-1) 0 []) 2 (-1) 1), 2, 0, bwName, (fs piMinus 0), (fs piMinus 1).
  split; [exact piPi_ok|]. split; [exact HI|]. split; [exists 0; reflexivity|]. split; [exact Hl|]. split; [|split; [reflexivity|exists 3; split; [reflexivity|discriminate]]].
  apply (C55_waves_exact [] (fun _ => true) cfgB piPi l); [constructor|exact piPi_ok|exact HI|intros _; exists 0; reflexivity|exact Hl|].
  apply (WX _ _ (Part (xMinus (-2)) 0 (-1) 0)) with (J := 2) (I := 4); [reflexivity|constructor|constructor| | | |].
  - split.
    + tcoup 0.
    + split; [exists 1; lia|unfold inRange; cbn; lia].
    + tcoup 0.
    + tcoup 2.
    + apply (can_spec _ _ _ _ _ _ true); [vm_compute; reflexivity|reflexivity].
    + left. reflexivity.
    + intros AP. exfalso. destruct AP as (X & _). vm_compute in X. discriminate X.
    + intros AP. exfalso. destruct AP as (_ & _ & _ & _ & _ & _ & _ & _ & _ & _ & _ & _ & _ & _ & _ & X & _). vm_compute in X. discriminate X.
  - split; try reflexivity; [intros l' Hl'; replace l' with 1 by lia; reflexivity|split; [intros (X & _); discriminate X|intros _; reflexivity]].
  - repeat split.
  - split; [split; [cbn; lia|exists 2; lia]|]. split; [unfold inRange; cbn; lia|]. cbn [cUseRefl cfg0 cfgB cRefl]. split; [lia|]. split; [left; reflexivity|]. split; [tauto|]. intros X. discriminate X.
Qed.
