(* transformDaughters with and without modification of the event (C74). *)
From Coq Require Import List ZArith Reals Bool Lia Lra Psatz.
From Verif Require Import CGBoxModel PhysModel PhaseModel PhaseSpec PhaseProofs FrameModel FrameSpec FrameProofs FrameProofs2 FrameProofs3 FrameProofs4 FrameProps2 AmpModel AmpSpec AmpProofs.
Import ListNotations.
Open Scope R_scope.

Lemma lapply_opp L p : lapply L (Lv (- lx p) (- ly p) (- lz p) (- lt p)) = Lv (- lx (lapply L p)) (- ly (lapply L p)) (- lz (lapply L p)) (- lt (lapply L p)).
Proof. unfold lapply, rowDot. cbn [lx ly lz lt]. apply lv_eq; ring. Qed.
Lemma timelike_t p : 0 < mink p p -> lt p <> 0.
Proof. unfold mink. intros H E. rewrite E in H. pose proof (Rle_0_sqr (lx p)). pose proof (Rle_0_sqr (ly p)). pose proof (Rle_0_sqr (lz p)). unfold Rsqr in *. lra. Qed.
Lemma lor_inv L : isLorentz L -> isLorentz (linv L).
Proof.
  intros HL. pose proof (lor_good _ HL) as G. constructor.
  - intros p q. rewrite <- (isl_mink _ HL). now rewrite !(gd_r _ G).
  - assert (lmul L (linv L) = lrotId) as E by (apply lapply_ext; intros p; now rewrite lapply_mul, (gd_r _ G), lapply_id).
    apply (f_equal det4) in E. rewrite det_mul, (isl_det _ HL) in E. rewrite Rmult_1_l in E. rewrite E. unfold det4, lrotId, det3. cbn [lx ly lz lt]. ring.
  - intros p H1 H2. set (q := lapply (linv L) p). assert (lapply L q = p) as Eq by apply (gd_r _ G).
    assert (mink q q = mink p p) as Mq by (rewrite <- (isl_mink _ HL q q), Eq; reflexivity).
    assert (lt q <> 0) as Nq by (apply timelike_t; lra).
    destruct (Rlt_dec 0 (lt q)) as [|Hn]; [assumption|]. exfalso.
    pose proof (isl_future _ HL (Lv (- lx q) (- ly q) (- lz q) (- lt q))) as F. rewrite lapply_opp, Eq in F. cbn [lt] in F.
    assert (0 < - lt p); [|lra]. apply F; [lra|]. replace (mink _ _) with (mink q q); [lra|]. unfold mink. cbn [lx ly lz lt]. ring.
Qed.
Lemma massive_iff M p : massive M p <-> 0 < M /\ 0 < lt p /\ mink p p = M * M.
Proof. unfold massive, hasMass, mink. split; intros (h1 & h2 & h3); repeat split; try assumption; nra. Qed.
Lemma massive_flip (K : lv -> lv) M p : (forall q, lt (K q) = lt q) -> (forall q, mink (K q) (K q) = mink q q) -> massive M p -> massive M (K p).
Proof. intros E1 E2 H. apply massive_iff in H. apply massive_iff. now rewrite E1, E2. Qed.
(* conjugation by a Lorentz transformation *)
Definition conj4 (G : lrot) (K : lv -> lv) (p : lv) : lv := lapply (linv G) (K (lapply G p)).
Definition additive (K : lv -> lv) : Prop := forall p q, K (lvAdd p q) = lvAdd (K p) (K q).
Lemma additive_lapply L : additive (lapply L).
Proof. intros p q. unfold lvAdd, lapply, rowDot. cbn [lx ly lz lt]. apply lv_eq; ring. Qed.
Lemma additive_conj G K : additive K -> additive (conj4 G K).
Proof. intros H p q. unfold conj4. now rewrite additive_lapply, H, additive_lapply. Qed.
Lemma momentum_add K s t : additive K -> momentum (fun p => K (s p)) t = K (momentum s t).
Proof. intros H. induction t as [p|p w a IHa b IHb]; cbn [momentum]; [reflexivity|]. now rewrite IHa, IHb, H. Qed.
Lemma holds_mom s s2 s' F t : (forall p, In p (fsParts t) -> s p = s2 p) -> holds s s' F t -> holds s2 s' F t.
Proof.
  revert F. induction t as [p|p w a IHa b IHb]; intros F E [H1 H2]; (split; [rewrite H1; f_equal; now apply momentum_ext|]); [exact I|].
  destruct H2 as [Ha Hb]. split; [apply IHa|apply IHb]; try assumption; intros q Hq; apply E; cbn [fsParts]; apply in_app_iff; tauto.
Qed.
Lemma calc_fs t : distinct t -> forall s q, In q (fsParts t) -> calcIsobarLzVec t s q = s q.
Proof. intros D s q Hq. unfold calcIsobarLzVec. fold (calcs (vertices t) s). now apply (calcs_spec t D s). Qed.

Definition modState (K : lv -> lv) (ref : lv) (t : topo) (s : lvs) : option lvs :=
  do G <- gjTransform ref (s (root t));
  Some (mapParts (lapply (linv G)) (fsParts t) (mapParts K (fsParts t) (mapParts (lapply G) (fsParts t) s))).
(* one modification of the event followed by calcIsobarLzVec *)
Lemma mod_step K ref t s s0 M : distinct t -> additive K -> (forall q, lt (K q) = lt q) -> (forall q, mink (K q) (K q) = mink q q) ->
  K (Lv 0 0 0 M) = Lv 0 0 0 M -> massive M (momentum s t) -> holds s s0 lrotId t ->
  exists G s1, gjTransform ref (momentum s t) = Some G /\ good G /\ lapply G (momentum s t) = Lv 0 0 0 M
    /\ modState K ref t s0 = Some s1 /\ holds (fun p => conj4 G K (s p)) (calcIsobarLzVec t s1) lrotId t
    /\ momentum (fun p => conj4 G K (s p)) t = momentum s t /\ (forall v m, massive m (momentum s v) -> massive m (momentum (fun p => conj4 G K (s p)) v)).
Proof.
  intros D AK KT KM KR HM HH. destruct (gj_always ref _ _ HM) as (G & EG & GG & RG).
  assert (s0 (root t) = momentum s t) as E0 by (destruct t; destruct HH as [E _]; cbn [root] in E |- *; now rewrite lapply_id in E).
  exists G. unfold modState. rewrite E0, EG. cbn [bnd]. eexists. split; [reflexivity|]. split; [exact GG|]. split; [exact RG|]. split; [reflexivity|].
  set (s1 := mapParts (lapply (linv G)) (fsParts t) (mapParts K (fsParts t) (mapParts (lapply G) (fsParts t) s0))).
  pose proof (fs_nodup t D) as ND.
  assert (forall p t', (forall x, In x (fsParts t') -> In x (fsParts t)) -> holds s s0 lrotId t' -> In p (fsParts t') -> s0 p = s p) as FS.
  { intros p t'. induction t' as [q|q w a IHa b IHb]; intros I1 [H1 H2] Hp.
    - destruct Hp as [<-|[]]. cbn [root momentum] in H1. now rewrite lapply_id in H1.
    - cbn [fsParts] in Hp. apply in_app_iff in Hp. destruct H2 as [Ha Hb]. destruct Hp as [Hp|Hp]; [apply IHa|apply IHb]; try assumption; intros x Hx; apply I1; cbn [fsParts]; apply in_app_iff; tauto. }
  assert (forall p, In p (fsParts t) -> s1 p = conj4 G K (s p)) as S1.
  { intros p Hp. unfold s1, conj4. rewrite !mapParts_in by assumption. now rewrite (FS p t). }
  assert (additive (conj4 G K)) as AC by now apply additive_conj.
  split; [|split].
  - apply (holds_mom s1); [exact S1|]. now apply calc_holds.
  - rewrite (momentum_add (conj4 G K)) by exact AC. unfold conj4. rewrite RG, KR, <- RG. apply (gd_l _ GG).
  - intros v m Hm. rewrite (momentum_add (conj4 G K)) by exact AC. unfold conj4.
    apply massive_map; [apply lor_inv, GG|]. apply massive_flip; try assumption. apply massive_map; [apply GG|exact Hm].
Qed.
Lemma add_inv : additive spaceInvert.
Proof. intros p q. unfold spaceInvert, lvAdd. cbn [lx ly lz lt]. apply lv_eq; ring. Qed.
Lemma add_refl : additive reflectY.
Proof. intros p q. unfold reflectY, lvAdd. cbn [lx ly lz lt]. apply lv_eq; ring. Qed.
Lemma turned_conj ref X M G p : massive M X -> gjTransform ref X = Some G -> conj4 G spaceInvert p = turned X p.
Proof.
  intros HX EG. pose proof (C73_space_inversion ref X M [p] HX) as E. unfold spaceInvertDecay in E. rewrite EG in E. cbn [bnd map] in E.
  match type of E with Some [?x] = Some [?y] => assert (x = y) as E' by congruence end. unfold conj4. rewrite E'. unfold turned. now rewrite (massive_mink _ _ HX).
Qed.
Lemma mirrored_conj ref X M G p : massive M X -> norm3 (cross (vect ref) (vect X)) <> 0 -> gjTransform ref X = Some G ->
  conj4 G reflectY p = mirrored (cross (vect ref) (vect X)) p.
Proof.
  intros HX HN EG. pose proof (C73_reflection ref X M [p] HX HN) as E. cbv zeta in E. unfold reflectDecay in E. rewrite EG in E. cbn [bnd map] in E.
  match type of E with Some [?x] = Some [?y] => assert (x = y) as E' by congruence end. unfold conj4. rewrite E'. reflexivity.
Qed.

Lemma framed_mom step ref t s s2 s' : (forall p, In p (fsParts t) -> s p = s2 p) -> framed step ref t s s' -> framed step ref t s2 s'.
Proof.
  intros E (G & EG & LG & RX & H). exists G. rewrite <- (momentum_ext s s2 t E). split; [exact EG|]. split; [exact LG|]. split; [exact RX|].
  assert (forall t' F, (forall p, In p (fsParts t') -> s p = s2 p) -> placed step F s s' t' -> placed step F s2 s' t') as K.
  { induction t' as [p|p w a IHa b IHb]; intros F E' [H1 H2]; (split; [rewrite H1; f_equal; now apply momentum_ext|]); [exact I|].
    destruct H2 as (Q & LQ & SQ & Ha & Hb). exists Q. split; [exact LQ|]. split; [exact SQ|].
    split; [apply IHa|apply IHb]; try assumption; intros q Hq; apply E'; cbn [fsParts]; apply in_app_iff; tauto. }
  destruct t as [p|p w a b]; [exact I|]. destruct H as [Ha Hb]. split; apply K; try assumption; intros q Hq; apply E; cbn [fsParts]; apply in_app_iff; tauto.
Qed.
Lemma iso_step f : isoStep (stepOf f).
Proof. destruct f; [exact hel_isoStep|exact can_isoStep]. Qed.

Lemma td_ok step inv refl ref t s : isoStep step -> distinct t -> isDecay t -> physical s t ->
  (refl = true -> norm3 (cross (vect ref) (vect (momentum s t))) <> 0) ->
  exists s', transformDaughters step inv refl ref t s = Some s' /\ framed step ref t (modified inv refl ref t s) s'
    /\ (forall v m, massive m (momentum s v) -> massive m (momentum (modified inv refl ref t s) v)) /\ momentum (modified inv refl ref t s) t = momentum s t.
Proof.
  intros HS D HD PH HN. destruct t as [p|p v a b]; [destruct HD|]. set (t := Iso p v a b) in *.
  destruct (PH t) as (M & HM); [now left|]. pose proof (calc_holds t D s) as H0. set (s0 := calcIsobarLzVec t s) in *.
  (* inversion *)
  assert (exists s1, (if inv then do s <- spaceInvertState ref t s0; Some (calcIsobarLzVec t s) else Some s0) = Some s1
    /\ holds (modified inv false ref t s) s1 lrotId t /\ momentum (modified inv false ref t s) t = momentum s t /\ (forall v m, massive m (momentum s v) -> massive m (momentum (modified inv false ref t s) v))) as (s1 & E1 & H1 & M1 & P1).
  { destruct inv.
    - destruct (mod_step spaceInvert ref t s s0 M D add_inv) as (G & s1 & EG & GG & RG & ES & HH & MM & PP); try assumption; try reflexivity.
      { intros q. unfold mink, spaceInvert. cbn [lx ly lz lt]. ring. }
      { unfold spaceInvert. cbn [lx ly lz lt]. apply lv_eq; ring. }
      change (spaceInvertState ref t s0) with (modState spaceInvert ref t s0). rewrite ES. cbn [bnd]. eexists. split; [reflexivity|].
      assert (forall q, conj4 G spaceInvert (s q) = modified true false ref t s q) as EQ by (intros q; apply (turned_conj ref _ M); assumption).
      split; [apply (holds_mom (fun q => conj4 G spaceInvert (s q))); [intros q _; apply EQ|exact HH]|].
      split; [rewrite <- MM; apply momentum_ext; intros q _; symmetry; apply EQ|].
      intros x m Hm. erewrite momentum_ext; [exact (PP x m Hm)|]. intros q _. symmetry. apply EQ.
    - exists s0. split; [reflexivity|]. split; [exact H0|]. split; [reflexivity|auto]. }
  unfold transformDaughters. fold s0. rewrite E1. cbn [bnd].
  assert (exists s2, (if refl then do s <- reflectState ref t s1; Some (calcIsobarLzVec t s) else Some s1) = Some s2
    /\ holds (modified inv refl ref t s) s2 lrotId t /\ momentum (modified inv refl ref t s) t = momentum s t /\ (forall v m, massive m (momentum s v) -> massive m (momentum (modified inv refl ref t s) v))) as (s2 & E2 & H2 & M2 & P2).
  { destruct refl.
    - assert (massive M (momentum (modified inv false ref t s) t)) as HM1 by now rewrite M1.
      destruct (mod_step reflectY ref t (modified inv false ref t s) s1 M D add_refl) as (G & s2 & EG & GG & RG & ES & HH & MM & PP); try assumption; try reflexivity.
      { intros q. unfold mink, reflectY. cbn [lx ly lz lt]. ring. }
      { unfold reflectY. cbn [lx ly lz lt]. apply lv_eq; ring. }
      change (reflectState ref t s1) with (modState reflectY ref t s1). rewrite ES. cbn [bnd]. eexists. split; [reflexivity|].
      assert (forall q, conj4 G reflectY (modified inv false ref t s q) = modified inv true ref t s q) as EQ.
      { intros q. rewrite M1 in EG. rewrite (mirrored_conj ref (momentum s t) M); [reflexivity|exact HM|now apply HN|exact EG]. }
      split; [apply (holds_mom (fun q => conj4 G reflectY (modified inv false ref t s q))); [intros q _; apply EQ|exact HH]|].
      split; [rewrite <- M1, <- MM; apply momentum_ext; intros q _; symmetry; apply EQ|].
      intros x m Hm. erewrite momentum_ext; [exact (PP x m (P1 x m Hm))|]. intros q _. symmetry. apply EQ.
    - exists s1. split; [reflexivity|]. split; [exact H1|]. split; [exact M1|exact P1]. }
  rewrite E2. cbn [bnd].
  destruct (frames_ok step ref t (modified inv refl ref t s) s2) as (s' & E' & F'); try assumption; [intros x Hx; destruct (PH x Hx) as (m & Hm); eauto|now repeat eexists|].
  exists s'. split; [exact E'|]. split; [exact F'|]. split; [exact P2|exact M2].
Qed.

(* daughters in the rest frame *)
Lemma placed_vertices step F s s' t : isoStep step -> isLorentz F -> physical s t -> placed step F s s' t ->
  forall p v a b, In (Iso p v a b) (vertices t) -> forall M, massive M (momentum s (Iso p v a b)) ->
    lvAdd (s' (root a)) (s' (root b)) = Lv 0 0 0 M /\ exists Q, isLorentz Q /\ s' p = lapply Q (momentum s (Iso p v a b)).
Proof.
  intros HS. revert F. induction t as [q|q w c IHc d IHd]; intros F LF PH PL p v a b Hv M HM; [destruct Hv|].
  destruct PL as (E1 & H & LH & SH & Pc & Pd). cbn [root] in E1. cbn [vertices] in Hv. destruct Hv as [E|Hv].
  - injection E as -> -> -> ->. split; [|now exists F].
    assert (s' (root a) = lapply (lmul H F) (momentum s a)) as Ea by (destruct a; apply Pc).
    assert (s' (root b) = lapply (lmul H F) (momentum s b)) as Eb by (destruct b; apply Pd).
    rewrite Ea, Eb, <- additive_lapply. change (lvAdd (momentum s a) (momentum s b)) with (momentum s (Iso p v a b)).
    assert (massive M (s' p)) as HM1 by (rewrite E1; now apply massive_map).
    destruct (HS _ _ HM1) as (H' & _ & R & EH'). rewrite lapply_mul, <- E1.
    specialize (SH (s' p)). specialize (EH' (s' p)). congruence.
  - apply in_app_iff in Hv. assert (isLorentz (lmul H F)) as LHF by now apply isLorentz_mul.
    destruct Hv as [Hv|Hv]; [apply (IHc (lmul H F))|apply (IHd (lmul H F))]; try assumption;
    intros x Hx; apply PH; cbn [vertices]; right; apply in_app_iff; tauto.
Qed.
Lemma framed_vertices step ref t s s' : isoStep step -> physical s t -> framed step ref t s s' ->
  forall p v a b, In (Iso p v a b) (vertices t) -> forall M, massive M (momentum s (Iso p v a b)) ->
    lvAdd (s' (root a)) (s' (root b)) = Lv 0 0 0 M /\ exists Q, isLorentz Q /\ s' p = lapply Q (momentum s (Iso p v a b)).
Proof.
  intros HS PH (G & EG & LG & EX & H) p v a b Hv M HM. destruct t as [q|q w c d]; [destruct Hv|]. destruct H as [Hc Hd].
  cbn [vertices] in Hv. destruct Hv as [E|Hv].
  - injection E as -> -> -> ->. split; [|exists lrotId; split; [apply good_id|now rewrite lapply_id]].
    assert (s' (root a) = lapply G (momentum s a)) as Ea by (destruct a; apply Hc).
    assert (s' (root b) = lapply G (momentum s b)) as Eb by (destruct b; apply Hd).
    rewrite Ea, Eb, <- additive_lapply. change (lvAdd (momentum s a) (momentum s b)) with (momentum s (Iso p v a b)).
    destruct (gj_always ref _ _ HM) as (G' & EG' & _ & R). congruence.
  - apply in_app_iff in Hv. destruct Hv as [Hv|Hv]; [apply (placed_vertices step G s s' c)|apply (placed_vertices step G s s' d)]; try assumption;
    intros x Hx; apply PH; cbn [vertices]; right; apply in_app_iff; tauto.
Qed.
