(* C77: wave names *)
From Coq Require Import String Ascii List ZArith Bool Reals Lia Lra.
From Verif Require Import PathModel StrModel DecModel ParticleModel WaveSetModel WaveDescModel WaveDescSpec WaveDescProofs WaveDescProps
  WaveNameModel WaveNameSpec WaveNameProofs.
Import ListNotations.
Open Scope list_scope. Open Scope Z_scope.

Lemma waveName_eq showD p L Sp md d1 d2 : waveName showD (WNode p L Sp md d1 d2) =
  "["%char :: igjpc (ptP p) ++ ","%char :: spinStr (ptM p) ++ parityStr (ptRefl p) ++ "]"%char :: "="%char :: "["%char ::
  dau showD d1 ++ "["%char :: spinStr L ++ ","%char :: spinStr Sp ++ "]"%char :: dau showD d2 ++ "]"%char :: [].
Proof.
  unfold waveName. cbv zeta. cbn [wTop]. rewrite !repl_app, decayName_repl, decayName_eq.
  rewrite !(proj2 (spinStr_clean _)), !(proj2 (parityStr_clean _)). unfold igjpc. rewrite <- !app_assoc. reflexivity.
Qed.

(* two waves have the same name exactly if they are the same wave *)
Theorem C77_name_identifies_wave : forall showD d e, nameableX showD d -> nameableX showD e ->
  (waveName showD d = waveName showD e <-> sameWave showD d e).
Proof.
  intros showD [f|p L Sp md d1 d2] [g|q L' Sp' md' e1 e2] Hd He; try (destruct Hd; fail); try (destruct He; fail).
  destruct Hd as (Pd & Rd & N1 & N2). destruct He as (Pe & Re & M1 & M2). rewrite !waveName_eq. cbn [sameWave]. split.
  - intros E. injection E as E. apply igjpc_inj in E; [|exact Pd|exact Pe|left; reflexivity|left; reflexivity]. destruct E as [EQ E]. injection E as E.
    assert (forall z, signum z = z -> z = 0 \/ z = 1 \/ z = -1) as SG.
    { intros z. unfold signum. destruct (Z.ltb_spec z 0), (Z.ltb_spec 0 z); lia. }
    apply spinStr_inj in E; [|apply stop_par; [split; [reflexivity|discriminate]|apply SG, Rd]|apply stop_par; [split; [reflexivity|discriminate]|apply SG, Re]].
    destruct E as [EM E]. apply parityStr_inj in E; [|exact Rd|exact Re|split; discriminate|split; discriminate]. destruct E as [ER E]. injection E as E.
    apply dau_inj in E; try assumption; [|left; do 3 eexists; reflexivity|left; do 3 eexists; reflexivity]. destruct E as [S1 E]. injection E as E.
    apply spinStr_inj in E; [|split; [reflexivity|discriminate]|split; [reflexivity|discriminate]]. destruct E as [EL E]. injection E as E.
    apply spinStr_inj in E; [|split; [reflexivity|discriminate]|split; [reflexivity|discriminate]]. destruct E as [ES E]. injection E as E.
    apply dau_inj in E; try assumption; [|right; eexists; reflexivity|right; eexists; reflexivity]. destruct E as [S2 _].
    repeat split; try assumption; apply EQ.
  - intros (EQ & EM & ER & -> & -> & S1 & S2).
    rewrite (sameQn_igjpc _ _ EQ), EM, ER, (dau_same _ _ _ N1 M1 S1), (dau_same _ _ _ N2 M2 S2). reflexivity.
Qed.

(* no name contains a parenthesis *)
Theorem C77_no_parentheses : forall showD d c, In c (waveName showD d) -> c <> "("%char /\ c <> ")"%char.
Proof.
  intros showD d c H. unfold waveName in H. cbv zeta in H. set (s := lit "["%string ++ _) in H. clearbody s.
  unfold repl in H. apply in_map_iff in H. destruct H as [x [<- _]].
  destruct (Ascii.eqb_spec x "("); cbn [orb]; [split; discriminate|]. destruct (Ascii.eqb_spec x ")"); cbn [orb]; [split; discriminate|auto].
Qed.

Lemma sameQn_refl p : sameQn p p.
Proof. repeat split. Qed.
Lemma back_nameable showD d : numText (showD (24 / 10)%R) -> nameable showD d -> nameable showD (back d).
Proof.
  intros HT. induction d as [q|p L Sp md d1 IH1 d2 IH2]; [exact (fun H => H)|].
  intros (Hn & Hp & Hm & H1 & H2). cbn [back]. specialize (IH1 H1). specialize (IH2 H2).
  assert (mdNameable showD (mdBack md)) as HM by (destruct md; auto).
  unfold node. destruct (isFs d1 && negb (isFs d2)); cbn [nameable]; auto.
Qed.
Lemma sameIsobar_back showD md p : sameIsobar showD md (mdBack md) p p <-> match md with MPalano m => showD m = showD (24 / 10)%R | _ => True end.
Proof. destruct md; cbn [mdBack sameIsobar]; unfold sameName; split; auto using sameQn_refl; tauto. Qed.
Lemma sameDaughter_isFs showD d e : sameDaughter showD d e -> isFs d = isFs e.
Proof. destruct d, e; cbn; tauto. Qed.
Lemma back_same showD d : sameDaughter showD d (back d) <-> nameKept showD d.
Proof.
  induction d as [q|p L Sp md d1 IH1 d2 IH2].
  - cbn [back sameDaughter nameKept]. split; [auto|reflexivity].
  - cbn [back nameKept]. unfold node. destruct (isFs d1 && negb (isFs d2)) eqn:EB.
    + apply andb_prop in EB. destruct EB as [B1 B2]. cbn [sameDaughter]. split.
      * intros (_ & _ & _ & S1 & _). apply sameDaughter_isFs in S1. rewrite isFs_back, B1 in S1. rewrite <- S1 in B2. discriminate.
      * intros (_ & H & _). exfalso. apply H. split; [exact B1|]. destruct (isFs d2); [discriminate|reflexivity].
    + cbn [sameDaughter]. rewrite IH1, IH2. cbn [bare ptP]. rewrite sameIsobar_back.
      assert (~ (isFs d1 = true /\ isFs d2 = false)) as NF by (intros [C1 C2]; rewrite C1, C2 in EB; discriminate). tauto.
Qed.
(* writing a wave and reading it back keeps its name exactly in these cases *)
Theorem C77_name_after_key_file : forall showD t v d a key w e, numText (showD (24 / 10)%R) -> readablePV t v -> readableX t d -> nameableX showD d ->
  keyFile v d a = Some key -> constructDecayTopology t false key = Some (Some (w, e)) ->
  (waveName showD e = waveName showD d <-> nameKeptX showD d).
Proof.
  intros showD t v d a key w e HT HV HR HN HK HC.
  destruct (C76_what_is_read_back t v d a key HV HR HK) as [HG HB].
  assert (~ hasGlassX d) as G by (intros G; rewrite (HG G) in HC; discriminate).
  rewrite (HB G) in HC. injection HC as _ <-.
  destruct d as [f|p L Sp md d1 d2]; [destruct HR|].
  pose proof HN as (Pp & Rp & N1 & N2).
  pose proof (back_nameable showD d1 HT N1) as B1. pose proof (back_nameable showD d2 HT N2) as B2.
  assert (nameableX showD (backX (WNode p L Sp md d1 d2))) as HX.
  { cbn [backX]. unfold node. destruct (isFs d1 && negb (isFs d2)); cbn [nameableX]; auto. }
  assert (forall x y : str, x = y <-> y = x) as SY by (split; auto). rewrite SY.
  rewrite (C77_name_identifies_wave showD _ _ HN HX). cbn [backX nameKeptX]. unfold node.
  destruct (isFs d1 && negb (isFs d2)) eqn:EB; cbn [sameWave].
  - apply andb_prop in EB. destruct EB as [F1 F2]. split.
    + intros (_ & _ & _ & _ & _ & S1 & _). apply sameDaughter_isFs in S1. rewrite isFs_back, F1 in S1. rewrite <- S1 in F2. discriminate.
    + intros (H & _). exfalso. apply H. split; [exact F1|]. destruct (isFs d2); [discriminate|reflexivity].
  - rewrite !back_same.
    assert (~ (isFs d1 = true /\ isFs d2 = false)) as NF by (intros [C1 C2]; rewrite C1, C2 in EB; discriminate).
    split; [tauto|]. intros (_ & H1 & H2). repeat split; auto.
Qed.

(* ---------------- examples and defects ---------------- *)
Definition sd (r : R) : str := lit "2.4"%string.
Lemma clean_dec s : forallb (fun c => negb (existsb (Ascii.eqb c) (list_ascii_of_string "[]=,"%string))) s = true -> clean s.
Proof.
  intros H c Hc. rewrite forallb_forall in H. specialize (H c Hc). repeat split; intros ->; discriminate H.
Qed.
Lemma rhoDecay_nameable md : (md = MBW \/ md = MFlat \/ exists g, md = MGlass g /\ gTag g = []) -> nameable sd (rhoDecay md).
Proof.
  intros H. cbn [rhoDecay nameable]. split; [apply clean_dec; reflexivity|]. split; [repeat split; ((left; reflexivity) || (right; reflexivity))|].
  split; [destruct H as [->|[->|(g & -> & E)]]; [exact I|exact I|intros c Hc; rewrite E in Hc; destruct Hc]|]. split; apply clean_dec; reflexivity.
Qed.
Lemma parities_X : parities (ptP a1M).
Proof. repeat split; left; reflexivity. Qed.
Example C77_example : nameableX sd goodWave /\ nameableX sd bachelorFirst /\ numText (sd (24 / 10)%R) /\
  waveName sd goodWave = lit "[1-,1+,0+]=[rho_770_0=[pi+[1,0]pi-][0,1]pi-]"%string /\
  waveName sd (WNode a1M 0 2 MFlat (rhoDecay MFlat) (WFs (pl piM))) = lit "[1-,1+,0+]=[flat[1+,1--]=[pi+[1,0]pi-][0,1]pi-]"%string.
Proof.
  split; [|split; [|split; [|split]]].
  - split; [exact parities_X|]. split; [reflexivity|]. split; [apply rhoDecay_nameable; auto|apply clean_dec; reflexivity].
  - split; [exact parities_X|]. split; [reflexivity|]. split; [apply clean_dec; reflexivity|apply rhoDecay_nameable; auto].
  - intros c Hc. cbn in Hc. repeat (destruct Hc as [<-|Hc]; [reflexivity|]). destruct Hc.
  - vm_compute. reflexivity.
  - vm_compute. reflexivity.
Qed.
(* the name of a wave is not the name of the wave read back from its key file *)
Theorem C77_name_after_key_file_refuted : exists showD t v d a key w e, numText (showD (24 / 10)%R) /\ readablePV t v /\ readableX t d /\ nameableX showD d /\
  keyFile v d a = Some key /\ constructDecayTopology t false key = Some (Some (w, e)) /\ waveName showD e <> waveName showD d.
Proof.
  destruct C77_example as (_ & HN & HT & _).
  destruct (keyFile diffVert bachelorFirst None) as [key|] eqn:EK; [|discriminate].
  destruct (C76_what_is_read_back _ _ _ _ _ diffVert_readable bachelor_readable EK) as [_ H].
  specialize (H ltac:(cbn; intros [[]|[[g G]|[[]|[]]]]; discriminate)).
  exists sd, tab, diffVert, bachelorFirst, None, key, (backPV diffVert), (backX bachelorFirst).
  split; [exact HT|]. split; [exact diffVert_readable|]. split; [exact bachelor_readable|]. split; [exact HN|]. split; [exact EK|]. split; [exact H|].
  intros E. apply (C77_name_after_key_file sd tab diffVert bachelorFirst None key _ _ HT diffVert_readable bachelor_readable HN EK H) in E.
  destruct E as (E & _). apply E. split; reflexivity.
Qed.
(* isobars with different GLASS parameters and the same tag cannot be told apart *)
Definition glass0 (m : R) : glass := Glass 0 0 0 0 0 0 0 0 0 m [].
Theorem C77_glass_parameters_refuted : exists p L Sp md q L' Sp' g h e1 e2 d2,
  g <> h /\ nameableX sd (WNode p L Sp md (WNode q L' Sp' (MGlass g) e1 e2) d2) /\
  waveName sd (WNode p L Sp md (WNode q L' Sp' (MGlass g) e1 e2) d2) = waveName sd (WNode p L Sp md (WNode q L' Sp' (MGlass h) e1 e2) d2).
Proof.
  exists a1M, 0, 2, MFlat, (pl rho0), 2, 0, (glass0 0), (glass0 1), (WFs (pl piP)), (WFs (pl piM)), (WFs (pl piM)).
  split; [intros E; injection E as E; symmetry in E; exact (R1_neq_R0 E)|]. split; [|reflexivity].
  split; [exact parities_X|]. split; [reflexivity|]. split; [|apply clean_dec; reflexivity].
  apply (rhoDecay_nameable (MGlass (glass0 0))). right; right. eexists; split; reflexivity.
Qed.
(* the mass dependence of X is not in the name *)
Theorem C77_X_mass_dependence_refuted : exists p L Sp d1 d2, nameableX sd (WNode p L Sp MFlat d1 d2) /\
  forall md, waveName sd (WNode p L Sp md d1 d2) = waveName sd (WNode p L Sp MFlat d1 d2).
Proof.
  exists a1M, 0, 2, (rhoDecay MBW), (WFs (pl piM)). split; [|reflexivity]. apply C77_example.
Qed.
(* an unknown parity P makes names ambiguous: [1-,10+,0+] does not appear, the unknown parity is left out *)
Theorem C77_unknown_parity_refuted : exists d e, waveName sd d = waveName sd e /\ ~ sameWave sd d e /\
  (pP (ptP (wTop d)) = 0 /\ pC (ptP (wTop d)) = 1) /\ (pP (ptP (wTop e)) = 1 /\ pC (ptP (wTop e)) = 0).
Proof.
  set (x P C := Part (PP (lit "X"%string) [] 0 0 0 0 0 2 0 0 0 (-1) 2 P C []) 0 (-1) 1).
  exists (WNode (x 0 1) 0 2 MFlat (rhoDecay MBW) (WFs (pl piM))), (WNode (x 1 0) 0 2 MFlat (rhoDecay MBW) (WFs (pl piM))).
  split; [reflexivity|]. split; [|repeat split]. cbn. unfold sameQn. cbn. intros ((_ & _ & _ & H & _) & _). discriminate H.
Qed.
