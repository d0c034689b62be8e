(* C78: binnings in key files *)
From Coq Require Import String Ascii List ZArith Bool Reals Lia Lra.
From Verif Require Import PathModel StrModel DecModel ParticleModel WaveSetModel WaveDescModel ExpandModel ExpandSpec ExpandProofs.
Import ListNotations.
Open Scope list_scope.

(* a key file with binnings stands for one wave per combination of bins *)
Theorem C78_one_wave_per_combination : forall s, wellFormed (fun _ => True) s ->
  exists l, expandKeyFile s = Some l /\ forall c, In c l <-> instance s c.
Proof. intros s H. apply (expand_ok _ _ s H). pose proof (count_size s). lia. Qed.

Lemma neighbours_first edges : increasing edges -> forall b, In b (neighbours edges) -> match edges with [] => True | a :: _ => (a <= fst b)%R end.
Proof.
  induction 1 as [|a|a b l H _ IH]; intros c Hc; [destruct Hc|destruct Hc|].
  change (neighbours (a :: b :: l)) with ((a, b) :: neighbours (b :: l)) in Hc. destruct Hc as [<-|Hc]; [cbn; lra|]. specialize (IH c Hc). cbn in IH. lra.
Qed.
Lemma increasing_nodup edges : increasing edges -> NoDup (neighbours edges).
Proof.
  induction 1 as [|a|a b l H H2 IH]; [constructor|constructor|].
  change (neighbours (a :: b :: l)) with ((a, b) :: neighbours (b :: l)). constructor; [|exact IH].
  intros Q. pose proof (neighbours_first _ H2 _ Q) as F. cbn in F. lra.
Qed.
(* no wave appears twice *)
Theorem C78_no_wave_twice : forall s l, wellFormed increasing s -> expandKeyFile s = Some l -> NoDup l.
Proof.
  intros s l H E. apply (expand_nodup increasing increasing_nodup (S (ssize s)) s l H); [|exact E]. pose proof (count_size s). lia.
Qed.

Lemma noBinning_find s : noBinning s -> findExpand s = None.
Proof.
  induction s as [z|z|z|z|l IH|l IH] using setting_ind2; intros H; try reflexivity.
  - inversion H as [| | | | |l0 H1 H2]; subst. rewrite findExpand_G.
    destruct (ownExpand l) as [x|] eqn:EO.
    + exfalso. destruct (own_some _ _ EO) as (e & -> & EF). destruct (findKey_split _ _ _ EF) as (l1 & l2 & -> & _). apply (H1 e). apply in_app_iff. right; left; reflexivity.
    + assert (goG l = None) as ->; [|reflexivity]. clear -IH H2. induction l as [|[k v] l IHl]; [reflexivity|]. cbn [goG]. fold goG.
      apply Forall_cons_iff in IH, H2. destruct IH as [A B], H2 as [C D]. cbn [snd] in *. rewrite (A C), (IHl B D). reflexivity.
  - inversion H as [| | | |l0 H1|]; subst. rewrite findExpand_L.
    assert (goL l = None) as ->; [|reflexivity]. clear -IH H1. induction l as [|v l IHl]; [reflexivity|]. cbn [goL]. fold goL.
    apply Forall_cons_iff in IH, H1. destruct IH as [A B], H1 as [C D]. rewrite (A C), (IHl B D). reflexivity.
Qed.
(* a key file without binning stands for itself *)
Theorem C78_without_binning : forall s, noBinning s -> expandKeyFile s = Some [s].
Proof. intros s H. unfold expandKeyFile. cbn [expandFuel]. rewrite (noBinning_find s H). reflexivity. Qed.

Lemma inst_group (x y : setting) : instance x y -> isGroup x = isGroup y.
Proof. intros H. inversion H; reflexivity. Qed.
Lemma instance_noBinning ok s : wellFormed ok s -> forall c, instance s c -> noBinning c.
Proof.
  induction s as [z|z|z|z|l IH|l IH] using setting_ind2; intros HW c H; try (inversion H; subst; constructor; fail).
  - assert (forall l' : list (str * setting), Forall (fun kv => wellFormed ok (snd kv) -> forall c, instance (snd kv) c -> noBinning c) l' ->
      Forall (fun kv => wellFormed ok (snd kv)) l' -> forall m, Forall2 instE l' m -> Forall (fun kv => noBinning (snd kv)) m) as HL.
    { intros l' I' W' m F. induction F as [|x y l' m [K V] F IHF]; [constructor|]. apply Forall_cons_iff in I', W'. constructor; [apply I'; tauto|apply IHF; tauto]. }
    assert (forall l' m : list (str * setting), Forall2 instE l' m -> (forall e, ~ In (expandKey, SGroup e) l') -> forall e, ~ In (expandKey, SGroup e) m) as HK.
    { intros l' m F. induction F as [|x y l' m [K V] F IHF]; intros N e; [intros []|]. intros [Q|Q].
      - subst y. cbn [fst snd] in *. destruct x as [k v]. cbn [fst snd] in *. subst k. apply inst_group in V. destruct v as [| | | |e'|]; try discriminate. apply (N e'). left; reflexivity.
      - revert Q. apply IHF. intros e' Q. apply (N e'). right; exact Q. }
    destruct (wf_group _ _ HW) as [ND [[EO WF]|(l1 & e & l2 & n & edges & -> & N1 & HB & _ & HV & HN & WF & N2 & EO)]].
    + apply (inst_own_none _ _ ND EO) in H. destruct H as (m & -> & F). constructor; [|apply (HL l IH WF m F)].
      apply (HK l m F). intros e Q. unfold ownExpand in EO. apply in_split in Q. destruct Q as (l1 & l2 & ->).
      destruct (nodup_split _ _ _ _ ND) as (N1 & _). rewrite findKey_app, (findKey_none _ _ N1) in EO. cbn [findKey] in EO. rewrite str_eqb_refl' in EO. discriminate.
    + apply (inst_own_some _ _ _ _ _ _ ND HB) in H. destruct H as (m & b & -> & _ & F).
      assert (Forall (fun kv => wellFormed ok (snd kv) -> forall c, instance (snd kv) c -> noBinning c) (l1 ++ l2)) as I'.
      { apply Forall_app in IH. destruct IH as [I1 I2]. apply Forall_cons_iff in I2. apply Forall_app. tauto. }
      constructor.
      * intros e' Q. apply in_app_iff in Q. destruct Q as [Q|[Q|[]]].
        -- revert Q. apply (HK _ _ F). intros e0 Q. rewrite in_app_iff in Q. destruct Q as [Q|Q]; [apply N1|apply N2]; apply (in_map fst) in Q; exact Q.
        -- unfold binEntry in Q. discriminate Q.
      * apply Forall_app. split; [apply (HL _ I' WF m F)|]. constructor; [|constructor]. cbn. repeat constructor.
  - apply inst_list in H. destruct H as (m & -> & F). constructor. pose proof (wf_list _ _ HW) as WF. clear HW.
    induction F as [|x y l m V F IHF]; [constructor|]. apply Forall_cons_iff in IH, WF. constructor; [apply IH; tauto|apply IHF; tauto].
Qed.
(* no binning is left over *)
Theorem C78_nothing_left : forall s l c, wellFormed (fun _ => True) s -> expandKeyFile s = Some l -> In c l -> noBinning c.
Proof.
  intros s l c HW HE HC. destruct (C78_one_wave_per_combination s HW) as (l' & E & H). rewrite HE in E. injection E as <-.
  apply (instance_noBinning _ s HW). apply H, HC.
Qed.

(* the bins of a binning cover the range from the first to the last edge without overlap *)
Theorem C78_bins_cover : forall a l x, increasing (a :: l) -> (a <= x < last l a)%R ->
  exists b, (In b (neighbours (a :: l)) /\ (fst b <= x < snd b)%R) /\ forall b', In b' (neighbours (a :: l)) -> (fst b' <= x < snd b')%R -> b' = b.
Proof.
  intros a l. revert a. induction l as [|b l IH]; intros a x HI HX; [cbn in HX; lra|].
  inversion HI as [| |a' b' l' H1 H2]; subst. change (neighbours (a :: b :: l)) with ((a, b) :: neighbours (b :: l)).
  destruct (Rlt_dec x b) as [L|L].
  - exists (a, b). split; [split; [left; reflexivity|cbn; lra]|]. intros b' [<-|Q] HB; [reflexivity|].
    pose proof (neighbours_first _ H2 _ Q) as F. cbn in F. lra.
  - destruct (IH b x H2) as (c & [Hc1 Hc2] & Hc3).
    { split; [lra|]. destruct l as [|c l]; [cbn in HX; lra|]. change (last (b :: c :: l) a) with (last (c :: l) a) in HX.
      assert (forall (l0 : list R) c0 u v, last (c0 :: l0) u = last (c0 :: l0) v) as E.
      { induction l0 as [|d l0 IHl]; intros c0 u v; [reflexivity|]. change (last (d :: l0) u = last (d :: l0) v). apply IHl. }
      rewrite (E l c b a). lra. }
    exists c. split; [split; [right; exact Hc1|exact Hc2]|]. intros b' [<-|Q] HB; [cbn in HB; lra|apply Hc3; assumption].
Qed.

(* isobars in mass bins: massDep = { name = "binned"; expand = { type = "binning"; name = "bounds"; bins = ( ... ); }; } *)
Definition binnedKey (edges : list R) : setting :=
  SGroup [(lit "name"%string, SString (lit "binned"%string));
          (expandKey, SGroup [(lit "type"%string, SString (lit "binning"%string)); (lit "name"%string, SString (lit "bounds"%string));
                              (lit "bins"%string, SList (map SFloat edges))])].
Lemma binnedKey_wf (ok : list R -> Prop) edges : edges <> [] -> ok edges -> wellFormed ok (binnedKey edges).
Proof.
  intros HE HO. unfold binnedKey. apply (wfExpand ok [_] _ [] (lit "bounds"%string) edges).
  - repeat constructor; cbn; intuition discriminate.
  - split; [reflexivity|]. split; [reflexivity|]. split; [exact HE|]. eexists; split; reflexivity.
  - exact HO.
  - reflexivity.
  - cbn. intuition discriminate.
  - repeat constructor.
Qed.
Lemma ltR_false a b : (a <= b)%R -> ltR b a = false.
Proof. intros H. unfold ltR. destruct (Rlt_dec b a); [lra|reflexivity]. Qed.
Theorem C78_mass_bins : forall edges, edges <> [] -> increasing edges ->
  exists l, expandKeyFile (binnedKey edges) = Some l /\
    (forall c, In c l <-> exists b, In b (neighbours edges) /\
       c = SGroup [(lit "name"%string, SString (lit "binned"%string)); (lit "bounds"%string, SList [SFloat (fst b); SFloat (snd b)])]) /\
    (forall c, In c l -> exists b, In b (neighbours edges) /\ mapMassDependenceType (Some c) = Some (MBinned (fst b) (snd b))).
Proof.
  intros edges HE HI. destruct (C78_one_wave_per_combination (binnedKey edges)) as (l & E & H); [apply binnedKey_wf; auto|].
  assert (forall c, instance (binnedKey edges) c <-> exists b, In b (neighbours edges) /\
       c = SGroup [(lit "name"%string, SString (lit "binned"%string)); (lit "bounds"%string, SList [SFloat (fst b); SFloat (snd b)])]) as HC.
  { intros c. pose proof (binnedKey_wf (fun _ => True) edges HE Logic.I) as W. apply wf_group in W. destruct W as [ND _].
    unfold binnedKey in ND |- *.
    rewrite (inst_own_some [(lit "name"%string, SString (lit "binned"%string))] _ [] (lit "bounds"%string) edges c ND).
    - split.
      + intros (m & b & -> & Hb & F). exists b. split; [exact Hb|]. cbn [app] in F. inversion F as [|? y ? r [K V] F2]; subst. inversion F2; subst.
        destruct y as [k v]. cbn [fst snd] in *. subst k. inversion V; subst. reflexivity.
      + intros (b & Hb & ->). exists [(lit "name"%string, SString (lit "binned"%string))], b. split; [reflexivity|]. split; [exact Hb|]. repeat constructor.
    - split; [reflexivity|]. split; [reflexivity|]. split; [exact HE|]. eexists; split; reflexivity. }
  assert (forall b, In b (neighbours edges) -> (fst b <= snd b)%R) as HO.
  { clear -HI. induction HI as [|a|a b l H _ IH]; intros c Hc; [destruct Hc|destruct Hc|].
    change (neighbours (a :: b :: l)) with ((a, b) :: neighbours (b :: l)) in Hc. destruct Hc as [<-|Hc]; [cbn; lra|apply IH, Hc]. }
  exists l. split; [exact E|]. split; [intros c; rewrite H; apply HC|].
  intros c Hc. apply H, HC in Hc. destruct Hc as (b & Hb & ->). exists b. split; [exact Hb|].
  unfold mapMassDependenceType. cbn [lookStr field findKey].
  change (createMassDependence _ _) with (doP m <- createBinned (Some (SGroup [(lit "name"%string, SString (lit "binned"%string)); (lit "bounds"%string, SList [SFloat (fst b); SFloat (snd b)])])); Some (Some m)).
  unfold createBinned. cbn. rewrite (ltR_false _ _ (HO b Hb)). reflexivity.
Qed.

(* ---------------- example and defects ---------------- *)
Lemma inc3 : increasing [0; 1; 2]%R.
Proof. repeat constructor; lra. Qed.
(* two binnings: four waves *)
Definition twoBinnings : setting := SGroup [(lit "d1"%string, binnedKey [0; 1; 2]%R); (lit "d2"%string, SList [binnedKey [0; 1; 2]%R])].
Example C78_example : wellFormed increasing twoBinnings /\ wellFormed (fun _ => True) twoBinnings /\
  exists l, expandKeyFile twoBinnings = Some l /\ List.length l = 4%nat.
Proof.
  assert (forall ok : list R -> Prop, ok [0; 1; 2]%R -> wellFormed ok twoBinnings) as W.
  { intros ok HO. apply wfGroup; [repeat constructor; cbn; intuition discriminate|reflexivity|].
    constructor; [apply binnedKey_wf; [discriminate|exact HO]|]. constructor; [|constructor]. cbn. constructor. constructor; [|constructor]. apply binnedKey_wf; [discriminate|exact HO]. }
  split; [apply W, inc3|]. split; [apply W; exact Logic.I|]. eexists. split; [reflexivity|reflexivity].
Qed.
(* an 'expand' group without edges is not reported as an error, the program reads outside its arrays *)
Theorem C78_no_edges_refuted : forall pre, (forall e, ~ In (expandKey, e) pre) ->
  expandKeyFile (SGroup (pre ++ [(expandKey, SGroup [(lit "type"%string, SString (lit "binning"%string)); (lit "name"%string, SString (lit "bounds"%string))])])) = None.
Proof.
  intros pre HP. unfold expandKeyFile. set (e := [(lit "type"%string, _); _]). cbn [expandFuel]. rewrite findExpand_G.
  assert (~ In expandKey (map fst pre)) as HN by (intros Q; apply in_map_iff in Q; destruct Q as ([k v] & K & Q); cbn in K; subst k; apply (HP v Q)).
  rewrite (own_split e pre [] HN).
  assert (findGroup expandKey (SGroup (pre ++ [(expandKey, SGroup e)])) = Some (SGroup e)) as ->.
  { unfold findGroup. cbn [field]. rewrite findKey_app, (findKey_none _ _ HN). reflexivity. }
  reflexivity.
Qed.
(* an edge written as an integer terminates the program, also if all others are floating-point numbers *)
Theorem C78_integer_edge_refuted : forall a b, expandKeyFile (SGroup [(expandKey, SGroup [(lit "type"%string, SString (lit "binning"%string));
  (lit "name"%string, SString (lit "bounds"%string)); (lit "bins"%string, SList [SFloat a; SInt 1; SFloat b])])]) = None.
Proof. reflexivity. Qed.
(* an unknown type of expansion gives no wave at all *)
Theorem C78_unknown_type : forall pre e, (forall e, ~ In (expandKey, e) pre) -> lookStr (lit "type"%string) (SGroup e) <> Some (lit "binning"%string) ->
  expandKeyFile (SGroup (pre ++ [(expandKey, SGroup e)])) = Some [].
Proof.
  intros pre e HP HT. unfold expandKeyFile. cbn [expandFuel]. rewrite findExpand_G.
  assert (~ In expandKey (map fst pre)) as HN by (intros Q; apply in_map_iff in Q; destruct Q as ([k v] & K & Q); cbn in K; subst k; apply (HP v Q)).
  rewrite (own_split e pre [] HN).
  assert (findGroup expandKey (SGroup (pre ++ [(expandKey, SGroup e)])) = Some (SGroup e)) as ->.
  { unfold findGroup. cbn [field]. rewrite findKey_app, (findKey_none _ _ HN). reflexivity. }
  destruct (lookStr (lit "type"%string) (SGroup e)) as [t|]; [|reflexivity]. destruct (str_eqb t (lit "binning"%string)) eqn:E; [|reflexivity].
  apply str_eqb_eq in E. subst t. congruence.
Qed.
