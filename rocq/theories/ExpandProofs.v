From Coq Require Import String Ascii List ZArith Bool Reals Lia Lra.
From Verif Require Import PathModel StrModel DecModel ParticleModel WaveSetModel WaveDescModel ExpandModel ExpandSpec.
Import ListNotations.
Open Scope list_scope.

Section Ind.
Variable P : setting -> Prop.
Hypothesis HI : forall z, P (SInt z).
Hypothesis HF : forall z, P (SFloat z).
Hypothesis HS : forall z, P (SString z).
Hypothesis HB : forall z, P (SBool z).
Hypothesis HG : forall l, Forall (fun kv => P (snd kv)) l -> P (SGroup l).
Hypothesis HL : forall l, Forall P l -> P (SList l).
Fixpoint setting_ind2 (s : setting) : P s :=
  match s with
  | SInt z => HI z | SFloat z => HF z | SString z => HS z | SBool z => HB z
  | SGroup l => HG l ((fix go l : Forall (fun kv => P (snd kv)) l := match l with [] => Forall_nil _ | kv :: r => Forall_cons kv (setting_ind2 (snd kv)) (go r) end) l)
  | SList l => HL l ((fix go l : Forall P l := match l with [] => Forall_nil _ | x :: r => Forall_cons x (setting_ind2 x) (go r) end) l)
  end.
End Ind.

Definition goG : list (str * setting) -> option (list (str * setting) * (list (str * setting) -> list (str * setting))) :=
  fix go l := match l with
    | [] => None
    | (k, v) :: r =>
        match findExpand v with
        | Some (p, f) => Some (p, fun x => (k, f x) :: r)
        | None => match go r with Some (p, g) => Some (p, fun x => (k, v) :: g x) | None => None end
        end
    end.
Definition goL : list setting -> option (list (str * setting) * (list (str * setting) -> list setting)) :=
  fix go l := match l with
    | [] => None
    | v :: r =>
        match findExpand v with
        | Some (p, f) => Some (p, fun x => f x :: r)
        | None => match go r with Some (p, g) => Some (p, fun x => v :: g x) | None => None end
        end
    end.
Lemma findExpand_G l : findExpand (SGroup l) =
  match ownExpand l with
  | Some _ => Some (l, SGroup)
  | None => match goG l with Some (p, g) => Some (p, fun x => SGroup (g x)) | None => None end
  end.
Proof.
  assert (forall T (a b : T), match findGroup expandKey (SGroup l) with Some _ => a | None => b end = match ownExpand l with Some _ => a | None => b end) as H.
  { intros T a b. unfold findGroup, ownExpand. cbn [field]. destruct (findKey expandKey l) as [[]|]; reflexivity. }
  rewrite <- H. reflexivity.
Qed.
Lemma findExpand_L l : findExpand (SList l) = match goL l with Some (p, g) => Some (p, fun x => SList (g x)) | None => None end.
Proof. reflexivity. Qed.

(* keys *)
Lemma findKey_app k l1 l2 : findKey k (l1 ++ l2) = match findKey k l1 with Some v => Some v | None => findKey k l2 end.
Proof. induction l1 as [|[k' v] l1 IH]; [reflexivity|]. cbn [findKey app]. destruct (str_eqb k k'); [reflexivity|exact IH]. Qed.
Lemma findKey_none k l : ~ In k (map fst l) -> findKey k l = None.
Proof.
  induction l as [|[k' v] l IH]; intros H; [reflexivity|]. cbn [findKey]. destruct (str_eqb k k') eqn:E.
  - exfalso. apply H. left. apply str_eqb_eq in E. symmetry; exact E.
  - apply IH. intros Q. apply H. right; exact Q.
Qed.
Lemma findKey_split k v l : findKey k l = Some v -> exists l1 l2, l = l1 ++ (k, v) :: l2 /\ ~ In k (map fst l1).
Proof.
  induction l as [|[k' w] l IH]; [discriminate|]. cbn [findKey]. destruct (str_eqb k k') eqn:E.
  - intros H. injection H as ->. apply str_eqb_eq in E. subst k'. exists [], l. split; [reflexivity|intros []].
  - intros H. destruct (IH H) as (l1 & l2 & -> & N). exists ((k', w) :: l1), l2. split; [reflexivity|].
    intros [Q|Q]; [|exact (N Q)]. cbn in Q. subst k'. apply str_eqb_neq in E. apply E; reflexivity.
Qed.
Lemma str_eqb_refl' k : str_eqb k k = true.
Proof. apply str_eqb_eq. reflexivity. Qed.
Lemma removeKey_split k v l1 l2 : ~ In k (map fst l1) -> removeKey k (l1 ++ (k, v) :: l2) = l1 ++ l2.
Proof.
  induction l1 as [|[k' w] l1 IH]; intros H; cbn [app removeKey].
  - rewrite str_eqb_refl'. reflexivity.
  - destruct (str_eqb k k') eqn:E; [exfalso; apply H; left; apply str_eqb_eq in E; symmetry; exact E|].
    rewrite IH; [reflexivity|]. intros Q. apply H. right; exact Q.
Qed.
Lemma nodup_split (k : str) (v : setting) l1 l2 : NoDup (map fst (l1 ++ (k, v) :: l2)) -> ~ In k (map fst l1) /\ ~ In k (map fst l2) /\ NoDup (map fst (l1 ++ l2)).
Proof.
  rewrite !map_app. cbn [map fst]. intros H. apply NoDup_remove in H. destruct H as [H1 H2]. rewrite in_app_iff in H2. tauto.
Qed.
Lemma split_same (k : str) (v v' : setting) l1 l2 m1 m2 : ~ In k (map fst l1) -> ~ In k (map fst m1) ->
  l1 ++ (k, v) :: l2 = m1 ++ (k, v') :: m2 -> l1 = m1 /\ v = v' /\ l2 = m2.
Proof.
  revert m1. induction l1 as [|x l1 IH]; intros [|y m1] H1 H2 E; cbn [app] in E.
  - injection E as -> ->. auto.
  - exfalso. injection E as E1 E2. apply H2. left. subst y. reflexivity.
  - exfalso. injection E as E1 E2. apply H1. left. subst x. reflexivity.
  - injection E as -> E. destruct (IH m1) as (-> & -> & ->); auto.
    + intros Q. apply H1. right; exact Q.
    + intros Q. apply H2. right; exact Q.
Qed.
Lemma own_split e l1 l2 : ~ In expandKey (map fst l1) -> ownExpand (l1 ++ (expandKey, SGroup e) :: l2) = Some (SGroup e).
Proof.
  intros H. unfold ownExpand. rewrite findKey_app, (findKey_none _ _ H). cbn [findKey]. rewrite str_eqb_refl'. reflexivity.
Qed.
Lemma own_some l s : ownExpand l = Some s -> exists e, s = SGroup e /\ findKey expandKey l = Some (SGroup e).
Proof. unfold ownExpand. destruct (findKey expandKey l) as [[]|]; try discriminate. intros H. injection H as <-. eauto. Qed.
Lemma map_SFloat_inj a b : map SFloat a = map SFloat b -> a = b.
Proof. revert b. induction a as [|x a IH]; intros [|y b] H; try discriminate; [reflexivity|]. cbn in H. injection H as -> H. f_equal. auto. Qed.
Lemma binningOf_fun e n edges n' edges' : binningOf e n edges -> binningOf e n' edges' -> n = n' /\ edges = edges'.
Proof.
  intros (_ & N & _ & l & F & L) (_ & N' & _ & l' & F' & L'). rewrite N in N'. rewrite F in F'. injection N' as ->. injection F' as ->.
  split; [reflexivity|]. subst l'. apply map_SFloat_inj; exact L'.
Qed.

(* entries *)
Definition instE (x y : str * setting) : Prop := fst x = fst y /\ instance (snd x) (snd y).
Lemma instE_keys l m : Forall2 instE l m -> map fst l = map fst m.
Proof. induction 1 as [|x y l m [H _] _ IH]; [reflexivity|]. cbn. congruence. Qed.


Section OK.
Variable ok : list R -> Prop.
Lemma wf_group l : wellFormed ok (SGroup l) -> NoDup (map fst l) /\
  ((ownExpand l = None /\ Forall (fun kv => wellFormed ok (snd kv)) l) \/
   exists l1 e l2 n edges, l = l1 ++ (expandKey, SGroup e) :: l2 /\ ~ In expandKey (map fst l1) /\ binningOf (SGroup e) n edges /\ ok edges /\ validName n = true /\
     ~ In n (map fst (l1 ++ l2)) /\ Forall (fun kv => wellFormed ok (snd kv)) (l1 ++ l2) /\ ~ In expandKey (map fst l2) /\ ownExpand l = Some (SGroup e)).
Proof.
  intros H. inversion H as [| | | | |l0 H1 H2 H3|l1 e l2 n edges H1 H2 HO H3 H4 H5]; subst; (split; [assumption|]); [left; auto|right].
  destruct (nodup_split _ _ _ _ H1) as (N1 & N2 & _). exists l1, e, l2, n, edges. repeat split; try assumption; try apply H2. apply own_split, N1.
Qed.
Lemma wf_list l : wellFormed ok (SList l) -> Forall (wellFormed ok) l.
Proof. intros H. inversion H; assumption. Qed.
Lemma inst_own_none l c : NoDup (map fst l) -> ownExpand l = None -> (instance (SGroup l) c <-> exists m, c = SGroup m /\ Forall2 instE l m).
Proof.
  intros ND EO. split.
  - intros H. inversion H as [| | | | |l0 m H1 H2|l1 e l2 m n edges b H1 H2 H3]; subst; [exists m; split; [reflexivity|exact H2]|].
    exfalso. destruct (nodup_split _ _ _ _ ND) as (N1 & _). rewrite (own_split _ _ _ N1) in EO. discriminate.
  - intros (m & -> & H). constructor; assumption.
Qed.
Lemma inst_own_some l1 e l2 n edges c : NoDup (map fst (l1 ++ (expandKey, SGroup e) :: l2)) -> binningOf (SGroup e) n edges ->
  (instance (SGroup (l1 ++ (expandKey, SGroup e) :: l2)) c <-> exists m b, c = SGroup (m ++ [binEntry n b]) /\ In b (neighbours edges) /\ Forall2 instE (l1 ++ l2) m).
Proof.
  intros ND HB. destruct (nodup_split _ _ _ _ ND) as (N1 & _). split.
  - intros H. inversion H as [| | | | |l0 m H1 H2|k1 e' k2 m n' edges' b H1 H2 H3 H4]; subst.
    + rewrite (own_split _ _ _ N1) in H1. discriminate.
    + pose proof ND as ND'. rewrite <- H4 in ND'. destruct (nodup_split _ _ _ _ ND') as (N1' & _).
      apply split_same in H4; try assumption. destruct H4 as (-> & E & ->). injection E as ->.
      destruct (binningOf_fun _ _ _ _ _ HB H1) as [-> ->]. exists m, b. split; [reflexivity|]. split; [exact H2|exact H3].
  - intros (m & b & -> & Hb & H). apply inExpand with (edges := edges); assumption.
Qed.
Lemma inst_list l c : instance (SList l) c <-> exists m, c = SList m /\ Forall2 instance l m.
Proof. split; [intros H; inversion H; subst; eauto|intros (m & -> & H); constructor; exact H]. Qed.

(* no binning *)
Lemma none_inst s : wellFormed ok s -> findExpand s = None -> forall c, instance s c <-> c = s.
Proof.
  induction s as [z|z|z|z|l IH|l IH] using setting_ind2; intros HW HN c; try (split; [intros H; inversion H; reflexivity|intros ->; constructor]).
  - rewrite findExpand_G in HN. destruct (wf_group _ HW) as [ND [[EO WF]|(l1 & e & l2 & n & edges & -> & _ & _ & _ & _ & _ & _ & _ & EO)]]; [|rewrite EO in HN; discriminate].
    rewrite EO in HN. rewrite (inst_own_none _ _ ND EO).
    assert (forall m, Forall2 instE l m <-> m = l) as HL.
    { destruct (goG l) as [[p g]|] eqn:EG; [discriminate|]. clear EO HN HW ND. induction l as [|[k v] l IHl]; intros m.
      - split; [intros H; inversion H; reflexivity|intros ->; constructor].
      - cbn [goG] in EG. destruct (findExpand v) as [[p f]|] eqn:EV; [discriminate|]. fold goG in EG.
        destruct (goG l) as [[p g]|] eqn:EL; [discriminate|]. apply Forall_cons_iff in IH. destruct IH as [Hv Hl]. cbn [snd] in Hv.
        apply Forall_cons_iff in WF. destruct WF as [Wv Wl]. cbn [snd] in Wv.
        specialize (IHl Hl ltac:(first [exact eq_refl|exact Wl]) ltac:(first [exact eq_refl|exact Wl])). split.
        + intros H. inversion H as [|x y l0 m0 [K V] H2]; subst. apply IHl in H2. cbn [fst snd] in K, V. apply (Hv Wv EV) in V. destruct y; cbn in *. congruence.
        + intros ->. constructor; [split; [reflexivity|apply (Hv Wv EV); reflexivity]|apply IHl; reflexivity]. }
    split; [intros (m & -> & H); apply HL in H; congruence|intros ->; exists l; split; [reflexivity|apply HL; reflexivity]].
  - rewrite findExpand_L in HN. pose proof (wf_list _ HW) as WF. rewrite inst_list.
    assert (forall m, Forall2 instance l m <-> m = l) as HL.
    { destruct (goL l) as [[p g]|] eqn:EG; [discriminate|]. clear HN HW. induction l as [|v l IHl]; intros m.
      - split; [intros H; inversion H; reflexivity|intros ->; constructor].
      - cbn [goL] in EG. destruct (findExpand v) as [[p f]|] eqn:EV; [discriminate|]. fold goL in EG.
        destruct (goL l) as [[p g]|] eqn:EL; [discriminate|]. apply Forall_cons_iff in IH. destruct IH as [Hv Hl].
        apply Forall_cons_iff in WF. destruct WF as [Wv Wl].
        specialize (IHl Hl ltac:(first [exact eq_refl|exact Wl]) ltac:(first [exact eq_refl|exact Wl])). split.
        + intros H. inversion H as [|x y l0 m0 V H2]; subst. apply IHl in H2. apply (Hv Wv EV) in V. congruence.
        + intros ->. constructor; [apply (Hv Wv EV); reflexivity|apply IHl; reflexivity]. }
    split; [intros (m & -> & H); apply HL in H; congruence|intros ->; exists l; split; [reflexivity|apply HL; reflexivity]].
Qed.

(* number of expand groups *)
Definition isE (kv : str * setting) : nat := if str_eqb expandKey (fst kv) then match snd kv with SGroup _ => 1 | _ => 0 end else 0.
Fixpoint count (s : setting) : nat :=
  match s with
  | SGroup l => fold_right (fun kv a => isE kv + count (snd kv) + a)%nat 0%nat l
  | SList l => fold_right (fun x a => count x + a)%nat 0%nat l
  | _ => 0%nat
  end.
Lemma count_size s : (count s < ssize s)%nat.
Proof.
  induction s as [z|z|z|z|l IH|l IH] using setting_ind2; cbn [count ssize]; try lia.
  - induction l as [|[k v] l IHl]; cbn [fold_right snd]; [lia|]. apply Forall_cons_iff in IH. destruct IH as [Hv Hl]. specialize (IHl Hl). cbn [snd] in Hv.
    assert (isE (k, v) + count v <= ssize v)%nat by (unfold isE; destruct (str_eqb expandKey (fst (k, v))); cbn [snd]; [destruct v; lia|lia]). lia.
  - induction l as [|v l IHl]; cbn [fold_right]; [lia|]. apply Forall_cons_iff in IH. destruct IH as [Hv Hl]. specialize (IHl Hl). lia.
Qed.
Definition countG (l : list (str * setting)) : nat := fold_right (fun kv a => isE kv + count (snd kv) + a)%nat 0%nat l.
Lemma countG_app a b : countG (a ++ b) = (countG a + countG b)%nat.
Proof. induction a as [|x a IH]; cbn [countG fold_right app]; [reflexivity|]. fold (countG (a ++ b)) (countG a). lia. Qed.

(* one step *)
Record stepOK (s : setting) (n : str) (edges : list R) (f : R * R -> setting) : Prop := {
  st_wf : forall b, wellFormed ok (f b);
  st_count : forall b, (count (f b) < count s)%nat;
  st_inst : forall c, instance s c <-> exists b, In b (neighbours edges) /\ instance (f b) c;
  st_inj : forall b b' c, instance (f b) c -> instance (f b') c -> b = b' }.
Definition stepAt (s : setting) (p : list (str * setting)) (f : list (str * setting) -> setting) : Prop :=
  exists l1 e l2 n edges, p = l1 ++ (expandKey, SGroup e) :: l2 /\ ~ In expandKey (map fst l1) /\ binningOf (SGroup e) n edges /\ ok edges /\ validName n = true /\
     ~ In n (map fst (l1 ++ l2)) /\ stepOK s n edges (fun b => f ((l1 ++ l2) ++ [binEntry n b])).
Lemma wf_bin n b : wellFormed ok (snd (binEntry n b)).
Proof. constructor. repeat constructor. Qed.
Lemma inst_bin n b y : instE (binEntry n b) y <-> y = binEntry n b.
Proof.
  unfold instE, binEntry. cbn [fst snd]. rewrite inst_list. split.
  - intros [E (m & M & F)]. destruct y as [k v]. cbn [fst snd] in *. subst. f_equal. f_equal.
    inversion F as [|? x ? r A B]; subst. inversion B as [|? x' ? r' A' B']; subst. inversion B'; subst. inversion A; subst. inversion A'; subst. reflexivity.
  - intros ->. split; [reflexivity|]. eexists. split; [reflexivity|]. repeat constructor.
Qed.
Lemma own_app l n b : ~ In n (map fst l) -> ownExpand l = None -> ownExpand (l ++ [binEntry n b]) = None.
Proof.
  intros HN HO. unfold ownExpand in *. rewrite findKey_app. destruct (findKey expandKey l) as [v|]; [exact HO|]. cbn [findKey binEntry]. destruct (str_eqb _ _); reflexivity.
Qed.
Lemma own_rest (l1 l2 : list (str * setting)) : ~ In expandKey (map fst l1) -> ~ In expandKey (map fst l2) -> ownExpand (l1 ++ l2) = None.
Proof. intros H1 H2. unfold ownExpand. rewrite findKey_none; [reflexivity|]. rewrite map_app, in_app_iff. tauto. Qed.
Lemma nodup_snoc (l : list (str * setting)) n b : NoDup (map fst l) -> ~ In n (map fst l) -> NoDup (map fst (l ++ [binEntry n b])).
Proof.
  intros H1 H2. rewrite map_app. cbn [map fst binEntry]. apply NoDup_rev in H1. rewrite <- (rev_involutive (map fst l)).
  change ([n]) with (rev [n]). rewrite <- rev_app_distr. apply NoDup_rev. cbn [app]. constructor; [rewrite <- in_rev; exact H2|exact H1].
Qed.
Lemma step_own l1 e l2 n edges : NoDup (map fst (l1 ++ (expandKey, SGroup e) :: l2)) -> binningOf (SGroup e) n edges -> ok edges -> validName n = true ->
  ~ In n (map fst (l1 ++ l2)) -> Forall (fun kv => wellFormed ok (snd kv)) (l1 ++ l2) ->
  stepOK (SGroup (l1 ++ (expandKey, SGroup e) :: l2)) n edges (fun b => SGroup ((l1 ++ l2) ++ [binEntry n b])).
Proof.
  intros ND HB HOK HV HN HW. destruct (nodup_split _ _ _ _ ND) as (N1 & N2 & ND').
  assert (forall b, NoDup (map fst ((l1 ++ l2) ++ [binEntry n b]))) as NDb by (intros b; apply nodup_snoc; assumption).
  assert (forall b, ownExpand ((l1 ++ l2) ++ [binEntry n b]) = None) as Ob by (intros b; apply own_app; [exact HN|apply own_rest; assumption]).
  assert (forall b c, instance (SGroup ((l1 ++ l2) ++ [binEntry n b])) c <-> exists m, c = SGroup (m ++ [binEntry n b]) /\ Forall2 instE (l1 ++ l2) m) as IB.
  { intros b c. rewrite (inst_own_none _ _ (NDb b) (Ob b)). split.
    - intros (m & -> & F). apply Forall2_app_inv_l in F. destruct F as (m1 & m2 & F1 & F2 & ->). inversion F2 as [|? y ? r A B]; subst. inversion B; subst.
      apply inst_bin in A. subst y. exists m1. auto.
    - intros (m & -> & F). eexists. split; [reflexivity|]. apply Forall2_app; [exact F|]. constructor; [apply inst_bin; reflexivity|constructor]. }
  split.
  - intros b. apply wfGroup; [apply NDb|apply Ob|]. apply Forall_app. split; [exact HW|]. constructor; [apply wf_bin|constructor].
  - intros b. cbn [count]. fold (countG ((l1 ++ l2) ++ [binEntry n b])) (countG (l1 ++ (expandKey, SGroup e) :: l2)).
    rewrite !countG_app. cbn [countG fold_right]. fold (countG l2). unfold isE at 1 2. cbn [binEntry fst snd]. rewrite str_eqb_refl'.
    cbn [count fold_right]. destruct (str_eqb expandKey n); lia.
  - intros c. rewrite (inst_own_some _ _ _ _ _ _ ND HB). split.
    + intros (m & b & -> & Hb & F). exists b. split; [exact Hb|]. apply IB. eauto.
    + intros (b & Hb & H). apply IB in H. destruct H as (m & -> & F). exists m, b. auto.
  - intros b b' c H H'. apply IB in H, H'. destruct H as (m & -> & _). destruct H' as (m' & E & _). injection E as E. apply app_inj_tail in E. destruct E as [_ E].
    unfold binEntry in E. destruct b, b'. cbn in E. congruence.
Qed.


Definition isGroup (s : setting) : bool := match s with SGroup _ => true | _ => false end.
Definition sig (l : list (str * setting)) : list (str * bool) := map (fun kv => (fst kv, isGroup (snd kv))) l.
Lemma sig_keys l m : sig l = sig m -> map fst l = map fst m.
Proof. intros H. apply (f_equal (map fst)) in H. unfold sig in H. rewrite !map_map in H. exact H. Qed.
Lemma sig_own l : forall m, sig l = sig m -> ownExpand l = None -> ownExpand m = None.
Proof.
  unfold ownExpand. induction l as [|[k v] l IH]; intros [|[k' v'] m] H HO; try discriminate; [reflexivity|].
  cbn [sig map fst snd] in H. injection H as E1 E2 E3. subst k'. cbn [findKey] in *. destruct (str_eqb expandKey k); [|apply IH; [exact E3|exact HO]].
  destruct v, v'; try discriminate; reflexivity.
Qed.
Lemma findExpand_kind s p f x : findExpand s = Some (p, f) -> isGroup (f x) = isGroup s.
Proof.
  destruct s as [| | | |l|l]; try discriminate.
  - rewrite findExpand_G. destruct (ownExpand l); [intros H; injection H as <- <-; reflexivity|].
    destruct (goG l) as [[q g]|]; [|discriminate]. intros H; injection H as <- <-; reflexivity.
  - rewrite findExpand_L. destruct (goL l) as [[q g]|]; [|discriminate]. intros H; injection H as <- <-; reflexivity.
Qed.
Record okG (l : list (str * setting)) (edges : list R) (f : R * R -> list (str * setting)) : Prop := {
  og_sig : forall b, sig (f b) = sig l;
  og_wf : forall b, Forall (fun kv => wellFormed ok (snd kv)) (f b);
  og_count : forall b, (countG (f b) < countG l)%nat;
  og_inst : forall m, Forall2 instE l m <-> exists b, In b (neighbours edges) /\ Forall2 instE (f b) m;
  og_inj : forall b b' m, Forall2 instE (f b) m -> Forall2 instE (f b') m -> b = b' }.
Definition countL (l : list setting) : nat := fold_right (fun x a => count x + a)%nat 0%nat l.
Record okL (l : list setting) (edges : list R) (f : R * R -> list setting) : Prop := {
  ol_wf : forall b, Forall (wellFormed ok) (f b);
  ol_count : forall b, (countL (f b) < countL l)%nat;
  ol_inst : forall m, Forall2 instance l m <-> exists b, In b (neighbours edges) /\ Forall2 instance (f b) m;
  ol_inj : forall b b' m, Forall2 instance (f b) m -> Forall2 instance (f b') m -> b = b' }.
Definition hole (p : list (str * setting)) (n : str) (edges : list R) (q : list (str * setting)) : Prop :=
  exists l1 e l2, p = l1 ++ (expandKey, SGroup e) :: l2 /\ q = l1 ++ l2 /\ ~ In expandKey (map fst l1) /\ binningOf (SGroup e) n edges /\ ok edges /\ validName n = true /\ ~ In n (map fst q).
Lemma none_instG l : Forall (fun kv => wellFormed ok (snd kv)) l -> goG l = None -> forall m, Forall2 instE l m <-> m = l.
Proof.
  induction l as [|[k v] l IH]; intros WF EG m.
  - split; [intros H; inversion H; reflexivity|intros ->; constructor].
  - cbn [goG] in EG. destruct (findExpand v) as [[p f]|] eqn:EV; [discriminate|]. fold goG in EG.
    destruct (goG l) as [[p g]|] eqn:EL; [discriminate|]. apply Forall_cons_iff in WF. destruct WF as [Wv Wl]. cbn [snd] in Wv.
    pose proof (none_inst v Wv EV) as Hv. specialize (IH Wl eq_refl). split.
    + intros H. inversion H as [|x y l0 m0 [K V] H2]; subst. apply IH in H2. cbn [fst snd] in K, V. apply Hv in V. destruct y; cbn in *. congruence.
    + intros ->. constructor; [split; [reflexivity|apply Hv; reflexivity]|apply IH; reflexivity].
Qed.
Lemma none_instL l : Forall (wellFormed ok) l -> goL l = None -> forall m, Forall2 instance l m <-> m = l.
Proof.
  intros WF EG m. pose proof (none_inst (SList l) (wfList _ _ WF)) as H. rewrite findExpand_L, EG in H. specialize (H eq_refl (SList m)).
  rewrite inst_list in H. split.
  - intros F. assert (SList m = SList l) as E by (apply H; eauto). injection E as E. exact E.
  - intros ->. destruct (proj2 H eq_refl) as (m' & E & F). injection E as <-. exact F.
Qed.
Lemma cons2 (x y : str * setting) l m : Forall2 instE (x :: l) (y :: m) <-> instE x y /\ Forall2 instE l m.
Proof. split; [intros H; inversion H; auto|intros [H1 H2]; constructor; auto]. Qed.
Lemma cons2L x y l m : Forall2 instance (x :: l) (y :: m) <-> instance x y /\ Forall2 instance l m.
Proof. split; [intros H; inversion H; auto|intros [H1 H2]; constructor; auto]. Qed.

Lemma step s : wellFormed ok s -> forall p f, findExpand s = Some (p, f) ->
  exists n edges q, hole p n edges q /\ stepOK s n edges (fun b => f (q ++ [binEntry n b])).
Proof.
  induction s as [z|z|z|z|l IH|l IH] using setting_ind2; intros HW p f HF; try discriminate HF.
  - rewrite findExpand_G in HF. destruct (wf_group _ HW) as [ND [[EO WF]|(l1 & e & l2 & n & edges & -> & N1 & HB & HOK & HV & HN & WF & N2 & EO)]].
    + rewrite EO in HF. destruct (goG l) as [[p' g]|] eqn:EG; [|discriminate]. injection HF as <- <-.
      assert (exists n edges q, hole p' n edges q /\ okG l edges (fun b => g (q ++ [binEntry n b]))) as (n & edges & q & HH & OG).
      { clear EO ND HW. revert p' g EG. induction l as [|[k v] l IHl]; intros p' g EG; [discriminate|].
        cbn [goG] in EG. fold goG in EG. apply Forall_cons_iff in IH. destruct IH as [Hv Hl]. cbn [snd] in Hv.
        apply Forall_cons_iff in WF. destruct WF as [Wv Wl]. cbn [snd] in Wv.
        destruct (findExpand v) as [[p f]|] eqn:EV.
        - injection EG as <- <-. destruct (Hv Wv p f eq_refl) as (n & edges & q & HH & [W C I J]).
          exists n, edges, q. split; [exact HH|]. split.
          + intros b. cbn [sig map fst snd]. rewrite (findExpand_kind _ _ _ _ EV). reflexivity.
          + intros b. constructor; [apply W|exact Wl].
          + intros b. cbn [countG fold_right snd]. fold (countG l). specialize (C b).
            assert (isE (k, f (q ++ [binEntry n b])) = isE (k, v)) as ->; [|lia].
            pose proof (findExpand_kind _ _ _ (q ++ [binEntry n b]) EV) as K. unfold isE. cbn [fst snd]. destruct (str_eqb expandKey k); [|reflexivity].
            destruct (f _), v; cbn in K; congruence.
          + intros [|y m]; [split; [intros H; inversion H|intros (b & _ & H); inversion H]|]. rewrite cons2. unfold instE at 1. cbn [fst snd]. rewrite I. split.
            * intros ((K & b & Hb & Hi) & F). exists b. split; [exact Hb|]. constructor; [split; assumption|exact F].
            * intros (b & Hb & F). apply cons2 in F. destruct F as [[K Hi] F]. split; [split; [exact K|exists b; auto]|exact F].
          + intros b b' [|y m] F F'; [inversion F|]. apply cons2 in F, F'. destruct F as [[_ F] _], F' as [[_ F'] _]. apply (J b b' _ F F').
        - destruct (goG l) as [[p0 g0]|] eqn:EL; [|discriminate]. injection EG as <- <-.
          destruct (IHl Hl Wl p0 g0 eq_refl) as (n & edges & q & HH & [G W C I J]).
          pose proof (none_inst v Wv EV) as NV.
          exists n, edges, q. split; [exact HH|]. split.
          + intros b. cbn [sig map]. f_equal. apply G.
          + intros b. constructor; [exact Wv|apply W].
          + intros b. cbn [countG fold_right snd]. specialize (C b). unfold countG in C. lia.
          + intros [|y m]; [split; [intros H; inversion H|intros (b & _ & H); inversion H]|]. rewrite cons2, I. split.
            * intros (K & b & Hb & Hi). exists b. split; [exact Hb|]. constructor; assumption.
            * intros (b & Hb & F). apply cons2 in F. destruct F as [K F]. split; [exact K|exists b; auto].
          + intros b b' [|y m] F F'; [inversion F|]. apply cons2 in F, F'. apply (J b b' m); tauto. }
      exists n, edges, q. split; [exact HH|]. destruct OG as [G W C I J].
      assert (forall b, NoDup (map fst (g (q ++ [binEntry n b])))) as NDb by (intros b; rewrite (sig_keys _ _ (G b)); exact ND).
      assert (forall b, ownExpand (g (q ++ [binEntry n b])) = None) as Ob by (intros b; apply (sig_own l); [symmetry; apply G|exact EO]).
      split.
      * intros b. apply wfGroup; auto.
      * intros b. apply C.
      * intros c. rewrite (inst_own_none _ _ ND EO). split.
        -- intros (m & -> & F). apply I in F. destruct F as (b & Hb & F). exists b. split; [exact Hb|]. apply (inst_own_none _ _ (NDb b) (Ob b)). eauto.
        -- intros (b & Hb & F). apply (inst_own_none _ _ (NDb b) (Ob b)) in F. destruct F as (m & -> & F). exists m. split; [reflexivity|]. apply I. eauto.
      * intros b b' c H H'. apply (inst_own_none _ _ (NDb b) (Ob b)) in H. apply (inst_own_none _ _ (NDb b') (Ob b')) in H'.
        destruct H as (m & -> & H). destruct H' as (m' & E & H'). injection E as <-. apply (J b b' m H H').
    + rewrite EO in HF. injection HF as <- <-. exists n, edges, (l1 ++ l2). split; [exists l1, e, l2; auto 10|]. apply step_own; assumption.
  - rewrite findExpand_L in HF. pose proof (wf_list _ HW) as WF. destruct (goL l) as [[p' g]|] eqn:EG; [|discriminate]. injection HF as <- <-.
    assert (exists n edges q, hole p' n edges q /\ okL l edges (fun b => g (q ++ [binEntry n b]))) as (n & edges & q & HH & OG).
    { clear HW. revert p' g EG. induction l as [|v l IHl]; intros p' g EG; [discriminate|].
      cbn [goL] in EG. fold goL in EG. apply Forall_cons_iff in IH. destruct IH as [Hv Hl].
      apply Forall_cons_iff in WF. destruct WF as [Wv Wl].
      destruct (findExpand v) as [[p f]|] eqn:EV.
      - injection EG as <- <-. destruct (Hv Wv p f eq_refl) as (n & edges & q & HH & [W C I J]).
        exists n, edges, q. split; [exact HH|]. split.
        + intros b. constructor; [apply W|exact Wl].
        + intros b. cbn [countL fold_right]. specialize (C b). lia.
        + intros [|y m]; [split; [intros H; inversion H|intros (b & _ & H); inversion H]|]. rewrite cons2L, I. split.
          * intros ((b & Hb & Hi) & F). exists b. split; [exact Hb|]. constructor; assumption.
          * intros (b & Hb & F). apply cons2L in F. destruct F as [Hi F]. split; [exists b; auto|exact F].
        + intros b b' [|y m] F F'; [inversion F|]. apply cons2L in F, F'. apply (J b b' y); tauto.
      - destruct (goL l) as [[p0 g0]|] eqn:EL; [|discriminate]. injection EG as <- <-.
        destruct (IHl Hl Wl p0 g0 eq_refl) as (n & edges & q & HH & [W C I J]).
        exists n, edges, q. split; [exact HH|]. split.
        + intros b. constructor; [exact Wv|apply W].
        + intros b. cbn [countL fold_right]. specialize (C b). unfold countL in C. lia.
        + intros [|y m]; [split; [intros H; inversion H|intros (b & _ & H); inversion H]|]. rewrite cons2L, I. split.
          * intros (K & b & Hb & Hi). exists b. split; [exact Hb|]. constructor; assumption.
          * intros (b & Hb & F). apply cons2L in F. destruct F as [K F]. split; [exact K|exists b; auto].
        + intros b b' [|y m] F F'; [inversion F|]. apply cons2L in F, F'. apply (J b b' m); tauto. }
    exists n, edges, q. split; [exact HH|]. destruct OG as [W C I J]. split.
    + intros b. apply wfList, W.
    + intros b. apply C.
    + intros c. rewrite inst_list. split.
      * intros (m & -> & F). apply I in F. destruct F as (b & Hb & F). exists b. split; [exact Hb|]. apply inst_list. eauto.
      * intros (b & Hb & F). apply inst_list in F. destruct F as (m & -> & F). exists m. split; [reflexivity|]. apply I. eauto.
    + intros b b' c H H'. apply inst_list in H, H'. destruct H as (m & -> & H). destruct H' as (m' & E & H'). injection E as <-. apply (J b b' m H H').
Qed.

(* the loop *)
Lemma floats_map l : floats (map SFloat l) = Some l.
Proof. induction l as [|x l IH]; [reflexivity|]. cbn [map floats asFloat bindP]. rewrite IH. reflexivity. Qed.
Lemma binning_read e n edges : binningOf e n edges -> lookStr (lit "type"%string) e = Some (lit "binning"%string) /\ lookStr (lit "name"%string) e = Some n /\
  getBinning e = Some edges /\ edges <> [].
Proof.
  intros (T & N & E & l & F & ->). split; [exact T|]. split; [exact N|]. split; [|exact E].
  unfold getBinning, findList. rewrite F. destruct edges as [|x r]; [congruence|]. cbn [map]. change (SFloat x :: map SFloat r) with (map SFloat (x :: r)). apply floats_map.
Qed.
Lemma overBins_some f edges : (forall b, In b (neighbours edges) -> exists l, f (fst b) (snd b) = Some l) -> exists l, overBins f edges = Some l.
Proof.
  induction edges as [|a [|b r] IH]; intros H; [eexists; reflexivity|eexists; reflexivity|].
  cbn [overBins]. destruct (H (a, b) (or_introl eq_refl)) as [x Hx]. cbn [fst snd] in Hx. rewrite Hx. cbn [bindP].
  destruct IH as [y Hy]; [intros c Hc; apply H; right; exact Hc|]. cbn [overBins] in Hy. rewrite Hy. eexists; reflexivity.
Qed.
Lemma overBins_in f edges : forall l, overBins f edges = Some l -> forall c, In c l <-> exists b k, In b (neighbours edges) /\ f (fst b) (snd b) = Some k /\ In c k.
Proof.
  induction edges as [|a [|b r] IH]; intros l H c.
  - injection H as <-. split; [intros []|intros (b & k & [] & _)].
  - injection H as <-. split; [intros []|intros (b & k & [] & _)].
  - cbn [overBins] in H. destruct (f a b) as [x|] eqn:EX; [|discriminate]. cbn [bindP] in H.
    change (match r with [] => Some [] | b0 :: _ => doP x0 <- f b b0; doP y <- overBins f r; Some (x0 ++ y) end) with (overBins f (b :: r)) in H.
    destruct (overBins f (b :: r)) as [y|] eqn:EY; [|discriminate]. cbn [bindP] in H. injection H as <-. rewrite in_app_iff, (IH y eq_refl c).
    change (neighbours (a :: b :: r)) with ((a, b) :: neighbours (b :: r)). split.
    + intros [Hx|(b' & k & Hb & Hk & Hc)]; [exists (a, b), x; cbn; auto|exists b', k; split; [right; exact Hb|auto]].
    + intros (b' & k & [<-|Hb] & Hk & Hc); [left; cbn in Hk; rewrite EX in Hk; injection Hk as <-; exact Hc|right; eauto].
Qed.
Lemma NoDup_app_intro {T} (a b : list T) : NoDup a -> NoDup b -> (forall x, In x a -> In x b -> False) -> NoDup (a ++ b).
Proof.
  intros Ha Hb H. induction Ha as [|x a Hx Ha IH]; [exact Hb|]. cbn [app]. constructor.
  - rewrite in_app_iff. intros [Q|Q]; [exact (Hx Q)|apply (H x (or_introl eq_refl) Q)].
  - apply IH. intros y Hy. apply H. right; exact Hy.
Qed.
Lemma overBins_nodup f edges : forall l, overBins f edges = Some l -> NoDup (neighbours edges) ->
  (forall b k, In b (neighbours edges) -> f (fst b) (snd b) = Some k -> NoDup k) ->
  (forall b b' k k' c, f (fst b) (snd b) = Some k -> f (fst b') (snd b') = Some k' -> In c k -> In c k' -> b = b') -> NoDup l.
Proof.
  induction edges as [|a [|b r] IH]; intros l H ND HK HI.
  - injection H as <-. constructor.
  - injection H as <-. constructor.
  - cbn [overBins] in H. destruct (f a b) as [x|] eqn:EX; [|discriminate]. cbn [bindP] in H.
    change (match r with [] => Some [] | b0 :: _ => doP x0 <- f b b0; doP y <- overBins f r; Some (x0 ++ y) end) with (overBins f (b :: r)) in H.
    destruct (overBins f (b :: r)) as [y|] eqn:EY; [|discriminate]. cbn [bindP] in H. injection H as <-.
    change (neighbours (a :: b :: r)) with ((a, b) :: neighbours (b :: r)) in *. apply NoDup_cons_iff in ND. destruct ND as [NI ND].
    apply NoDup_app_intro.
    + apply (HK (a, b) x); [left; reflexivity|exact EX].
    + apply IH; [reflexivity|exact ND| |exact HI]. intros b' k Hb. apply HK. right; exact Hb.
    + intros c Hx Hy. apply (overBins_in f _ y EY) in Hy. destruct Hy as (b' & k & Hb & Hk & Hc).
      assert ((a, b) = b') as <- by (apply (HI (a, b) b' x k c); assumption). exact (NI Hb).
Qed.

Lemma expand_step n s p f : wellFormed ok s -> findExpand s = Some (p, f) ->
  exists nm edges q, ok edges /\ stepOK s nm edges (fun b => f (q ++ [binEntry nm b])) /\
    expandFuel (S n) s = overBins (fun a b => expandFuel n (f (q ++ [binEntry nm (a, b)]))) edges.
Proof.
  intros HW HF. destruct (step s HW p f HF) as (nm & edges & q & (l1 & e & l2 & -> & -> & N1 & HB & HOK & HV & HN) & ST).
  exists nm, edges, (l1 ++ l2). split; [exact HOK|]. split; [exact ST|]. cbn [expandFuel]. rewrite HF.
  pose proof (own_split e l1 l2 N1) as EO.
  assert (findGroup expandKey (SGroup (l1 ++ (expandKey, SGroup e) :: l2)) = Some (SGroup e)) as ->.
  { unfold findGroup, ownExpand in *. cbn [field]. destruct (findKey expandKey _) as [[]|]; try discriminate. exact EO. }
  destruct (binning_read _ _ _ HB) as (T & N & G & E). rewrite T, N, G. cbv zeta. rewrite str_eqb_refl'. cbn [bindP].
  destruct edges as [|a r]; [congruence|].
  assert (forall a b, (doP p <- addEntry nm (SList [SFloat a; SFloat b]) (removeKey expandKey (l1 ++ (expandKey, SGroup e) :: l2)); expandFuel n (f p)) =
    expandFuel n (f ((l1 ++ l2) ++ [binEntry nm (a, b)]))) as EE.
  { intros x y. rewrite (removeKey_split _ _ _ _ N1). unfold addEntry. rewrite HV, (findKey_none _ _ HN). reflexivity. }
  clear -EE. revert a. induction r as [|b r IH]; intros a; [reflexivity|]. cbn [overBins]. rewrite EE. cbn [overBins] in IH. rewrite IH. reflexivity.
Qed.
Lemma expand_ok : forall n s, wellFormed ok s -> (count s < n)%nat -> exists l, expandFuel n s = Some l /\ forall c, In c l <-> instance s c.
Proof.
  induction n as [|n IH]; intros s HW HC; [lia|].
  destruct (findExpand s) as [[p f]|] eqn:EF.
  - destruct (expand_step n s p f HW EF) as (nm & edges & q & _ & [W C HI J] & ->).
    destruct (overBins_some (fun a b => expandFuel n (f (q ++ [binEntry nm (a, b)]))) edges) as [l Hl].
    { intros [a b] _. cbn [fst snd]. destruct (IH _ (W (a, b))) as (l & Hl & _); [specialize (C (a, b)); lia|eauto]. }
    exists l. split; [exact Hl|]. intros c. rewrite (overBins_in _ _ _ Hl c), HI. split.
    + intros ([a b] & k & Hb & Hk & Hc). cbn [fst snd] in Hk. destruct (IH _ (W (a, b))) as (k' & Hk' & E); [specialize (C (a, b)); lia|].
      rewrite Hk in Hk'. injection Hk' as <-. exists (a, b). split; [exact Hb|]. apply E, Hc.
    + intros ([a b] & Hb & Hc). destruct (IH _ (W (a, b))) as (k' & Hk' & E); [specialize (C (a, b)); lia|]. exists (a, b), k'. split; [exact Hb|]. split; [exact Hk'|]. apply E, Hc.
  - exists [s]. split; [cbn [expandFuel]; rewrite EF; reflexivity|]. intros c. rewrite (none_inst s HW EF). cbn. intuition congruence.
Qed.
Lemma expand_nodup : (forall e, ok e -> NoDup (neighbours e)) -> forall n s l, wellFormed ok s -> (count s < n)%nat -> expandFuel n s = Some l -> NoDup l.
Proof.
  intros HN. induction n as [|n IH]; intros s l HW HC HE; [lia|].
  destruct (findExpand s) as [[p f]|] eqn:EF.
  - destruct (expand_step n s p f HW EF) as (nm & edges & q & HO & [W C HI J] & E). rewrite E in HE.
    apply (overBins_nodup _ _ _ HE); [apply HN, HO| |].
    + intros [a b] k _ Hk. apply (IH _ _ (W (a, b))) in Hk; [exact Hk|specialize (C (a, b)); lia].
    + intros [a b] [a' b'] k k' c Hk Hk' Hc Hc'. cbn [fst snd] in Hk, Hk'.
      destruct (expand_ok n _ (W (a, b))) as (k0 & Hk0 & E0); [specialize (C (a, b)); lia|]. rewrite Hk in Hk0. injection Hk0 as <-.
      destruct (expand_ok n _ (W (a', b'))) as (k1 & Hk1 & E1); [specialize (C (a', b')); lia|]. rewrite Hk' in Hk1. injection Hk1 as <-.
      apply (J _ _ c); [apply E0, Hc|apply E1, Hc'].
  - cbn [expandFuel] in HE. rewrite EF in HE. injection HE as <-. repeat constructor. intros [].
Qed.
End OK.
