(* Lemmas about the set-up of the likelihood *)
From Coq Require Import String Ascii List ZArith Reals Bool Lia Sorted.
From Coquelicot Require Import Complex.
From Verif Require Import ArrayModel PathModel StrModel CGBoxModel AmpIntModel LikParModel LikParProofs LikModel LikSetModel.
Import ListNotations.
Open Scope list_scope. Open Scope nat_scope.

Lemma foldO_app {A B} (f : B -> A -> option A) l1 l2 a : foldO f (l1 ++ l2) a = (do x <- foldO f l1 a; foldO f l2 x).
Proof. revert a. induction l1 as [|x l IH]; intros a; [reflexivity|]. cbn [foldO app]. destruct (f x a); cbn [bnd]; [apply IH|reflexivity]. Qed.
(* an invariant indexed by the processed part of the list *)
Lemma foldO_ind {A B} (f : B -> A -> option A) (I : list B -> A -> Prop) :
  (forall done x a a', I done a -> f x a = Some a' -> I (done ++ [x]) a') ->
  forall l d a b, I d a -> foldO f l a = Some b -> I (d ++ l) b.
Proof.
  intros Hs. induction l as [|x l IH]; intros d a b Ha H; cbn [foldO] in H.
  - inversion H; subst. now rewrite app_nil_r.
  - destruct (f x a) as [a'|] eqn:E; [|discriminate]. cbn [bnd] in H. replace (d ++ x :: l) with ((d ++ [x]) ++ l) by (rewrite <- app_assoc; reflexivity).
    eapply IH; [|exact H]. eapply Hs; eauto.
Qed.

Lemma runs_snoc h c : runs (h ++ [c]) = (do x <- runs h; do r <- exec (fst x) c; Some (fst r, snd x ++ [(c, snd r)])).
Proof.
  unfold runs. rewrite foldO_app. set (X := foldO _ h _). destruct X as [[s tr]|]; [|reflexivity]. cbn [bnd foldO fst snd].
  destruct (exec s c); reflexivity.
Qed.
Lemma runs_inv (I : state -> list (scall * bool) -> Prop) : I fresh [] ->
  (forall s tr c s' b, I s tr -> exec s c = Some (s', b) -> I s' (tr ++ [(c, b)])) ->
  forall h s tr, runs h = Some (s, tr) -> I s tr.
Proof.
  intros H0 Hs. induction h as [|c h IH] using rev_ind; intros s tr H; [inversion H; subst; exact H0|].
  rewrite runs_snoc in H. destruct (runs h) as [[s0 t0]|]; [|discriminate]. cbn [bnd fst snd] in H.
  destruct (exec s0 c) as [[s1 b]|] eqn:E; [|discriminate]. cbn [bnd fst snd] in H. inversion H; subst. eapply Hs; eauto.
Qed.

Lemma loop2_In n e w : In (e, w) (loop2 n) <-> e < 2 /\ w < n e.
Proof.
  unfold loop2. rewrite in_flat_map. split.
  - intros (x & Hx & H). apply in_map_iff in H as (y & E & Hy). apply in_seq in Hy. inversion E; subst. cbn in Hx. split; [|lia]. destruct Hx as [<-|[<-|[]]]; lia.
  - intros [H1 H2]. exists e. split; [cbn; lia|]. apply in_map_iff. exists w. split; [reflexivity|]. apply in_seq. lia.
Qed.
Lemma loop2_NoDup n : NoDup (loop2 n).
Proof.
  unfold loop2. apply NoDup_flat_map.
  - repeat constructor; cbn; intuition congruence.
  - intros e _. apply FinFun.Injective_map_NoDup; [intros a b H; now inversion H|apply seq_NoDup].
  - intros a b x _ _ Ha Hb. apply in_map_iff in Ha as (? & E1 & _), Hb as (? & E2 & _). congruence.
Qed.

(* ---- what each call does to the flags ---- *)
Definition isInit (c : scall) : bool := match c with SInit _ _ _ => true | _ => false end.
Definition isNorm (c : scall) : bool := match c with SNorm _ => true | _ => false end.
Definition isAcc (c : scall) : bool := match c with SAcc _ _ => true | _ => false end.

(* members that readWaveList leaves alone *)
Lemma readFold ws l : forall s s', foldO (readStep ws) l s = Some s' ->
  stWaves s' = stWaves s /\ stRank s' = stRank s /\ stPars s' = stPars s /\ stFixed s' = stFixed s /\ stMap s' = stMap s /\
  stInit s' = stInit s /\ stNorm s' = stNorm s /\ stAcc s' = stAcc s /\ stFin s' = stFin s /\ stNumb s' = stNumb s /\ stNormM s' = stNormM s /\
  stAccM s' = stAccM s /\ stTot s' = stTot s /\ stUse s' = stUse s /\ stEvts s' = stEvts s /\ stDec s' = stDec s /\ stOrder s' = stOrder s /\
  stFiles s' = stFiles s /\ stPhase s' = stPhase s.
Proof.
  induction l as [|[e w] l IH]; intros s s' H; cbn [foldO] in H.
  - inversion H; subst. repeat (split; [reflexivity|]). reflexivity.
  - unfold readStep at 1 in H. destruct (nth_error (ofRefl e ws) w) as [x|]; [|discriminate]. cbn [bnd] in H. apply IH in H. cbn in H. exact H.
Qed.

Lemma init_flags s ws r m s' b : init s ws r m = Some (s', b) ->
  stInit s' = stInit s || b /\ stNorm s' = stNorm s /\ stAcc s' = stAcc s /\ stFin s' = stFin s /\ stEvts s' = stEvts s /\ stDec s' = stDec s /\
  stFiles s' = stFiles s /\ stOrder s' = stOrder s /\ stUse s' = stUse s /\ stNormM s' = stNormM s /\ stAccM s' = stAccM s.
Proof.
  unfold init, readWaveList. destruct (forallb _ ws); [|discriminate].
  match goal with |- bnd (foldO ?f ?l ?a) _ = _ -> _ => destruct (foldO f l a) as [s1|] eqn:E; [|discriminate] end.
  apply readFold in E. cbn in E. decompose [and] E. clear E. cbn [bnd].
  destruct (_ =? 0).
  - intros X; inversion X; subst. rewrite orb_false_r. repeat split; congruence.
  - destruct (buildParDataStruct _ _ _ _) as [d|]; [|discriminate]. cbn [bnd]. intros X; inversion X; subst; cbn. rewrite orb_true_r. repeat split; congruence.
Qed.

Ltac dcase H := match type of H with
  | (if ?b then _ else _) = _ => destruct b eqn:?
  | bnd ?x _ = _ => destruct x as [?|] eqn:?; [cbn [bnd] in H|discriminate H]
  | (let '(_, _) := ?x in _) = _ => destruct x as [? ?] eqn:?
  | match ?x with _ => _ end = _ => destruct x eqn:?
  end.

(* addAmplitude: everything it leaves alone, and what success means *)
Lemma amp_keeps s ms s' b : addAmplitude s ms = Some (s', b) ->
  stWaves s' = stWaves s /\ stName s' = stName s /\ stThr s' = stThr s /\ stParams s' = stParams s /\ stRank s' = stRank s /\ stFixed s' = stFixed s /\ stMap s' = stMap s /\
  stInit s' = stInit s /\ stNorm s' = stNorm s /\ stAcc s' = stAcc s /\ stFin s' = stFin s /\ stNumb s' = stNumb s /\ stNormM s' = stNormM s /\
  stAccM s' = stAccM s /\ stTot s' = stTot s /\ stUse s' = stUse s /\ stPhase s' = stPhase s.
Proof.
  unfold addAmplitude. intros H.
  repeat (first [dcase H | progress cbn beta iota zeta in H]); try discriminate; inversion H; subst; cbn; repeat (split; [reflexivity|]); reflexivity.
Qed.
Lemma finish_keeps s s' b : finishInit s = Some (s', b) ->
  stWaves s' = stWaves s /\ stName s' = stName s /\ stThr s' = stThr s /\ stAdded s' = stAdded s /\ stParams s' = stParams s /\ stRank s' = stRank s /\ stPars s' = stPars s /\ stFixed s' = stFixed s /\ stMap s' = stMap s /\
  stInit s' = stInit s /\ stNorm s' = stNorm s /\ stAcc s' = stAcc s /\ stFin s' = stFin s || b /\ stNumb s' = stNumb s /\
  stTot s' = stTot s /\ stUse s' = stUse s /\ stEvts s' = stEvts s /\ stDec s' = stDec s /\ stOrder s' = stOrder s /\ stFiles s' = stFiles s.
Proof.
  unfold finishInit. intros H. destruct (negb _).
  - inversion H; subst. rewrite orb_false_r. repeat (split; [reflexivity|]). reflexivity.
  - repeat (first [dcase H | progress cbn beta iota zeta in H]); try discriminate; inversion H; subst; cbn; rewrite orb_true_r; repeat (split; [reflexivity|]); reflexivity.
Qed.
Lemma norm_keeps s m s' b : addNormIntegral s m = Some (s', b) ->
  stWaves s' = stWaves s /\ stName s' = stName s /\ stThr s' = stThr s /\ stAdded s' = stAdded s /\ stParams s' = stParams s /\ stRank s' = stRank s /\ stPars s' = stPars s /\ stFixed s' = stFixed s /\ stMap s' = stMap s /\
  stInit s' = stInit s /\ stNorm s' = stNorm s || b /\ stAcc s' = stAcc s /\ stFin s' = stFin s /\ b = stInit s.
Proof.
  unfold addNormIntegral. destruct (stInit s) eqn:Ei; cbn [negb]; intros H.
  - dcase H. inversion H; subst; cbn. rewrite orb_true_r. repeat (split; [reflexivity|]); auto.
  - inversion H; subst. rewrite orb_false_r. repeat (split; [reflexivity|]); auto.
Qed.
Lemma acc_keeps s m o s' m' b : addAccIntegral s m o = Some (s', m', b) ->
  stWaves s' = stWaves s /\ stName s' = stName s /\ stThr s' = stThr s /\ stAdded s' = stAdded s /\ stParams s' = stParams s /\ stRank s' = stRank s /\ stPars s' = stPars s /\ stFixed s' = stFixed s /\ stMap s' = stMap s /\
  stInit s' = stInit s /\ stNorm s' = stNorm s /\ stAcc s' = stAcc s || b /\ stFin s' = stFin s /\ b = stNorm s.
Proof.
  unfold addAccIntegral. destruct (stNorm s) eqn:Ei; cbn [negb]; intros H.
  - cbv zeta in H. dcase H. inversion H; subst; cbn. rewrite orb_true_r. repeat (split; [reflexivity|]); auto.
  - inversion H; subst. rewrite orb_false_r. repeat (split; [reflexivity|]); auto.
Qed.
Lemma exec_acc s m o s' b : exec s (SAcc m o) = Some (s', b) -> exists m', addAccIntegral s m o = Some (s', m', b).
Proof. cbn [exec]. destruct (addAccIntegral s m o) as [[[s1 m1] b1]|]; [|discriminate]. cbn. intros H; inversion H; subst. eauto. Qed.
Lemma exec_flags s c s' b : exec s c = Some (s', b) ->
  stInit s' = stInit s || (isInit c && b) /\ stNorm s' = stNorm s || (isNorm c && b) /\ stAcc s' = stAcc s || (isAcc c && b).
Proof.
  intros H. destruct c; cbn [isInit isNorm isAcc andb].
  - apply init_flags in H. decompose [and] H. rewrite !orb_false_r. auto.
  - apply norm_keeps in H. decompose [and] H. rewrite !orb_false_r. auto.
  - apply exec_acc in H as [m' H]. apply acc_keeps in H. decompose [and] H. rewrite !orb_false_r. auto.
  - apply amp_keeps in H. decompose [and] H. rewrite !orb_false_r. auto.
  - apply finish_keeps in H. decompose [and] H. rewrite !orb_false_r. auto.
  - cbn [exec] in H. injection H as H. unfold setOnTheFlyBinning in H. destruct (binFiles _ _ _). inversion H; subst. cbn. rewrite !orb_false_r. auto.
  - inversion H; subst. cbn. rewrite !orb_false_r. auto.
Qed.

(* the flags record successful calls *)
Lemma flags_trace h s tr : runs h = Some (s, tr) ->
  (stInit s = true <-> exists ws r m, In (SInit ws r m, true) tr) /\
  (stNorm s = true <-> exists m, In (SNorm m, true) tr) /\
  (stAcc s = true <-> exists m o, In (SAcc m o, true) tr).
Proof.
  revert h s tr. apply runs_inv.
  - cbn. split; [|split]; (split; [discriminate|]); intros H; decompose [ex] H; tauto.
  - intros s tr c s' b (I1 & I2 & I3) H. destruct (exec_flags _ _ _ _ H) as (E1 & E2 & E3). rewrite E1, E2, E3, !orb_true_iff, !andb_true_iff, I1, I2, I3.
    split; [|split]; (split; [intros [X|[X ->]]; [decompose [ex] X; repeat eexists; apply in_or_app; left; eauto|
       destruct c; try discriminate X; repeat eexists; apply in_or_app; right; left; reflexivity]|]);
    intros X; decompose [ex] X; clear X;
    match goal with K : In _ (_ ++ _) |- _ => apply in_app_or in K as [K|[K|[]]]; [left; eauto|inversion K; subst; right; split; reflexivity] end.
Qed.

Lemma mapOpt_aux {A B} (f : A -> option B) l : forall acc r, foldO (fun x acc => do y <- f x; Some (acc ++ [y])) l acc = Some r ->
  exists r', r = acc ++ r' /\ Forall2 (fun x y => f x = Some y) l r'.
Proof.
  induction l as [|x l IH]; intros acc r H; cbn [foldO] in H.
  - inversion H; subst. exists []. rewrite app_nil_r. split; [reflexivity|constructor].
  - destruct (f x) as [y|] eqn:E; [|discriminate]. cbn [bnd] in H. apply IH in H as (r' & -> & F). exists (y :: r'). rewrite <- app_assoc. split; [reflexivity|]. now constructor.
Qed.
Lemma mapOpt_spec {A B} (f : A -> option B) l r : mapOpt f l = Some r -> Forall2 (fun x y => f x = Some y) l r.
Proof. intros H. apply mapOpt_aux in H as (r' & -> & F). exact F. Qed.
Lemma mapOpt_intro {A B} (f : A -> option B) l r : Forall2 (fun x y => f x = Some y) l r -> mapOpt f l = Some r.
Proof.
  intros H. unfold mapOpt. assert (G : forall acc, foldO (fun x acc => do y <- f x; Some (acc ++ [y])) l acc = Some (acc ++ r)).
  { induction H as [|x y l r E F IH]; intros acc; cbn [foldO]; [now rewrite app_nil_r|]. rewrite E. cbn [bnd]. rewrite IH, <- app_assoc. reflexivity. }
  exact (G []).
Qed.

(* the wave an addAmplitude call is about *)
Definition ampCallName (ms : list (option ampMeta)) : option str := match ms with Some m :: _ => Some (amName m) | _ => None end.

Lemma amp_success s ms s' : addAmplitude s ms = Some (s', true) ->
  exists n e w fx, ampCallName ms = Some n /\ m_find n (stParams s) = Some (e, w) /\ stAdded s' = upd2 (stAdded s) e w true /\
    stPars s' = (if fx : bool then fixWave n (stPars s) else stPars s) /\ stAcc s = true.
Proof.
  unfold addAmplitude. destruct (stAcc s); cbn [negb]; intros H; [|inversion H].
  destruct (mapOpt (fun m => m) ms) as [[|m0 ml]|] eqn:E; try discriminate H.
  apply mapOpt_spec in E. inversion E; subst. cbn [ampCallName].
  repeat (first [dcase H | progress cbn beta iota zeta in H]); try discriminate; inversion H; subst; cbn;
  repeat eexists; eauto; match goal with |- (if ?b then _ else _) = _ => instantiate (1 := b) end; reflexivity.
Qed.
Lemma amp_failure s ms s' : addAmplitude s ms = Some (s', false) -> stAdded s' = stAdded s /\ stPars s' = stPars s.
Proof.
  unfold addAmplitude. intros H.
  repeat (first [dcase H | progress cbn beta iota zeta in H]); try discriminate; inversion H; subst; cbn; split; reflexivity.
Qed.

(* ---- wave list ---- *)
Definition noWaves (s : state) : Prop := (forall e, stWaves s e = 0) /\ stParams s = [] /\ (forall e w, stAdded s e w = false).
Definition waveListOf (s : state) (ws : list waveIn) : Prop :=
  (forall e, stWaves s e = length (ofRefl e ws)) /\
  (forall e w, e < 2 -> w < stWaves s e -> exists x, nth_error (ofRefl e ws) w = Some x /\ stName s e w = wiName x /\ stThr s e w = wiThr x) /\
  (forall n e w, m_find n (stParams s) = Some (e, w) -> e < 2 /\ w < stWaves s e /\ stName s e w = n) /\
  (forall e w, e < 2 -> w < stWaves s e -> m_find (stName s e w) (stParams s) <> None).
Lemma upd2_same {A} (m : nat -> nat -> A) e w v : upd2 m e w v e w = v.
Proof. unfold upd2. now rewrite !Nat.eqb_refl. Qed.
Lemma upd2_cases {A} (m : nat -> nat -> A) e w v a b : upd2 m e w v a b = v /\ (a, b) = (e, w) \/ upd2 m e w v a b = m a b /\ (a, b) <> (e, w).
Proof. unfold upd2. destruct (Nat.eqb_spec a e), (Nat.eqb_spec b w); subst; cbn; [left; auto| | |]; right; split; auto; congruence. Qed.

Lemma readWaveList_spec s ws s' : noWaves s -> readWaveList s ws = Some s' ->
  waveListOf s' ws /\ (forall e w, stAdded s' e w = false) /\ (forall w, In w ws -> wiRefl w = (-1)%Z \/ wiRefl w = 1%Z).
Proof.
  intros (Hw & Hp & Ha) H. unfold readWaveList in H. destruct (forallb _ ws) eqn:Ef; [|discriminate].
  assert (Hrefl : forall w, In w ws -> wiRefl w = (-1)%Z \/ wiRefl w = 1%Z).
  { intros w Hin. rewrite forallb_forall in Ef. apply Ef in Hin. apply orb_true_iff in Hin as [K|K]; apply Z.eqb_eq in K; auto. }
  pose proof (readFold _ _ _ _ H) as K. destruct K as (Kw & _). cbn in Kw.
  set (I := fun (done : list (nat * nat)) (t : state) =>
     StronglySorted key_lt (stParams t) /\
     (forall e w, In (e, w) done -> exists x, nth_error (ofRefl e ws) w = Some x /\ stName t e w = wiName x /\ stThr t e w = wiThr x) /\
     (forall n e w, m_find n (stParams t) = Some (e, w) -> In (e, w) done /\ stName t e w = n) /\
     (forall e w, In (e, w) done -> m_find (stName t e w) (stParams t) <> None) /\ (forall e w, stAdded t e w = false)).
  eapply (foldO_ind _ I) with (d := []) in H.
  - cbn [app] in H. destruct H as (_ & H1 & H2 & H3 & H4). split; [|split; assumption]. split; [|split; [|split]].
    + intros e. rewrite Kw, Hw. reflexivity.
    + intros e w He Hlt. apply H1. apply loop2_In. rewrite Kw in Hlt. auto.
    + intros n e w Hf. apply H2 in Hf as [Hi Hn]. apply loop2_In in Hi as [? Hi]. rewrite Kw. auto.
    + intros e w He Hlt. apply H3. apply loop2_In. rewrite Kw in Hlt. auto.
  - clear. intros done [e w] t t' (S & H1 & H2 & H3 & H4) H. unfold readStep in H. destruct (nth_error (ofRefl e ws) w) as [x|] eqn:En; [|discriminate]. cbn [bnd] in H. inversion H; subst; clear H. unfold I; cbn.
    assert (HN : forall a b, In (a, b) (done ++ [(e, w)]) -> exists y, nth_error (ofRefl a ws) b = Some y /\ upd2 (stName t) e w (wiName x) a b = wiName y /\ upd2 (stThr t) e w (wiThr x) a b = wiThr y).
    { intros a b Hi. destruct (upd2_cases (stName t) e w (wiName x) a b) as [[E1 E]|[E1 E]], (upd2_cases (stThr t) e w (wiThr x) a b) as [[E2 E']|[E2 E']]; try contradiction; rewrite E1, E2.
      - inversion E; subst. eauto.
      - apply in_app_or in Hi as [Hi|[Hi|[]]]; [auto|]. congruence. }
    split.
    { unfold m_insert. destruct (m_find _ _); [exact S|]. now apply m_set_sorted. }
    split; [exact HN|]. split.
    { intros n a b Hf. assert (Hf' : m_find n (stParams t) = Some (a, b) \/ n = wiName x /\ (a, b) = (e, w)).
      { unfold m_insert in Hf. destruct (m_find (wiName x) (stParams t)); [auto|]. rewrite m_find_set in Hf by exact S. destruct (str_eqb n (wiName x)) eqn:Es; [|auto]. apply str_eqb_eq in Es. inversion Hf; auto. }
      destruct Hf' as [Hf'|[-> E]].
      - apply H2 in Hf' as [Hi Hn]. split; [apply in_or_app; auto|]. destruct (H1 _ _ Hi) as (y & Ey & Eyn & _). destruct (HN a b) as (z & Ez & Ezn & _); [apply in_or_app; auto|]. congruence.
      - inversion E; subst. split; [apply in_or_app; right; left; reflexivity|]. apply upd2_same. }
    split.
    { intros a b Hi. destruct (HN a b Hi) as (y & Ey & -> & _). unfold m_insert. destruct (m_find (wiName x) (stParams t)) eqn:Em.
      - apply in_app_or in Hi as [Hi|[Hi|[]]].
        + destruct (H1 _ _ Hi) as (z & Ez & Ezn & _). assert (z = y) by congruence. subst. rewrite <- Ezn. auto.
        + inversion Hi; subst. assert (x = y) by congruence. subst. congruence.
      - rewrite m_find_set by exact S. destruct (str_eqb (wiName y) (wiName x)) eqn:Es; [discriminate|]. apply in_app_or in Hi as [Hi|[Hi|[]]].
        + destruct (H1 _ _ Hi) as (z & Ez & Ezn & _). assert (z = y) by congruence. subst. rewrite <- Ezn. auto.
        + inversion Hi; subst. assert (x = y) by congruence. subst. rewrite str_eqb_refl in Es. discriminate. }
    intros a b. destruct (upd2_cases (stAdded t) e w false a b) as [[-> _]|[-> _]]; auto.
  - unfold I; cbn. rewrite Hp. cbn. split; [constructor|]. split; [intros ? ? []|]. split; [discriminate|]. split; [intros ? ? []|]. exact Ha.
Qed.

(* init reads the wave list only if no waves have been read before *)
Lemma init_after_waves s ws r m e : e < 2 -> 0 < stWaves s e -> init s ws r m = None.
Proof.
  intros He Hw. unfold init, readWaveList. destruct (forallb _ ws); [|reflexivity].
  match goal with |- bnd (foldO ?f ?l ?a) _ = _ => destruct (foldO f l a) as [s1|] eqn:E; [|reflexivity] end. exfalso.
  assert (Hi : In (e, length (ofRefl e ws)) (loop2 (fun e => stWaves s e + length (ofRefl e ws)))) by (apply loop2_In; lia).
  apply in_split in Hi as (l1 & l2 & El). rewrite El, foldO_app in E. destruct (foldO (readStep ws) l1 _) as [t|]; [|discriminate]. cbn [bnd foldO] in E.
  unfold readStep at 1 in E. replace (nth_error (ofRefl e ws) (length (ofRefl e ws))) with (@None waveIn) in E; [discriminate|].
  symmetry. apply nth_error_None. lia.
Qed.

Lemma ofRefl_all ws : (forall w, In w ws -> wiRefl w = (-1)%Z \/ wiRefl w = 1%Z) -> forall x, In x ws -> exists e, e < 2 /\ In x (ofRefl e ws).
Proof.
  intros Hr x Hx. destruct (Hr x Hx) as [E|E].
  - exists 0. split; [lia|]. apply filter_In. rewrite E. auto.
  - exists 1. split; [lia|]. apply filter_In. rewrite E. auto.
Qed.

Definition ampAdded (tr : list (scall * bool)) (n : str) : Prop := exists ms, In (SAmp ms, true) tr /\ ampCallName ms = Some n.
Definition setupInv (s : state) (tr : list (scall * bool)) : Prop :=
  (stNorm s = true -> stInit s = true) /\ (stAcc s = true -> stNorm s = true) /\
  ((stInit s = false /\ noWaves s /\ (forall ms, ~ In (SAmp ms, true) tr) /\ (forall ws r m, ~ In (SInit ws r m, true) tr)) \/
   (stInit s = true /\ exists ws r m, In (SInit ws r m, true) tr /\ (forall ws' r' m', In (SInit ws' r' m', true) tr -> ws' = ws /\ r' = r /\ m' = m) /\
      waveListOf s ws /\ (forall w, In w ws -> wiRefl w = (-1)%Z \/ wiRefl w = 1%Z) /\ ws <> [] /\
      forall e w, stAdded s e w = true <-> exists n, ampAdded tr n /\ m_find n (stParams s) = Some (e, w))).

Lemma ampAdded_other tr c b n : (forall ms, (c, b) <> (SAmp ms, true)) -> (ampAdded (tr ++ [(c, b)]) n <-> ampAdded tr n).
Proof.
  intros Hc. unfold ampAdded. split; intros (ms & Hi & Hn); exists ms; (split; [|exact Hn]).
  - apply in_app_or in Hi as [Hi|[Hi|[]]]; [exact Hi|]. destruct (Hc _ Hi).
  - apply in_or_app. now left.
Qed.

Lemma setup_inv h s tr : runs h = Some (s, tr) -> setupInv s tr.
Proof.
  revert h s tr. apply runs_inv.
  - split; [discriminate|]. split; [discriminate|]. left. split; [reflexivity|]. split; [repeat split; reflexivity|]. split; [intros ms []|intros ? ? ? []].
  - intros s tr c s' b (I1 & I2 & I3) H. pose proof (exec_flags _ _ _ _ H) as (F1 & F2 & F3).
    (* calls that touch neither the wave list nor the list of added amplitudes *)
    assert (Keep : isInit c = false -> (forall ms, (c, b) <> (SAmp ms, true)) -> stWaves s' = stWaves s -> stName s' = stName s -> stThr s' = stThr s -> stAdded s' = stAdded s -> stParams s' = stParams s -> setupInv s' (tr ++ [(c, b)])).
    { intros Ni Na K1 K2 K3 K4 K5. rewrite Ni in F1. cbn [andb] in F1. rewrite orb_false_r in F1. split; [|split].
      - intros X. rewrite F2 in X. rewrite F1. apply orb_true_iff in X as [X|X]; [auto|]. apply andb_true_iff in X as [Xc Xb]. destruct c; try discriminate Xc. apply norm_keeps in H. decompose [and] H. congruence.
      - intros X. rewrite F3 in X. rewrite F2. apply orb_true_iff in X as [X|X]; [rewrite I2 by exact X; reflexivity|]. apply andb_true_iff in X as [Xc Xb]. destruct c; try discriminate Xc. apply exec_acc in H as [m' H]. apply acc_keeps in H. decompose [and] H. apply orb_true_iff. left. congruence.
      - destruct I3 as [(J1 & (J2 & J3 & J4) & J5 & J8)|(J1 & ws & r & m & J2 & J3 & J4 & J5 & J6 & J7)]; [left|right]; rewrite F1.
        + split; [exact J1|]. split; [unfold noWaves; rewrite K1, K4, K5; auto|]. split.
          * intros ms Hi. apply in_app_or in Hi as [Hi|[Hi|[]]]; [eapply J5; eauto|]. exact (Na _ Hi).
          * intros ws r m Hi. apply in_app_or in Hi as [Hi|[Hi|[]]]; [eapply J8; eauto|]. inversion Hi; subst. discriminate.
        + split; [exact J1|]. exists ws, r, m. split; [apply in_or_app; auto|]. split; [|split; [|split; [exact J5|split; [exact J6|]]]].
          * intros ws' r' m' Hi. apply in_app_or in Hi as [Hi|[Hi|[]]]; [auto|]. inversion Hi; subst; discriminate.
          * unfold waveListOf. rewrite K1, K2, K3, K5. exact J4.
          * intros e w. rewrite K4, K5, J7. split; intros (n & A & B); exists n; (split; [|exact B]); [apply ampAdded_other; auto|apply ampAdded_other in A; auto]. }
    destruct c.
    + (* init *)
      destruct I3 as [(J1 & J2 & J5 & J8)|(J1 & ws' & r & m & J2 & J3 & J4 & J5 & J6 & J7)].
      2:{ exfalso. destruct ws' as [|x l]; [congruence|]. destruct (ofRefl_all _ J5 x (or_introl eq_refl)) as (e & He & Hx).
          cbn [exec] in H. rewrite (init_after_waves s ws rank mass e He) in H; [discriminate|]. rewrite (proj1 J4). destruct (ofRefl e (x :: l)); [destruct Hx|cbn; lia]. }
      assert (Nn : stNorm s = false) by (destruct (stNorm s) eqn:E; [rewrite (I1 eq_refl) in J1; discriminate|reflexivity]).
      assert (Na : stAcc s = false) by (destruct (stAcc s) eqn:E; [rewrite (I2 eq_refl) in Nn; discriminate|reflexivity]).
      cbn [exec] in H. cbn [isInit isNorm isAcc andb] in F1, F2, F3. rewrite orb_false_r in F2, F3. rewrite J1 in F1. cbn in F1. rewrite Nn in F2. rewrite Na in F3.
      split; [congruence|]. split; [congruence|].
      unfold init in H. destruct (readWaveList s ws) as [s1|] eqn:Er; [|discriminate]. cbn [bnd] in H.
      destruct (readWaveList_spec _ _ _ J2 Er) as (W & A & Rf).
      assert (Tr : forall ms, ~ In (SAmp ms, true) (tr ++ [(SInit ws rank mass, b)])). { intros ms Hi. apply in_app_or in Hi as [Hi|[Hi|[]]]; [eapply J5; eauto|]. inversion Hi. }
      destruct (Nat.eqb_spec (stWaves s1 0 + stWaves s1 1) 0) as [Z0|Z0].
      * injection H as <- <-. left. split; [exact F1|]. split; [|split; [exact Tr|intros ws' r' m' Hi; apply in_app_or in Hi as [Hi|[Hi|[]]]; [exact (J8 _ _ _ Hi)|inversion Hi]]].
        assert (Hnil : ws = []). { destruct ws as [|x l]; [reflexivity|]. destruct (ofRefl_all _ Rf x (or_introl eq_refl)) as (e & He & Hx). pose proof (proj1 W e) as We. destruct (ofRefl e (x :: l)); [destruct Hx|]. cbn in We. destruct e as [|[|e]]; lia. }
        subst ws. split; [intros e; rewrite (proj1 W); reflexivity|]. split; [|exact A].
        unfold readWaveList in Er. cbn in Er. rewrite !(proj1 J2) in Er. cbn in Er. inversion Er; subst. apply J2.
      * destruct (buildParDataStruct _ _ _ _) as [d|]; [|discriminate]. cbn [bnd] in H. injection H as <- <-. right. split; [exact F1|].
        exists ws, rank, mass. split; [apply in_or_app; right; left; reflexivity|]. split.
        { intros ws' r' m' Hi. apply in_app_or in Hi as [Hi|[Hi|[]]]; [|now inversion Hi].
          exfalso. exact (J8 _ _ _ Hi). }
        split; [unfold waveListOf; cbn; exact W|]. split; [exact Rf|]. split.
        { intros ->. apply Z0. rewrite !(proj1 W). reflexivity. }
        intros e w. cbn. rewrite A. split; [discriminate|]. intros (n & (ms & Hi & _) & _). exfalso. exact (Tr _ Hi).
    + cbn [exec] in H. pose proof H as H'. apply norm_keeps in H'. decompose [and] H'. apply Keep; auto. discriminate.
    + pose proof H as H'. apply exec_acc in H' as [m' H']. apply acc_keeps in H'. decompose [and] H'. apply Keep; auto. discriminate.
    + cbn [exec] in H. pose proof H as H'. apply amp_keeps in H'. destruct H' as (K1 & K2 & K3 & K5 & _).
      destruct b; [|apply Keep; auto; [discriminate|]; now apply amp_failure in H].
      apply amp_success in H as (n & e & w & fx & Hn & Hf & Ha & _ & Hacc). specialize (I2 Hacc). specialize (I1 I2).
      cbn [isInit isNorm isAcc andb] in F1, F2, F3. rewrite orb_false_r in F1, F2, F3. split; [congruence|]. split; [congruence|]. right. split; [congruence|].
      destruct I3 as [(J1 & _)|(J1 & ws & r & m & J2 & J3 & J4 & J5 & J6 & J7)]; [congruence|].
      exists ws, r, m. split; [apply in_or_app; auto|]. split; [|split; [|split; [exact J5|split; [exact J6|]]]].
      * intros ws' r' m' Hi. apply in_app_or in Hi as [Hi|[Hi|[]]]; [auto|]. inversion Hi.
      * unfold waveListOf. rewrite K1, K2, K3, K5. exact J4.
      * intros a c. rewrite K5, Ha. destruct (upd2_cases (stAdded s) e w true a c) as [[-> E]|[-> E]].
        -- inversion E; subst. split; [|auto]. intros _. exists n. split; [|exact Hf]. exists ms. split; [apply in_or_app; right; left; reflexivity|exact Hn].
        -- rewrite J7. split; intros (k & (ms' & A & B) & D); exists k; (split; [|exact D]).
           ++ exists ms'. split; [apply in_or_app; auto|exact B].
           ++ apply in_app_or in A as [A|[A|[]]]; [exists ms'; auto|]. inversion A; subst. assert (k = n) by congruence. subst. congruence.
    + cbn [exec] in H. pose proof H as H'. apply finish_keeps in H'. decompose [and] H'. apply Keep; auto. discriminate.
    + cbn [exec] in H. injection H as H'. unfold setOnTheFlyBinning in H'. destruct (binFiles _ _ _). inversion H'; subst. apply Keep; auto. discriminate.
    + inversion H; subst. apply Keep; auto. discriminate.
Qed.
