(* C41: which parameters are fixed after any history of set-up calls, and the counter of them *)
From Coq Require Import String Ascii List ZArith Reals Bool Lia Lra Sorting.Sorted.
From Coquelicot Require Import Complex.
From Verif Require Import ArrayModel PathModel StrModel CGBoxModel FitResultModel FitErrModel FitErrProps LikParModel LikParProofs LikParProps AmpIntModel AmpIntProps LikModel LikGradProps LikHessProps
  LikSetModel LikSetProofs LikSetProps LikBinProofs LikCovProps.
Import ListNotations.
Open Scope list_scope. Open Scope nat_scope.

(* ---- specification ---- *)
(* during history h an addAmplitude call for wave n succeeded at a moment when the accepted
   integral of the wave vanished, and read decay amplitudes that vanish in every event *)
Definition vanishes (s1 s2 : state) (ms : list (option ampMeta)) (n : str) : Prop :=
  exec s1 (SAmp ms) = Some (s2, true) /\ ampCallName ms = Some n /\
  exists e w, m_find n (stParams s1) = Some (e, w) /\ stAccM s1 e w e w = RtoC 0 /\ forall k, k < stEvts s2 -> stDec s2 e k w = RtoC 0.
Definition vanished (h : list scall) (n : str) : Prop :=
  exists h1 ms h2 s1 tr1 s2, h = h1 ++ SAmp ms :: h2 /\ runs h1 = Some (s1, tr1) /\ vanishes s1 s2 ms n.
(* the parameter is above the mass of the bin *)
Definition aboveThreshold (mass : R) (p : fitParameter) : Prop := fpThr p <> 0%R /\ (mass <= fpThr p)%R.

Lemma vanished_snoc h c s tr s' b n : runs h = Some (s, tr) -> exec s c = Some (s', b) ->
  (vanished (h ++ [c]) n <-> vanished h n \/ exists ms, c = SAmp ms /\ b = true /\ vanishes s s' ms n).
Proof.
  intros H E. split.
  - intros (h1 & ms & h2 & s1 & tr1 & s2 & Eh & Hr & V). destruct h2 as [|x h2 _] using rev_ind.
    + right. apply app_inj_tail in Eh as [<- ->]. rewrite H in Hr. injection Hr as <- <-. exists ms. split; [reflexivity|]. destruct V as [V1 V2]. rewrite V1 in E. injection E as <- <-. split; [reflexivity|]. split; [exact V1|exact V2].
    + left. rewrite app_comm_cons, app_assoc in Eh. apply app_inj_tail in Eh as [-> _]. exists h1, ms, h2, s1, tr1, s2. auto.
  - intros [(h1 & ms & h2 & s1 & tr1 & s2 & -> & Hr & V)|(ms & -> & -> & V)].
    + exists h1, ms, (h2 ++ [c]), s1, tr1, s2. rewrite <- app_assoc. auto.
    + exists h, ms, [], s, tr, s'. auto.
Qed.

(* addAmplitude fixes the parameters of the wave exactly if it vanishes *)
Lemma amp_fixes h s tr ms s' : runs h = Some (s, tr) -> addAmplitude s ms = Some (s', true) ->
  exists n (fx : bool), ampCallName ms = Some n /\ stPars s' = (if fx then fixWave n (stPars s) else stPars s) /\ (fx = true <-> vanishes s s' ms n).
Proof.
  intros Hr H. pose proof (runs_sorted _ _ _ Hr) as S. pose proof (amp_full _ _ _ H) as (m0 & ml & e & w & fs & total & amps & dec & fx & -> & Hn & Hf & Hc & Nz & He & Ha & Hcp & D & N & Fs & P & _).
  exists (amName m0), fx. split; [reflexivity|]. split; [exact P|].
  apply countEvents_spec in Hc as (S1 & P1 & _ & Ht & _); [|exact S]. pose proof (readAmps_length _ _ _ _ Ha) as La.
  rewrite (wantCount_same _ _ _ _ P1) in La. rewrite <- Ht in La.
  apply copyAmps_spec in Hcp as (C1 & C2 & _ & _ & C5). rewrite C5. cbn [plus] in C1. unfold vanishes. cbn [exec]. split.
  - intros [F G]. split; [exact H|]. split; [reflexivity|]. exists e, w. split; [exact Hf|]. split; [now apply Ceqb_eq|].
    intros k Hk. rewrite D. destruct (nth_error amps k) as [a|] eqn:Ek; [|apply nth_error_None in Ek; lia]. rewrite (C1 k a Ek). eauto.
  - intros (_ & _ & e' & w' & Hf' & Z0 & Zk). rewrite Hf in Hf'. injection Hf' as <- <-. split; [now apply Ceqb_eq|].
    intros i a Hi. rewrite <- (C1 i a Hi), <- D. apply Zk. rewrite N, <- La. apply nth_error_Some. congruence.
Qed.

Definition sameButFixed (p0 p : fitParameter) : Prop := fpWave p = fpWave p0 /\ fpRank p = fpRank p0 /\ fpThr p = fpThr p0 /\ fpReal p = fpReal p0.
Definition parInv (h : list scall) (s : state) (tr : list (scall * bool)) : Prop :=
  (stInit s = false -> stPars s = [] /\ stFixed s = 0 /\ (forall n, ~ vanished h n)) /\
  (stInit s = true -> exists ws r mass names thr d, In (SInit ws r mass, true) tr /\ buildParDataStruct (Shape (stRank s) (stWaves s)) names thr mass = Some d /\
     stMap s = pdMap d /\ stFixed s = pdFixed d /\
     Forall2 (fun p0 p => sameButFixed p0 p /\ (fpFixed p = true <-> fpFixed p0 = true \/ vanished h (fpWave p))) (pdPars d) (stPars s)).

Lemma Forall2_impl2 {A B} (R Q : A -> B -> Prop) l m : (forall x y, R x y -> Q x y) -> Forall2 R l m -> Forall2 Q l m.
Proof. intros H. induction 1; constructor; auto. Qed.
Lemma Forall2_same {A} (R : A -> A -> Prop) l : (forall x, In x l -> R x x) -> Forall2 R l l.
Proof. induction l; intros H; constructor; [apply H; now left|]. apply IHl. intros; apply H; now right. Qed.

Lemma par_inv h : forall s tr, runs h = Some (s, tr) -> parInv h s tr.
Proof.
  induction h as [|c h IH] using rev_ind; intros s tr H.
  - injection H as <- <-. split; [intros _|discriminate]. split; [reflexivity|]. split; [reflexivity|]. intros n (h1 & ms & h2 & ? & ? & ? & E & _). destruct h1; discriminate.
  - rewrite runs_snoc in H. destruct (runs h) as [[s0 t0]|] eqn:Er; [|discriminate]. cbn [bnd fst snd] in H.
    destruct (exec s0 c) as [[s1 b]|] eqn:E; [|discriminate]. cbn [bnd fst snd] in H. injection H as <- <-.
    specialize (IH s0 t0 eq_refl). pose proof (fun n => vanished_snoc h c s0 t0 s1 b n Er E) as VS. pose proof (setup_inv _ _ _ Er) as SI.
    (* calls that leave the parameters alone *)
    assert (Keep : (forall ms, (c, b) <> (SAmp ms, true)) -> stInit s1 = stInit s0 -> stRank s1 = stRank s0 -> stWaves s1 = stWaves s0 -> stMap s1 = stMap s0 -> stFixed s1 = stFixed s0 -> stPars s1 = stPars s0 -> parInv (h ++ [c]) s1 (t0 ++ [(c, b)])).
    { intros Na K1 K2 K3 K4 K5 K6. assert (V : forall n, vanished (h ++ [c]) n <-> vanished h n).
      { intros n. rewrite VS. split; [intros [X|(ms & -> & -> & _)]; [exact X|exfalso; eapply Na; reflexivity]|auto]. }
      destruct IH as [I1 I2]. split; rewrite K1; intros X.
      - destruct (I1 X) as (A1 & A2 & A3). rewrite K5, K6. split; [exact A1|]. split; [exact A2|]. intros n. rewrite V. apply A3.
      - destruct (I2 X) as (ws & r & mass & names & thr & d & A1 & A2 & A3 & A4 & A5). exists ws, r, mass, names, thr, d. rewrite K2, K3, K4, K5, K6.
        split; [apply in_or_app; now left|]. split; [exact A2|]. split; [exact A3|]. split; [exact A4|]. revert A5. apply Forall2_impl2. intros p0 p [Q1 Q2]. split; [exact Q1|]. rewrite V. exact Q2. }
    destruct c; cbn [exec] in E.
    + (* init *)
      destruct SI as (_ & _ & [(J1 & J2 & _)|(J1 & ws' & r & m & _ & _ & J4 & J5 & J6 & _)]).
      2:{ exfalso. destruct ws' as [|x l]; [congruence|]. destruct (ofRefl_all _ J5 x (or_introl eq_refl)) as (e & He & Hx).
          rewrite (init_after_waves s0 ws rank mass e He) in E; [discriminate|]. rewrite (proj1 J4). destruct (ofRefl e (x :: l)); [destruct Hx|cbn; lia]. }
      destruct IH as [I1 _]. destruct (I1 J1) as (A1 & A2 & A3).
      assert (V : forall n, ~ vanished (h ++ [SInit ws rank mass]) n). { intros n. rewrite VS. intros [X|(ms & X & _)]; [exact (A3 n X)|discriminate]. }
      pose proof (init_flags _ _ _ _ _ _ E) as (F1 & _). rewrite J1 in F1. cbn in F1.
      unfold init in E. destruct (readWaveList s0 ws) as [sr|] eqn:Erl; [|discriminate]. cbn [bnd] in E.
      assert (Kr : stPars sr = stPars s0 /\ stFixed sr = stFixed s0).
      { unfold readWaveList in Erl. destruct (forallb _ ws); [|discriminate]. apply readFold in Erl. cbn in Erl. decompose [and] Erl. split; congruence. }
      destruct (_ =? 0).
      * injection E as <- <-. split; [intros _|congruence]. destruct Kr as [-> ->]. auto.
      * destruct (buildParDataStruct _ _ _ _) as [d|] eqn:Eb; [|discriminate]. cbn [bnd] in E. injection E as <- <-. split; [discriminate|]. intros _.
        exists ws, rank, mass, (stName sr), (stThr sr), d. cbn [stRank stWaves stMap stFixed stPars]. split; [apply in_or_app; right; now left|].
        split; [exact Eb|]. split; [reflexivity|]. split; [reflexivity|]. apply Forall2_same. intros p _. split; [repeat split|]. split; [auto|]. intros [X|X]; [exact X|destruct (V _ X)].
    + apply norm_keeps in E. decompose [and] E. apply Keep; try congruence; discriminate.
    + pose proof (exec_acc s0 m over s1 b E) as [m' E']. apply acc_keeps in E'. decompose [and] E'. apply Keep; try congruence; discriminate.
    + (* addAmplitude *)
      pose proof (amp_keeps _ _ _ _ E) as K. decompose [and] K. clear K. destruct b.
      2:{ pose proof (amp_failure _ _ _ E) as [_ Kp]. apply Keep; try congruence; discriminate. }
      destruct (amp_fixes h s0 t0 ms s1 Er E) as (n & fx & N & P & Fx). destruct IH as [I1 I2].
      assert (Ai : stInit s0 = true).
      { destruct SI as (U1 & U2 & _). pose proof (amp_success _ _ _ E) as (? & ? & ? & ? & _ & _ & _ & _ & Ac). auto. }
      split; [congruence|]. intros _. destruct (I2 Ai) as (ws & r & mass & names & thr & d & A1 & A2 & A3 & A4 & A5). exists ws, r, mass, names, thr, d.
      split; [apply in_or_app; now left|]. split; [congruence|]. split; [congruence|]. split; [congruence|]. rewrite P.
      assert (V : forall g, vanished (h ++ [SAmp ms]) g <-> vanished h g \/ (g = n /\ fx = true)).
      { intros g. rewrite VS. rewrite Fx. split; intros [X|X]; auto; right.
        - destruct X as (ms' & X & _ & Y). injection X as <-. assert (g = n) by (destruct Y as (_ & Y & _); congruence). subst. auto.
        - destruct X as [-> X]. exists ms. auto. }
      destruct fx.
      * unfold fixWave. clear - A5 V. induction A5 as [|p0 p l l' [Q1 Q2] A IHl]; [constructor|]. cbn [map]. constructor; [|exact IHl].
        destruct (str_eqb (fpWave p) n) eqn:Es.
        -- apply str_eqb_eq in Es. split; [destruct Q1 as (? & ? & ? & ?); repeat split; assumption|]. cbn [fpFixed fpWave]. rewrite V. tauto.
        -- split; [exact Q1|]. rewrite V, Q2. split; [tauto|]. intros [X|[X|[X _]]]; auto. subst n. assert (str_eqb (fpWave p) (fpWave p) = true) by now apply str_eqb_eq. congruence.
      * revert A5. apply Forall2_impl2. intros p0 p [Q1 Q2]. split; [exact Q1|]. rewrite V, Q2. intuition congruence.
    + apply finish_keeps in E. decompose [and] E. apply Keep; try congruence; discriminate.
    + injection E as E. unfold setOnTheFlyBinning in E. destruct (binFiles _ _ _). injection E as <- <-. apply Keep; try reflexivity; discriminate.
    + injection E as <- <-. apply Keep; try reflexivity; discriminate.
Qed.

Lemma nth_Forall2 {A B} (R : A -> B -> Prop) l m : Forall2 R l m -> forall i y, nth_error m i = Some y -> exists x, nth_error l i = Some x /\ R x y.
Proof. induction 1 as [|x y l m r F IH]; intros [|i] z E; cbn in *; try discriminate; [injection E as <-; eauto|auto]. Qed.
Lemma nth_Forall2' {A B} (R : A -> B -> Prop) l m : Forall2 R l m -> forall i x, nth_error l i = Some x -> exists y, nth_error m i = Some y /\ R x y.
Proof. induction 1 as [|x y l m r F IH]; intros [|i] z E; cbn in *; try discriminate; [injection E as <-; eauto|auto]. Qed.

(* a parameter made by init is fixed exactly above its threshold *)
Lemma init_fixed names thr mass sh d p : buildParDataStruct sh names thr mass = Some d -> In p (pdPars d) -> (fpFixed p = true <-> aboveThreshold mass p).
Proof.
  intros E Hp. destruct (build_spec names thr mass sh) as (d' & E' & _ & Hps & _). assert (d' = d) by congruence. subst d'. rewrite Hps in Hp. unfold aboveThreshold.
  apply in_app_or in Hp as [Hp|[<-|[]]]; [|cbn [fpFixed fpThr]; split; [discriminate|intros [X _]; now destruct X]]. apply in_map_iff in Hp as (c & <- & _). unfold parOf, isFixed. cbn [fpFixed fpThr].
  destruct (Req_EM_T (thr (rf (fst c)) (wv (fst c))) 0), (Rle_dec mass (thr (rf (fst c)) (wv (fst c)))); intuition congruence.
Qed.

(* C41: after any history a parameter is fixed exactly if the bin is below its threshold or
   its wave was added with amplitudes and accepted integral that vanish *)
Theorem C41_what_is_fixed : forall h s tr ws r mass i p, runs h = Some (s, tr) -> In (SInit ws r mass, true) tr -> nth_error (stPars s) i = Some p ->
  (fpFixed p = true <-> aboveThreshold mass p \/ vanished h (fpWave p)).
Proof.
  intros h s tr ws r mass i p H Hi Hp. pose proof (par_inv _ _ _ H) as [_ I2]. pose proof (setup_inv _ _ _ H) as (_ & _ & [(_ & _ & _ & J)|(J1 & ws0 & r0 & m0 & J2 & J3 & _)]).
  - destruct (J _ _ _ Hi).
  - destruct (I2 J1) as (ws' & r' & mass' & names & thr & d & A1 & A2 & A3 & A4 & A5). destruct (J3 _ _ _ Hi) as (_ & _ & E1). destruct (J3 _ _ _ A1) as (_ & _ & E2). assert (mass' = mass) by congruence. clear E1 E2. subst mass'.
    destruct (nth_Forall2 _ _ _ A5 _ _ Hp) as (p0 & Hp0 & (Q1 & Q3 & Q4 & Q5) & Q2). rewrite Q2.
    rewrite (init_fixed _ _ _ _ _ p0 A2) by (eapply nth_error_In; eauto). unfold aboveThreshold. rewrite Q4. tauto.
Qed.

Lemma F2_cons {A B} (R : A -> B -> Prop) x y l m : Forall2 R (x :: l) (y :: m) -> R x y /\ Forall2 R l m.
Proof. intros H. inversion H; subst. auto. Qed.
Lemma count_le (l m : list fitParameter) : Forall2 (fun p0 p => fpFixed p0 = true -> fpFixed p = true) l m ->
  length (filter fpFixed l) <= length (filter fpFixed m) /\ (length (filter fpFixed l) = length (filter fpFixed m) <-> Forall2 (fun p0 p => fpFixed p0 = fpFixed p) l m).
Proof.
  induction 1 as [|p0 p l m E F [I1 I2]]; [split; [lia|split; auto]|]. cbn [filter]. destruct (fpFixed p0) eqn:E0; [rewrite (E eq_refl)|destruct (fpFixed p) eqn:E1]; cbn [length].
  - split; [lia|]. split; intros X; [constructor; [rewrite E0, (E eq_refl); reflexivity|apply I2; lia]|]. apply F2_cons in X as [_ X]. apply I2 in X. lia.
  - split; [lia|]. split; [lia|]. intros X. apply F2_cons in X as [X _]. congruence.
  - split; [lia|]. split; intros X; [constructor; [congruence|apply I2; lia]|]. apply F2_cons in X as [_ X]. apply I2 in X. lia.
Qed.

(* C41: the counter never exceeds the number of fixed parameters, and it is right exactly as
   long as no wave below threshold has been found to vanish *)
Theorem C41_counter_history : forall h s tr ws r mass, runs h = Some (s, tr) -> In (SInit ws r mass, true) tr ->
  stFixed s <= numFixed (stPars s) /\
  (stFixed s = numFixed (stPars s) <-> forall p, In p (stPars s) -> vanished h (fpWave p) -> aboveThreshold mass p).
Proof.
  intros h s tr ws r mass H Hi. pose proof (par_inv _ _ _ H) as [_ I2]. pose proof (setup_inv _ _ _ H) as (_ & _ & [(_ & _ & _ & J)|(J1 & ws0 & r0 & m0 & J2 & J3 & _)]).
  - destruct (J _ _ _ Hi).
  - destruct (I2 J1) as (ws' & r' & mass' & names & thr & d & A1 & A2 & A3 & A4 & A5). destruct (J3 _ _ _ Hi) as (_ & _ & E1). destruct (J3 _ _ _ A1) as (_ & _ & E2). assert (mass' = mass) by congruence. clear E1 E2. subst mass'.
    assert (B : Forall2 (fun p0 p => fpFixed p0 = true -> fpFixed p = true) (pdPars d) (stPars s)) by (revert A5; apply Forall2_impl2; intros p0 p [_ Q]; tauto).
    apply count_le in B as [B1 B2]. rewrite A4, (C41_counter_after_init _ _ _ _ _ A2). unfold numFixed. split; [exact B1|]. rewrite B2.
    assert (A0 : forall p0, In p0 (pdPars d) -> fpFixed p0 = true <-> aboveThreshold mass p0) by (intros p0; now apply (init_fixed _ _ _ _ _ _ A2)).
    clear - A5 A0. induction A5 as [|p0 p l l' [(Q1 & Q3 & Q4 & Q5) Q2] A IHl]; [split; [intros _ p []|constructor]|].
    assert (T : aboveThreshold mass p <-> fpFixed p0 = true) by (rewrite (A0 p0 (or_introl eq_refl)); unfold aboveThreshold; rewrite Q4; tauto).
    specialize (IHl (fun q Hq => A0 q (or_intror Hq))). split.
    + intros X. apply F2_cons in X as [X Y]. intros q [<-|Hq] V; [|apply IHl; assumption]. apply T. rewrite X. apply Q2. now right.
    + intros X. constructor; [|apply IHl; intros q Hq; apply X; now right].
      destruct (fpFixed p) eqn:Ep; [|destruct (fpFixed p0); [|reflexivity]; symmetry; apply Q2; now left].
      assert (Y : fpFixed p0 = true \/ vanished h (fpWave p)) by now apply Q2. destruct Y as [Y|Y]; [exact Y|]. apply T. apply (X p); [now left|exact Y].
Qed.

(* C41: the covariance matrix exists after exactly the histories in which the counter is right *)
Theorem C41_covariance_history : forall h s tr ws r mass invert hess, runs h = Some (s, tr) -> In (SInit ws r mass, true) tr -> inverts invert ->
  (forall m, covarianceMatrix invert (stPars s) (stFixed s) hess = Some m ->
     (forall i j, isFixedPar (stPars s) i = true \/ isFixedPar (stPars s) j = true -> snd m i j = 0%R) /\
     forall i j, In i (freePars (stPars s)) -> In j (freePars (stPars s)) -> rsumN (fun k => snd m i k * hess k j)%R (length (stPars s)) = kron i j) /\
  ((exists p, In p (stPars s) /\ vanished h (fpWave p) /\ ~ aboveThreshold mass p) -> covarianceMatrix invert (stPars s) (stFixed s) hess = None).
Proof.
  intros h s tr ws r mass invert hess H Hi Hinv. destruct (C41_counter_history _ _ _ _ _ _ H Hi) as [Le Eq].
  split.
  - intros m Hm. destruct (Nat.eq_dec (stFixed s) (numFixed (stPars s))) as [E|E]; [|rewrite C41_no_covariance in Hm by (auto; lia); discriminate].
    rewrite E in Hm. destruct (C41_covariance _ _ _ _ Hinv Hm) as (_ & X & Y). split; assumption.
  - intros (p & Hp & V & T). apply C41_no_covariance; [exact Hinv|]. assert (stFixed s <> numFixed (stPars s)) by (intros X; apply T; exact (proj1 Eq X p Hp V)). lia.
Qed.

(* C38/C41: in every state a history of calls reaches, the parameter map is the one built by
   init and the two parts of every amplitude are fixed together *)
Theorem C41_parts_fixed_together : forall h s tr ws r mass tot pr width, runs h = Some (s, tr) -> In (SInit ws r mass, true) tr ->
  setUp (toLik s tot pr width) /\ pairsFixed (toLik s tot pr width).
Proof.
  intros h s tr ws r mass tot pr width H Hi. pose proof (par_inv _ _ _ H) as [_ I2]. pose proof (setup_inv _ _ _ H) as (_ & _ & [(_ & _ & _ & J)|(J1 & _)]).
  - destruct (J _ _ _ Hi).
  - destruct (I2 J1) as (ws' & r' & mass' & names & thr & d & A1 & A2 & A3 & A4 & A5). split; [exists names, thr, mass', d; split; [exact A2|exact A3]|].
    destruct (build_spec names thr mass' (Shape (stRank s) (stWaves s))) as (d' & E' & G & Hp & _). assert (d' = d) by congruence. subst d'. split.
    + cbn [toLik lkPars lkShape]. replace (length (stPars s)) with (length (pdPars d)) by (clear - A5; induction A5; cbn; congruence).
      rewrite Hp, app_length, map_length, nmbPars_comps. cbn [length]. lia.
    + cbn [toLik lkShape lkMap]. intros t p q Ht Hm. rewrite A3 in Hm. destruct G as [G1 G2]. set (L := loopWaves (Shape (stRank s) (stWaves s))) in *.
      assert (Inv : forall b j, (if b : bool then fst else snd) (pdMap d t) = Z.of_nat j -> nth_error (comps L) j = Some (t, b)).
      { intros b j Hb. destruct (in_dec comp_eq_dec (t, b) (comps L)) as [Hi'|Hi'].
        - apply comps_index in Hi' as (i & Ei & _). rewrite (G1 _ _ _ Ei) in Hb. assert (i = j) by lia. now subst.
        - rewrite (G2 t b Ht Hi') in Hb. lia. }
      assert (P : forall b j, nth_error (comps L) j = Some (t, b) -> nth_error (pdPars d) j = Some (parOf names thr mass' (t, b))).
      { intros b j Hj. rewrite Hp, nth_error_app1 by (rewrite map_length; apply nth_error_Some; congruence). now rewrite nth_error_map, Hj. }
      pose proof (P true p (Inv true p ltac:(rewrite Hm; reflexivity))) as B1. pose proof (P false q (Inv false q ltac:(rewrite Hm; reflexivity))) as B2.
      unfold fixedPar. cbn [toLik lkPars]. destruct (nth_Forall2' _ _ _ A5 _ _ B1) as (p1 & N1 & (W1 & _) & F1). destruct (nth_Forall2' _ _ _ A5 _ _ B2) as (p2 & N2 & (W2 & _) & F2).
      rewrite N1, N2. rewrite W1 in F1. rewrite W2 in F2. cbn [parOf fpWave fpFixed fst] in F1, F2.
      destruct (fpFixed p1), (fpFixed p2); try reflexivity; [symmetry; apply F2, F1; reflexivity|apply F1, F2; reflexivity].
Qed.

(* C41: the example of a wave whose amplitudes vanish: the counter misses it *)
Theorem C41_counter_refuted : exists h s tr, runs h = Some (s, tr) /\ (forall c b, In (c, b) tr -> b = true) /\ stFixed s = 0 /\ numFixed (stPars s) = 1 /\
  forall invert hess, inverts invert -> covarianceMatrix invert (stPars s) (stFixed s) hess = None.
Proof.
  destruct (runs_hA (RtoC 0) (RtoC 0)) as (s & R & E & _ & P & _); [right; split; reflexivity|].
  assert (F0 : stFixed s = 0). { cbn [exec] in E. apply amp_keeps in E. decompose [and] E. rewrite H4. exact dA_fixed. }
  rewrite Czero_true in P by reflexivity. cbn [andb] in P. rewrite dA_pars in P.
  assert (N : numFixed (stPars s) = 1) by (rewrite P; reflexivity).
  exists (hA (RtoC 0) (RtoC 0)), s, (okAll (hA (RtoC 0) (RtoC 0))). split; [exact R|]. split.
  - intros c b Hi. unfold okAll in Hi. apply in_map_iff in Hi as (x & X & _). now injection X as _ <-.
  - split; [exact F0|]. split; [exact N|]. intros invert hess Hinv. apply C41_no_covariance; [exact Hinv|]. rewrite F0, N. lia.
Qed.
