(* C68: the integral matrices the likelihood holds and hands out; also C61 (setWaveNames) *)
From Coq Require Import String Ascii List ZArith Reals Bool Lia Lra.
From Coquelicot Require Import Complex.
From Verif Require Import ArrayModel PathModel StrModel CGBoxModel ParticleModel AmpIntModel LikParModel LikParProofs LikModel LikSetModel LikSetProofs LikSetProps LikNormProps LikScaleProps LikSetRef.
Import ListNotations.
Open Scope list_scope. Open Scope nat_scope.

(* ---- specification ---- *)
(* the waves in the order of the matrices handed out: first all waves of reflectivity -1, then all of +1, each group in the order of
   the wave list *)
Definition waveOrder (ws : list waveIn) : list waveIn :=
  filter (fun w => (wiRefl w =? -1)%Z) ws ++ filter (fun w => (wiRefl w =? 1)%Z) ws.
(* integral of two waves per event, found by the names of the waves; nEvents is the number of events to divide by *)
Definition integralOf (m : aim) (nEvents : Z) (a b : str) (v : C) : Prop :=
  exists i j x, nth_error (waveNames m) i = Some a /\ nth_error (waveNames m) j = Some b /\
    (forall k, k < i -> nth_error (waveNames m) k <> Some a) /\ (forall k, k < j -> nth_error (waveNames m) k <> Some b) /\
    mget (integrals m) i j = Some x /\ v = (x / RtoC (IZR nEvents))%C.
(* the norm of a wave whose normalisation integral is d *)
Definition normOfInt (d : C) : R := if Req_EM_T (Re d) 0 then 1%R else sqrt (Re d).
(* the elements of the two matrices for the waves x, y (p, q: their positions) *)
Definition isNormElem (use : bool) (nm : aim) (p q : nat) (x y : waveIn) (v : C) : Prop :=
  if (wiRefl x =? wiRefl y)%Z then
    exists n dx dy, integralOf nm (nmbEvents nm) (wiName x) (wiName y) n /\ integralOf nm (nmbEvents nm) (wiName x) (wiName x) dx /\ integralOf nm (nmbEvents nm) (wiName y) (wiName y) dy /\
      v = if use then if p =? q then (if Ceqb dx (RtoC 0) then RtoC 0 else RtoC 1) else (n / RtoC (normOfInt dx * normOfInt dy))%C else n
  else v = RtoC 0.
Definition isAccElem (use : bool) (nm am : aim) (nEvents : Z) (x y : waveIn) (v : C) : Prop :=
  if (wiRefl x =? wiRefl y)%Z then
    exists n dx dy, integralOf am nEvents (wiName x) (wiName y) n /\ integralOf nm (nmbEvents nm) (wiName x) (wiName x) dx /\ integralOf nm (nmbEvents nm) (wiName y) (wiName y) dy /\
      v = if use then (n / RtoC (normOfInt dx * normOfInt dy))%C else n
  else v = RtoC 0.
Definition elem (m : list (list C)) (p q : nat) : option C := match nth_error m p with Some r => nth_error r q | None => None end.

(* ---- lemmas ---- *)
Lemma findIdx_spec w l i : findIdx w l = Some i -> nth_error l i = Some w /\ forall k, k < i -> nth_error l k <> Some w.
Proof.
  revert i. induction l as [|x l IH]; intros i H; [discriminate|]. cbn [findIdx] in H. destruct (str_eqb x w) eqn:E.
  - injection H as <-. apply str_eqb_eq in E. subst. split; [reflexivity|]. intros k Hk. lia.
  - destruct (findIdx w l) as [i'|]; [|discriminate]. injection H as <-. destruct (IH i' eq_refl) as [A B]. split; [exact A|].
    intros [|k] Hk; cbn; [|apply B; lia]. intros X. injection X as ->. rewrite str_eqb_refl in E. discriminate.
Qed.
Lemma byName_spec m a b v : elementByName m a b = Some v -> integralOf m (nmbEvents m) a b v.
Proof.
  unfold elementByName, waveIndex, element. destruct (findIdx a _) as [i|] eqn:Ei; [|discriminate]. cbn [bnd]. destruct (findIdx b _) as [j|] eqn:Ej; [|discriminate]. cbn [bnd].
  destruct (_ <=? i); [discriminate|]. destruct (_ <=? j); [discriminate|]. destruct (mget _ i j) as [x|] eqn:Ex; [|discriminate]. cbn [bindP]. intros H. injection H as <-.
  apply findIdx_spec in Ei as [A1 A2]. apply findIdx_spec in Ej as [B1 B2]. exists i, j, x. auto 10.
Qed.
Lemma byName_set m n a b v : elementByName (setNmbEvents m n) a b = Some v -> integralOf m n a b v.
Proof. intros H. apply byName_spec in H. exact H. Qed.
Lemma loop3_In n e i j : In (e, i, j) (loop3 n) <-> e < 2 /\ i < n e /\ j < n e.
Proof.
  unfold loop3. rewrite in_flat_map. split.
  - intros (e' & He & H). apply in_flat_map in H as (i' & Hi & H). apply in_map_iff in H as (j' & H & Hj). injection H as -> -> ->. apply in_seq in Hi. apply in_seq in Hj. cbn in He. lia.
  - intros (He & Hi & Hj). exists e. split; [cbn; lia|]. apply in_flat_map. exists i. split; [apply in_seq; lia|]. apply in_map_iff. exists j. split; [reflexivity|apply in_seq; lia].
Qed.
(* writing every element of the blocks once *)
Lemma reorder_fold s m l : forall o o', foldO (reorderStep s m) l o = Some o' ->
  forall a b c d, (a = c -> In (a, b, d) l -> elementByName m (stName s a b) (stName s a d) = Some (o' a b c d)) /\ ((a <> c \/ ~ In (a, b, d) l) -> o' a b c d = o a b c d).
Proof.
  induction l as [|[[e i] j] l IH]; intros o o' H a b c d.
  - injection H as <-. split; [intros _ []|reflexivity].
  - cbn [foldO] in H. unfold reorderStep at 1 in H. destruct (elementByName m (stName s e i) (stName s e j)) as [v|] eqn:Ev; [|discriminate]. cbn [bnd] in H.
    destruct (IH _ _ H a b c d) as [I1 I2]. destruct (in_dec (fun x y : nat * nat * nat => ltac:(repeat decide equality)) (a, b, d) l) as [In_|Nin].
    + split; [intros Hc _; now apply I1|]. intros [X|X]; [|destruct X; now right]. rewrite I2 by now left. unfold upd4.
      destruct (Nat.eqb_spec a e), (Nat.eqb_spec b i), (Nat.eqb_spec c e), (Nat.eqb_spec d j); cbn [andb]; try reflexivity. subst. congruence.
    + rewrite I2 by now right. unfold upd4. destruct (Nat.eqb_spec a e), (Nat.eqb_spec b i), (Nat.eqb_spec c e), (Nat.eqb_spec d j); cbn [andb];
        (split; [intros -> [X|X]; [inversion X; subst; congruence|contradiction]|intros [X|X]; [congruence|try reflexivity]]).
      exfalso. subst. apply X. now left.
Qed.
Lemma reorder_spec s m o o' : reorder s m o = Some o' ->
  (forall e i j, isWave s e i -> isWave s e j -> elementByName m (stName s e i) (stName s e j) = Some (o' e i e j)) /\
  (forall e i f j, e <> f -> o' e i f j = o e i f j).
Proof.
  intros H. split.
  - intros e i j [He Hi] [_ Hj]. apply (proj1 (reorder_fold s m _ _ _ H e i e j)); [reflexivity|]. now apply loop3_In.
  - intros e i f j Hn. apply (proj2 (reorder_fold s m _ _ _ H e i f j)). now left.
Qed.

(* every call succeeds *)
Inductive steps : state -> list scall -> state -> Prop :=
  | steps_nil s : steps s [] s
  | steps_cons s c l s1 s2 : exec s c = Some (s1, true) -> steps s1 l s2 -> steps s (c :: l) s2.
Lemma steps_of l : forall s t s', foldO (fun c '(s, tr) => do r <- exec s c; Some (fst r, tr ++ [(c, snd r)])) l (s, t) = Some (s', t ++ okAll l) -> steps s l s'.
Proof.
  induction l as [|c l IH]; intros s t s' H; cbn [foldO] in H.
  - injection H as -> _. constructor.
  - destruct (exec s c) as [[s1 b]|] eqn:E; [|discriminate]. cbn [bnd fst snd] in H. pose proof (trace_grows _ _ _ _ _ H) as (u & Hu & _).
    assert (b = true) by (rewrite <- app_assoc in Hu; apply app_inv_head in Hu; cbn in Hu; congruence). subst b.
    econstructor; [exact E|]. eapply IH. rewrite <- app_assoc. exact H.
Qed.
Lemma steps_app l1 : forall l2 s s', steps s (l1 ++ l2) s' -> exists s1, steps s l1 s1 /\ steps s1 l2 s'.
Proof.
  induction l1 as [|c l1 IH]; intros l2 s s' H; cbn [app] in H; [exists s; split; [constructor|exact H]|]. inversion H; subst. destruct (IH _ _ _ H5) as (s2 & A & B).
  exists s2. split; [econstructor; eauto|exact B].
Qed.
Lemma amps_keep amps : forall s s', steps s (map SAmp amps) s' -> stWaves s' = stWaves s /\ stName s' = stName s /\ stNormM s' = stNormM s /\ stAccM s' = stAccM s /\ stTot s' = stTot s /\ stUse s' = stUse s.
Proof.
  induction amps as [|a amps IH]; intros s s' H; cbn [map] in H; inversion H; subst; [auto 7|]. destruct (IH _ _ H5) as (A1 & A2 & A3 & A4 & A5 & A6).
  cbn [exec] in H3. apply amp_keeps in H3. decompose [and] H3. repeat split; congruence.
Qed.
Lemma init_mats s ws r m s' b : init s ws r m = Some (s', b) -> stNormM s' = stNormM s /\ stAccM s' = stAccM s /\ stUse s' = stUse s.
Proof.
  unfold init, readWaveList. destruct (forallb _ ws); [|discriminate].
  match goal with |- bnd (foldO ?f ?l ?a) _ = _ -> _ => set (a0 := a); assert (G : forall ll x y, foldO f ll x = Some y -> stNormM y = stNormM x /\ stAccM y = stAccM x /\ stUse y = stUse x) end.
  { clear. induction ll as [|[e w] ll IH]; intros x y H; cbn [foldO] in H; [injection H as <-; auto|]. unfold readStep at 1 in H. destruct (nth_error _ w); [|discriminate]. cbn [bnd] in H. apply IH in H. exact H. }
  destruct (foldO (readStep ws) _ a0) as [t|] eqn:E; [|discriminate]. cbn [bnd]. apply G in E as (E1 & E2 & E3). cbn in E1, E2, E3.
  destruct (_ =? 0); [intros H; injection H as <- _; auto|]. destruct (buildParDataStruct _ _ _ _); [|discriminate]. cbn [bnd]. intros H. injection H as <- _. auto.
Qed.
(* the state before finishInit *)
Lemma setup_before use ws rank mass nm am over amps s : runs (setup use ws rank mass nm am over amps) = Some (s, okAll (setup use ws rank mass nm am over amps)) ->
  exists s1, exec s1 SFinish = Some (s, true) /\ waveListOf s1 ws /\ (forall w, In w ws -> wiRefl w = (-1)%Z \/ wiRefl w = 1%Z) /\ stUse s1 = use /\ 
    let n := if (over =? 0)%Z then nmbEvents nm else over in
    stTot s1 = odiv (IZR (nmbEvents am)) (IZR n) /\
    (forall e i j, isWave s1 e i -> isWave s1 e j -> elementByName nm (stName s1 e i) (stName s1 e j) = Some (stNormM s1 e i e j) /\
        elementByName (setNmbEvents am n) (stName s1 e i) (stName s1 e j) = Some (stAccM s1 e i e j)) /\
    (forall e i f j, e <> f -> stNormM s1 e i f j = RtoC 0 /\ stAccM s1 e i f j = RtoC 0).
Proof.
  intros H. pose proof (setup_inv _ _ _ H) as (_ & _ & I). unfold runs in H. pose proof (steps_of _ _ [] _ H) as S. unfold setup in S.
  apply steps_app in S as (s4 & S1 & S2). apply steps_app in S2 as (s5 & S2 & S3). inversion S3; subst. inversion H5; subst. clear S3 H5. rename H3 into F.
  inversion S1; subst. clear S1. rename H3 into E1, H5 into S1. inversion S1; subst. clear S1. rename H3 into E2, H5 into S1. inversion S1; subst. clear S1. rename H3 into E3, H5 into S1. inversion S1; subst. clear S1. rename H3 into E4, H5 into S1. inversion S1; subst. clear S1.
  cbn [exec] in E1. injection E1 as <-. cbn [exec] in E2. pose proof (init_mats _ _ _ _ _ _ E2) as (N1 & N2 & N3). cbn in N1, N2, N3.
  cbn [exec] in E3. apply exec_acc in E4 as [m' E4].
  destruct (amps_keep _ _ _ S2) as (A1 & A2 & A3 & A4 & A5 & A6). exists s5. split; [exact F|].
  assert (W : waveListOf s5 ws /\ (forall w, In w ws -> wiRefl w = (-1)%Z \/ wiRefl w = 1%Z)).
  { cbn [exec] in F. pose proof (finish_keeps _ _ _ F) as K. decompose [and] K. clear K.
    assert (Hin : In (SInit ws rank mass, true) (okAll (setup use ws rank mass nm am over amps))) by (right; left; reflexivity).
    destruct I as [(_ & _ & _ & J)|(J1 & ws0 & r0 & m0 & J2 & J3 & J4 & J5 & J6 & J7)]; [destruct (J _ _ _ Hin)|]. destruct (J3 _ _ _ Hin) as (<- & _).
    split; [|exact J5]. unfold waveListOf in *. replace (stWaves s5) with (stWaves s) by congruence. replace (stName s5) with (stName s) by congruence. replace (stThr s5) with (stThr s) by congruence. replace (stParams s5) with (stParams s) by congruence. exact J4. }
  destruct W as [W1 W2]. split; [exact W1|]. split; [exact W2|].
  unfold addNormIntegral in E3. destruct (negb (stInit _)); [discriminate|]. destruct (reorder s2 nm _) as [o1|] eqn:R1; [|discriminate]. cbn [bnd] in E3.
  unfold addAccIntegral in E4. destruct (negb (stNorm _)); [discriminate|]. cbv zeta in E4. destruct (reorder s3 _ _) as [o2|] eqn:R2; [|discriminate]. cbn [bnd] in E4.
  apply reorder_spec in R1 as [R1 R1']. apply reorder_spec in R2 as [R2 R2']. injection E3 as <-. injection E4 as <- _. cbn in A1, A2, A3, A4, A5, A6, R2, R2'.
  split; [congruence|]. cbv zeta. split; [rewrite A5; reflexivity|]. split.
  - intros e i j [We Wi] [_ Wj]. rewrite A2, A3, A4. rewrite A1 in Wi, Wj. split; [apply R1; split; assumption|]. apply R2; split; assumption.
  - intros e i f j Hn. rewrite A3, A4, R1', R2' by exact Hn. now rewrite N1, N2.
Qed.

(* the order of the waves *)
Lemma order_is_loop s ws : waveListOf s ws -> (forall w, In w ws -> wiRefl w = (-1)%Z \/ wiRefl w = 1%Z) ->
  length (waveOrder ws) = length (loop2 (stWaves s)) /\
  forall p x, nth_error (waveOrder ws) p = Some x -> exists e i, nth_error (loop2 (stWaves s)) p = Some (e, i) /\ isWave s e i /\ stName s e i = wiName x /\ (e = 0 <-> wiRefl x = (-1)%Z).
Proof.
  intros (L & Nm & _) Hr.
  assert (F : forall e, e < 2 -> ofRefl e ws = filter (fun w => (wiRefl w =? (if Nat.eqb e 1 then 1 else -1))%Z) ws).
  { intros e He. unfold ofRefl. apply filter_ext_in. intros w Hw. destruct (Hr w Hw) as [-> | ->]; destruct e as [|[|e]]; try lia; reflexivity. }
  assert (Len : forall e, length (map (fun w : nat => (e, w)) (List.seq 0 (stWaves s e))) = stWaves s e) by (intros; now rewrite map_length, seq_length).
  unfold waveOrder. pose proof (F 0 ltac:(lia)) as F0; pose proof (F 1 ltac:(lia)) as F1; cbn [Nat.eqb] in F0, F1. rewrite <- F0, <- F1. unfold loop2. cbn [flat_map]. rewrite app_nil_r. split.
  - rewrite !app_length, !Len, !L. reflexivity.
  - intros p x H.
    assert (G : forall e p, e < 2 -> nth_error (ofRefl e ws) p = Some x -> nth_error (map (fun w : nat => (e, w)) (List.seq 0 (stWaves s e))) p = Some (e, p) /\ isWave s e p /\ stName s e p = wiName x /\ (e = 0 <-> wiRefl x = (-1)%Z)).
    { intros e q He Hq. assert (Q : q < stWaves s e). { rewrite L. apply nth_error_Some. congruence. }
      split; [rewrite (map_nth_error _ q (List.seq 0 (stWaves s e)) (d := q)); [reflexivity|]; rewrite nth_error_nth' with (d := 0) by (rewrite seq_length; exact Q); rewrite seq_nth by exact Q; reflexivity|].
      split; [split; assumption|]. destruct (Nm e q He Q) as (y & Y1 & Y2 & _). rewrite Hq in Y1. injection Y1 as <-. split; [exact Y2|].
      apply nth_error_In in Hq. rewrite F in Hq by exact He. apply filter_In in Hq as [_ Hq]. apply Z.eqb_eq in Hq. destruct e as [|[|e]]; cbn in Hq; [split; auto|split; [discriminate|congruence]|lia]. }
    destruct (Nat.ltb_spec p (length (ofRefl 0 ws))) as [Hp|Hp].
    + rewrite nth_error_app1 in H by exact Hp. destruct (G 0 p ltac:(lia) H) as (A & B & C). exists 0, p. split; [|auto]. rewrite nth_error_app1 by (rewrite Len, L; exact Hp). exact A.
    + rewrite nth_error_app2 in H by exact Hp. destruct (G 1 _ ltac:(lia) H) as (A & B & C). exists 1, (p - length (ofRefl 0 ws)). split; [|auto]. rewrite nth_error_app2 by (rewrite Len, L; exact Hp). rewrite Len, (L 0). exact A.
Qed.
Lemma loop_index s ws p q e i f j : nth_error (loop2 (stWaves s)) p = Some (e, i) -> nth_error (loop2 (stWaves s)) q = Some (f, j) -> waveListOf s ws -> p = q <-> (e, i) = (f, j).
Proof.
  intros A B _. split; [intros <-; congruence|]. intros E. rewrite <- E in B. eapply (proj1 (NoDup_nth_error _)); [apply (loop2_NoDup (stWaves s))|apply nth_error_Some; congruence|congruence].
Qed.
Lemma waveNorm_int m e i : (0 <= Re (m e i e i))%R -> waveNorm m e i = normOfInt (m e i e i).
Proof.
  intros H. unfold waveNorm, normOfInt. destruct (Req_EM_T (Re (m e i e i)) 0) as [E|E]; destruct (Req_EM_T (sqrt (Re (m e i e i))) 0) as [F|F]; try reflexivity.
  - destruct F. now rewrite E, sqrt_0.
  - destruct E. now apply sqrt_eq_0.
Qed.

(* C68: after a complete set-up, the matrices handed out have one row and column per wave in the stated order; elements of waves
   of different reflectivity vanish, all others are the integrals found under the two wave names, divided by the number of events
   (that of the normalisation integral or the override) and, with normalised amplitudes, by the norms of the two waves *)
Theorem C68_matrices_by_name : forall use ws rank mass nm am over amps s N A ph, let h := setup use ws rank mass nm am over amps in
  runs h = Some (s, okAll h) -> getIntegralMatrices s false = Some (N, A, ph) ->
  length N = length ws /\ length A = length ws /\ length ph = length ws /\
  forall p x, nth_error (waveOrder ws) p = Some x ->
    (exists d, integralOf nm (nmbEvents nm) (wiName x) (wiName x) d /\ nth_error ph p = Some (sqrt (Re d))) /\
    forall q y, nth_error (waveOrder ws) q = Some y -> exists vn va, elem N p q = Some vn /\ elem A p q = Some va /\
      isNormElem use nm p q x y vn /\ isAccElem use nm am (if (over =? 0)%Z then nmbEvents nm else over) x y va.
Proof.
  intros use ws rank mass nm am over amps s N A ph h H G. destruct (setup_before _ _ _ _ _ _ _ _ _ H) as (s1 & F & W & Hr & U & T & El & Z0).
  cbn [exec] in F. pose proof (finish_keeps _ _ _ F) as (Kw & _). destruct (finish_inv _ _ F) as [_ NN]. destruct (finish_closed _ _ F) as (Ph & C0 & C1).
  destruct (order_is_loop s1 ws W Hr) as [Lo Or].
  assert (Lw : length (waveOrder ws) = length ws).
  { unfold waveOrder. rewrite app_length. clear - Hr. induction ws as [|w ws IH]; [reflexivity|]. cbn [filter]. assert (IH' := IH (fun w' Hw' => Hr w' (or_intror Hw'))). destruct (Hr w (or_introl eq_refl)) as [E|E]; rewrite E; cbn [Z.eqb Pos.eqb]; cbn [length]; lia. }
  unfold getIntegralMatrices in G. cbv zeta in G. rewrite Kw in G. injection G as <- <- <-. rewrite !map_length, <- Lo. split; [exact Lw|]. split; [exact Lw|]. split; [exact Lw|].
  intros p x Hp. destruct (Or p x Hp) as (e & i & P1 & P2 & P3 & P4). split.
  - exists (stNormM s1 e i e i). split; [apply byName_spec; rewrite <- P3; now apply El|]. rewrite (map_nth_error _ p _ P1). f_equal. now apply Ph.
  - intros q y Hq. destruct (Or q y Hq) as (f & j & Q1 & Q2 & Q3 & Q4). exists (stNormM s e i f j), (stAccM s e i f j). unfold elem.
    rewrite !(map_nth_error _ p _ P1), !(map_nth_error _ q _ Q1). split; [reflexivity|]. split; [reflexivity|].
    assert (Hx : wiRefl x = (-1)%Z \/ wiRefl x = 1%Z) by (apply nth_error_In in Hp; apply Hr; unfold waveOrder in Hp; apply in_app_or in Hp; rewrite !filter_In in Hp; tauto).
    assert (Hy : wiRefl y = (-1)%Z \/ wiRefl y = 1%Z) by (apply nth_error_In in Hq; apply Hr; unfold waveOrder in Hq; apply in_app_or in Hq; rewrite !filter_In in Hq; tauto).
    assert (Ee : wiRefl x = wiRefl y <-> e = f). { destruct P2 as [P2 _], Q2 as [Q2 _]. split; [intros E|intros E; subst f]; [|intuition congruence]. assert (e = 0 <-> f = 0) by intuition congruence. lia. }
    unfold isNormElem, isAccElem. destruct (Z.eqb_spec (wiRefl x) (wiRefl y)) as [E|E].
    + apply Ee in E. subst f. 
      assert (Ix := proj1 (El e i i P2 P2)). assert (Iy := proj1 (El e j j Q2 Q2)). destruct (El e i j P2 Q2) as [Ixy Axy]. rewrite P3 in Ix, Ixy, Axy. rewrite Q3 in Iy, Ixy, Axy. apply byName_spec in Ix. apply byName_spec in Iy. apply byName_spec in Ixy. apply byName_set in Axy.
      split; [exists (stNormM s1 e i e j)|exists (stAccM s1 e i e j)]; exists (stNormM s1 e i e i), (stNormM s1 e j e j); (split; [assumption|]); (split; [assumption|]); (split; [assumption|]); destruct use.
      * rewrite <- !waveNorm_int by (apply NN; assumption). destruct (C1 U e i e j P2 Q2) as [_ C1']. rewrite C1'. destruct (Nat.eqb_spec p q) as [Epq|Epq].
        -- assert (X : (e, i) = (e, j)) by (eapply (loop_index s1 ws); eauto). injection X as <-. destruct (peq_spec e i e i); [reflexivity|congruence].
        -- destruct (peq_spec e i e j) as [Eij|Eij]; [destruct Epq; eapply (loop_index s1 ws); eauto|reflexivity].
      * destruct (C0 U) as [-> _]. reflexivity.
      * rewrite <- !waveNorm_int by (apply NN; assumption). exact (proj1 (C1 U e i e j P2 Q2)).
      * destruct (C0 U) as [_ ->]. reflexivity.
    + assert (E' : e <> f) by tauto. destruct (Z0 e i f j E') as [Z1 Z2]. destruct use.
      * destruct (C1 U e i f j P2 Q2) as [-> ->]. rewrite Z1, Z2. destruct (peq_spec e i f j) as [X|_]; [congruence|]. unfold Cdiv. rewrite !Cmult_0_l. auto.
      * destruct (C0 U) as [-> ->]. auto.
Qed.
(* C68: with the flat wave, a last row and column is added: 1 (0 off the diagonal), the total acceptance and phase space 1 *)
Theorem C68_flat_row : forall use ws rank mass nm am over amps s N A ph, let h := setup use ws rank mass nm am over amps in let n := length ws in
  runs h = Some (s, okAll h) -> getIntegralMatrices s true = Some (N, A, ph) ->
  exists N0 A0 ph0 tot, getIntegralMatrices s false = Some (N0, A0, ph0) /\
    odiv (IZR (nmbEvents am)) (IZR (if (over =? 0)%Z then nmbEvents nm else over)) = Some tot /\
    (forall p q, p < n -> q < n -> elem N p q = elem N0 p q /\ elem A p q = elem A0 p q) /\
    (forall p, p < n -> elem N p n = Some (RtoC 0) /\ elem N n p = Some (RtoC 0) /\ elem A p n = Some (RtoC 0) /\ elem A n p = Some (RtoC 0) /\ nth_error ph p = nth_error ph0 p) /\
    elem N n n = Some (RtoC 1) /\ elem A n n = Some (RtoC tot) /\ nth_error ph n = Some 1%R /\ length N = S n /\ length A = S n /\ length ph = S n.
Proof.
  intros use ws rank mass nm am over amps s N A ph h n H G. destruct (setup_before _ _ _ _ _ _ _ _ _ H) as (s1 & F & W & Hr & U & T & El & Z0).
  cbn [exec] in F. pose proof (finish_keeps _ _ _ F) as K. decompose [and] K. clear K.
  destruct (order_is_loop s1 ws W Hr) as [Lo Or].
  assert (Lw : length (waveOrder ws) = length ws).
  { unfold waveOrder. rewrite app_length. clear - Hr. induction ws as [|w ws IH]; [reflexivity|]. cbn [filter]. assert (IH' := IH (fun w' Hw' => Hr w' (or_intror Hw'))). destruct (Hr w (or_introl eq_refl)) as [E|E]; rewrite E; cbn [Z.eqb Pos.eqb]; cbn [length]; lia. }
  unfold getIntegralMatrices in *. cbv zeta in *. replace (stWaves s) with (stWaves s1) in * by congruence. replace (stTot s) with (stTot s1) in G by congruence.
  destruct (stTot s1) as [tot|] eqn:Et; [|discriminate]. cbn [bnd] in G. injection G as <- <- <-. do 3 eexists. exists tot. split; [reflexivity|]. split; [symmetry; exact T|].
  assert (Ln : n = length (loop2 (stWaves s1))) by (unfold n; rewrite <- Lo; auto). set (l := loop2 (stWaves s1)) in *. clearbody l.
  set (block := fun m : mat4 => map (fun '(e, i) => map (fun '(f, j) => m e i f j) l) l). change (map (fun '(e, i) => map (fun '(f, j) => stNormM s e i f j) l) l) with (block (stNormM s)). change (map (fun '(e, i) => map (fun '(f, j) => stAccM s e i f j) l) l) with (block (stAccM s)).
  assert (P : forall (m : mat4) (x : R) p q, p < n -> q < n -> elem (map (fun r => r ++ [RtoC 0]) (block m) ++ [repeat (RtoC 0) (length l) ++ [RtoC x]]) p q = elem (block m) p q).
  { intros m x p q Hp Hq. unfold elem, block. rewrite nth_error_app1 by (rewrite !map_length; lia). destruct (nth_error l p) as [[e i]|] eqn:E; [|apply nth_error_None in E; lia].
    rewrite map_map. rewrite !(map_nth_error _ p _ E). rewrite nth_error_app1 by (rewrite map_length; lia). reflexivity. }
  assert (Q : forall (m : mat4) (x : R) p, p < n -> elem (map (fun r => r ++ [RtoC 0]) (block m) ++ [repeat (RtoC 0) (length l) ++ [RtoC x]]) p n = Some (RtoC 0) /\ elem (map (fun r => r ++ [RtoC 0]) (block m) ++ [repeat (RtoC 0) (length l) ++ [RtoC x]]) n p = Some (RtoC 0)).
  { intros m x p Hp. unfold elem, block. split.
    - rewrite nth_error_app1 by (rewrite !map_length; lia). destruct (nth_error l p) as [[e i]|] eqn:E; [|apply nth_error_None in E; lia].
      rewrite map_map. rewrite !(map_nth_error _ p _ E). rewrite nth_error_app2 by (rewrite map_length; lia). rewrite map_length, Ln, Nat.sub_diag. reflexivity.
    - rewrite nth_error_app2 by (rewrite !map_length; lia). rewrite !map_length, Ln, Nat.sub_diag. cbn [nth_error]. rewrite nth_error_app1 by (rewrite repeat_length; lia). rewrite nth_error_repeat by lia. reflexivity. }
  assert (D : forall (m : mat4) (x : R), elem (map (fun r => r ++ [RtoC 0]) (block m) ++ [repeat (RtoC 0) (length l) ++ [RtoC x]]) n n = Some (RtoC x)).
  { intros m x. unfold elem, block. rewrite nth_error_app2 by (rewrite !map_length; lia). rewrite !map_length, Ln, Nat.sub_diag. cbn [nth_error]. rewrite nth_error_app2 by (rewrite repeat_length; lia). rewrite repeat_length, Nat.sub_diag. reflexivity. }
  split; [intros p q Hp Hq; split; now apply P|]. split.
  { intros p Hp. destruct (Q (stNormM s) 1%R p Hp). destruct (Q (stAccM s) tot p Hp). repeat (split; [assumption|]). rewrite nth_error_app1 by (rewrite map_length; lia). reflexivity. }
  split; [apply D|]. split; [apply D|]. split; [rewrite nth_error_app2 by (rewrite map_length; lia); rewrite map_length, Ln, Nat.sub_diag; reflexivity|].
  unfold block. rewrite !app_length, !map_length. cbn [length]. lia.
Qed.

(* C61: wave names are set once; later calls compare, in order, and change nothing *)
Theorem C61_wave_names_set_once : forall m names m' ok, setWaveNames m names = (m', ok) -> length (waveNames m) = nmbWaves m ->
  (nmbWaves m = 0 -> ok = true /\ waveNames m' = names /\ nmbWaves m' = length names /\ nmbEvents m' = nmbEvents m /\
     forall i j, i < length names -> j < length names -> integrals m = [] -> mget (integrals m') i j = Some (RtoC 0)) /\
  (nmbWaves m <> 0 -> m' = m /\ (ok = true <-> names = waveNames m)).
Proof.
  intros m names m' ok H L. unfold setWaveNames in H. split.
  - intros E. rewrite E in H. cbn [Nat.ltb Nat.leb] in H. injection H as <- <-. cbn. repeat (split; [reflexivity|]). intros i j Hi Hj Ez. rewrite Ez.
    unfold mget, mresize. rewrite (map_nth_error _ i (List.seq 0 (length names)) (d := i)). 2:{ rewrite nth_error_nth' with (d := 0) by (rewrite seq_length; exact Hi). rewrite seq_nth by exact Hi. reflexivity. }
    rewrite (map_nth_error _ j (List.seq 0 (length names)) (d := j)). 2:{ rewrite nth_error_nth' with (d := 0) by (rewrite seq_length; exact Hj). rewrite seq_nth by exact Hj. reflexivity. }
    unfold mget. destruct i; reflexivity.
  - intros E. destruct (0 <? nmbWaves m) eqn:X; [|apply Nat.ltb_ge in X; lia]. destruct (Nat.eqb_spec (length names) (nmbWaves m)) as [Y|Y]; injection H as <- <-; (split; [reflexivity|]).
    + rewrite <- L, firstn_all. rewrite list_eqb_eq. split; congruence.
    + split; [discriminate|]. intros ->. congruence.
Qed.
Example C61_wave_names_ex : let m := fst (setWaveNames aimEmpty [lit "A"; lit "B"]%string) in snd (setWaveNames m [lit "A"; lit "B"]%string) = true /\ snd (setWaveNames m [lit "B"; lit "A"]%string) = false.
Proof. split; reflexivity. Qed.

(* a complete set-up; the order of two waves of different reflectivity *)
Definition w2 : list waveIn := [(lit "P", 1%Z, 0%R); (lit "M", (-1)%Z, 0%R)]%string.
Example C68_ex : exists s, let h := setup true [wA] 1 1 (mA (RtoC 4)) (mA (RtoC 4)) 0 [[Some (aA (RtoC 1))]] in runs h = Some (s, okAll h) /\ getIntegralMatrices s false <> None.
Proof. destruct C43_same_fit_ex as [s H]. exists s. split; [exact H|discriminate]. Qed.
Example C68_order_ex : map wiName (waveOrder w2) = [lit "M"; lit "P"]%string.
Proof. reflexivity. Qed.
