(* C43, effect on the fit: the likelihood with normalised amplitudes is the likelihood with
   the amplitudes as they are, in rescaled production amplitudes *)
From Coq Require Import String Ascii List ZArith Reals Bool Lia Lra.
From Coquelicot Require Import Complex.
From Verif Require Import ArrayModel PathModel StrModel CGBoxModel ParticleModel AmpIntModel FitErrModel FitErrProps LikParModel LikParProofs LikModel LikGradProofs LikHessProps LikSetModel LikSetProofs LikSetProps LikNormProps.
Import ListNotations.
Open Scope list_scope. Open Scope R_scope.

Lemma RtoC_neq r : r <> 0 -> RtoC r <> RtoC 0.
Proof. intros H K. apply H. now apply RtoC_inj. Qed.

Section Rescale.
  Context (lk0 lk1 : lik) (n : nat -> nat -> R).
  Let N := INR (lkEvts lk0).
  Context (He : lkEvts lk1 = lkEvts lk0) (Hsh : lkShape lk1 = lkShape lk0) (Ht : lkTotAcc lk1 = lkTotAcc lk0)
    (U0 : lkNormAmps lk0 = false) (U1 : lkNormAmps lk1 = true) (F0 : lkPrior lk0 = FLAT) (F1 : lkPrior lk1 = FLAT)
    (Hn : forall e w, n e w <> 0)
    (Hdec : forall e k w, (e < 2)%nat -> (w < shWaves (lkShape lk0) e)%nat -> lkDec lk1 e k w = (lkDec lk0 e k w / RtoC (n e w))%C)
    (Hacc : forall e i j, (e < 2)%nat -> (i < shWaves (lkShape lk0) e)%nat -> (j < shWaves (lkShape lk0) e)%nat -> lkAcc lk1 e i j = (lkAcc lk0 e i j / RtoC (n e i * n e j))%C).
  Definition scaleP (P : idx -> C) : idx -> C := fun t => (RtoC (sqrt N * n (rf t) (wv t)) * P t)%C.

  Lemma csumN_scale c f k : csumN (fun i => (c * f i)%C) k = (c * csumN f k)%C.
  Proof. induction k as [|k IH]; cbn; [now rewrite Cmult_0_r|]. rewrite IH. ring. Qed.
  Lemma sqN : sqrt N * sqrt N = N. Proof. apply sqrt_def. apply pos_INR. Qed.

  Lemma evt_scale P f k : evtLik lk1 (scaleP P) (sqrt N * f) k = N * evtLik lk0 P f k.
  Proof.
    unfold evtLik. rewrite Hsh, Rmult_plus_distr_l. f_equal; [|transitivity ((sqrt N * sqrt N) * (f * f)); [ring|rewrite sqN; ring]]. rewrite <- rsumN_mult. apply rsumN_ext. intros r _. rewrite <- rsumN_mult. apply rsumN_ext. intros e Hee.
    assert (E : ampProdSum lk1 (scaleP P) r e k = (RtoC (sqrt N) * ampProdSum lk0 P r e k)%C).
    { unfold ampProdSum. rewrite Hsh, <- csumN_scale. apply csumN_ext. intros w Hw. unfold scaleP. cbn [rf wv fst snd]. rewrite Hdec by assumption. rewrite RtoC_mult. field. apply RtoC_neq. auto. }
    rewrite E. transitivity ((sqrt N * sqrt N) * normSq (ampProdSum lk0 P r e k)); [|now rewrite sqN]. unfold normSq, Cmult, RtoC, Re, Im. cbn. ring.
  Qed.
  Lemma norm_scale P f : normFactor lk1 (scaleP P) (sqrt N * f) = N * normFactor lk0 P f.
  Proof.
    unfold normFactor. rewrite Hsh, Ht, Rmult_plus_distr_l. f_equal; [|transitivity ((sqrt N * sqrt N) * (f * f * lkTotAcc lk0)); [ring|rewrite sqN; ring]].
    rewrite <- rsumN_mult. apply rsumN_ext. intros r _. rewrite <- rsumN_mult. apply rsumN_ext. intros e Hee. rewrite <- rsumN_mult. apply rsumN_ext. intros i Hi. rewrite <- rsumN_mult. apply rsumN_ext. intros j Hj.
    unfold scaleP. cbn [rf wv fst snd]. rewrite Hacc by assumption.
    replace (RtoC (sqrt N * n e i) * P (r, e, i) * Cconj (RtoC (sqrt N * n e j) * P (r, e, j)) * (lkAcc lk0 e i j / RtoC (n e i * n e j)))%C
      with (RtoC N * (P (r, e, i) * Cconj (P (r, e, j)) * lkAcc lk0 e i j))%C; [unfold Cmult, RtoC, Re; cbn; ring|].
    replace (Cconj (RtoC (sqrt N * n e j) * P (r, e, j)))%C with (RtoC (sqrt N * n e j) * Cconj (P (r, e, j)))%C by (unfold Cconj, Cmult, RtoC; cbn; f_equal; ring).
    replace (RtoC N) with (RtoC (sqrt N * sqrt N)) by (now rewrite sqN). rewrite !RtoC_mult. field. split; apply RtoC_neq; auto.
  Qed.
  Lemma osum_shift (f g : nat -> double) c k : (forall i, (i < k)%nat -> f i = (do x <- g i; Some (x - c))) -> osum f k = (do x <- osum g k; Some (x - INR k * c)).
  Proof.
    induction k as [|k IH]; intros H; cbn [osum]; [cbn; f_equal; ring|]. rewrite IH by auto. rewrite (H k) by lia.
    destruct (osum g k); cbn [bnd]; [|reflexivity]. destruct (g k); cbn [bnd]; [|reflexivity]. f_equal. rewrite S_INR. ring.
  Qed.
  Lemma func_scale P f : funcVal lk1 (scaleP P) (sqrt N * f) = (do v <- funcVal lk0 P f; Some (v - N * ln N)).
  Proof.
    unfold funcVal. rewrite He.
    rewrite (osum_shift _ (fun k => do l <- oln (evtLik lk0 P f k); Some (- l)) (ln N)).
    - destruct (osum _ _); cbn [bnd]; [|reflexivity]. unfold priorValue. rewrite F0, F1. cbn [bnd]. f_equal. rewrite norm_scale. unfold nmbEvt. rewrite U0, U1. fold N. ring.
    - intros k Hk. rewrite evt_scale. assert (HN : 0 < N) by (apply lt_0_INR; lia). unfold oln.
      destruct (Rlt_dec 0 (N * evtLik lk0 P f k)) as [A|A], (Rlt_dec 0 (evtLik lk0 P f k)) as [B|B]; cbn [bnd].
      + f_equal. rewrite ln_mult by assumption. ring.
      + destruct B. apply (Rmult_lt_reg_l N); [exact HN|]. now rewrite Rmult_0_r.
      + destruct A. now apply Rmult_lt_0_compat.
      + reflexivity.
  Qed.
End Rescale.

(* ---- the two set-ups ---- *)
(* a complete set-up: all amplitudes after the integrals, finishInit last *)
Definition setup (use : bool) (ws : list waveIn) (rank : nat) (mass : R) (nm am : aim) (over : Z) (amps : list (list (option ampMeta))) : list scall :=
  [SUse use; SInit ws rank mass; SNorm nm; SAcc am over] ++ map SAmp amps ++ [SFinish].

(* states that differ in _useNormalizedAmps and the normalisation of the amplitudes only *)
Definition related (s0 s1 : state) : Prop :=
  exists dec1, s1 = St (stWaves s0) (stName s0) (stThr s0) (stAdded s0) (stParams s0) (stRank s0) (stPars s0) (stFixed s0) (stMap s0) (stInit s0) (stNorm s0) (stAcc s0) (stFin s0)
     (stNumb s0) (stNormM s0) (stAccM s0) (stTot s0) true (stEvts s0) dec1 (stOrder s0) (stFiles s0) (stPhase s0) /\ stUse s0 = false /\
     forall e k w, dec1 e k w = (stDec s0 e k w / RtoC (waveNorm (stNormM s0) e w))%C.

Lemma Czero_iff z : Czero z = true <-> z = RtoC 0.
Proof.
  split; [|apply Czero_true]. unfold Czero, Ceqb, decR. cbn. destruct (Req_EM_T (fst z) 0); [|discriminate]. destruct (Req_EM_T (snd z) 0); [|discriminate]. destruct z; cbn in *; subst; reflexivity.
Qed.
Lemma Czero_div z r : r <> 0 -> Czero (z / RtoC r)%C = Czero z.
Proof.
  intros H. assert (HC : RtoC r <> RtoC 0) by (now apply RtoC_neq). destruct (Czero z) eqn:E.
  - apply Czero_iff in E. subst. apply Czero_iff. unfold Cdiv. now rewrite Cmult_0_l.
  - apply Czero_false. intros K. enough (z = RtoC 0) by (subst; rewrite Czero_true in E by reflexivity; discriminate).
    replace z with ((z / RtoC r) * RtoC r)%C by (field; exact HC). rewrite K. ring.
Qed.

Lemma copy_related (m : mat4) e w amps : forall k d0 d1 fx r d1' fx', r = waveNorm m e w -> (forall a b c, d1 a b c = (d0 a b c / RtoC (waveNorm m a c))%C) ->
  copyAmps true (m e w e w) e w k amps d1 fx = Some (d1', fx', true) ->
  exists d0', copyAmps false (m e w e w) e w k amps d0 fx = Some (d0', fx', true) /\ forall a b c, d1' a b c = (d0' a b c / RtoC (waveNorm m a c))%C.
Proof.
  induction amps as [|z amps IH]; intros k d0 d1 fx r d1' fx' Hr Hd H.
  - cbn in *. inversion H; subst. eauto.
  - cbn [copyAmps andb] in *. destruct (Czero (m e w e w)) eqn:Zn; cbn [andb negb] in *.
    + destruct (Czero z) eqn:Zz; cbn [negb bnd] in *; [|discriminate]. rewrite Zz in *.
      eapply IH; [reflexivity| |exact H]. intros a b c. unfold upd3. destruct (_ && _ && _); [|apply Hd]. apply Czero_iff in Zz. subst z. unfold Cdiv. now rewrite Cmult_0_l.
    + destruct (Rlt_dec 0 (Re (m e w e w))) as [P|]; [|discriminate]. cbn [bnd] in *.
      assert (Hs : sqrt (Re (m e w e w)) = waveNorm m e w). { unfold waveNorm. destruct (Req_EM_T _ 0) as [K|]; [|reflexivity]. apply sqrt_eq_0 in K; lra. }
      rewrite Hs in H. rewrite Czero_div in H by apply waveNorm_nz.
      eapply IH; [reflexivity| |exact H]. intros a b c. unfold upd3. destruct (Nat.eqb_spec a e), (Nat.eqb_spec b k), (Nat.eqb_spec c w); subst; cbn [andb]; try apply Hd. reflexivity.
Qed.

Lemma amp_related s0 s1 ms s1' : related s0 s1 -> addAmplitude s1 ms = Some (s1', true) ->
  exists s0', addAmplitude s0 ms = Some (s0', true) /\ related s0' s1' /\ stNormM s0' = stNormM s0.
Proof.
  intros (dec1 & -> & U & D) H. unfold addAmplitude in *. cbn -[mapOpt m_find countEvents checkOrder readAmps copyAmps] in H.
  destruct (stAcc s0); cbn [negb] in *; [|discriminate]. destruct (mapOpt (fun m => m) ms) as [[|m0 ml]|]; try discriminate.
  destruct (negb (forallb _ _)); [discriminate|]. destruct (m_find (amName m0) (stParams s0)) as [[e w]|]; [|discriminate].
  destruct (countEvents _ _ _) as [fs total]. destruct (Nat.eqb total 0); [discriminate|].
  destruct (negb (checkOrder _ _)); [discriminate|]. destruct (readAmps _ _ _) as [amps|]; [|discriminate]. cbn [bnd] in *.
  destruct (negb (Nat.eqb total _)); [discriminate|].
  destruct (copyAmps true _ _ _ _ _ _ _) as [[[d1' fx'] ok]|] eqn:E; [|discriminate]. cbn [bnd] in H. destruct ok; cbn [negb] in H; [|discriminate].
  eapply (copy_related (stNormM s0) e w) in E; [|reflexivity|exact D]. destruct E as (d0' & E & R). rewrite U, E. cbn [bnd negb]. inversion H; subst; clear H.
  eexists. split; [reflexivity|]. split; [|reflexivity]. exists d1'. cbn. split; [reflexivity|]. split; [reflexivity|exact R].
Qed.

Lemma tr_inj a (x y : bool) t t' : t ++ [(a : scall, x)] = t' ++ [(a, y)] -> t = t' /\ x = y.
Proof. intros H. apply app_inj_tail in H as [-> H]. split; [reflexivity|congruence]. Qed.

Lemma amps_related amps : forall s0 s1, related s0 s1 -> forall tr s1', 
  foldO (fun c '(s, tr) => do r <- exec s c; Some (fst r, tr ++ [(c, snd r)])) (map SAmp amps) (s1, tr) = Some (s1', tr ++ okAll (map SAmp amps)) ->
  exists s0', foldO (fun c '(s, tr) => do r <- exec s c; Some (fst r, tr ++ [(c, snd r)])) (map SAmp amps) (s0, tr) = Some (s0', tr ++ okAll (map SAmp amps)) /\ related s0' s1' /\ stNormM s0' = stNormM s0.
Proof.
  induction amps as [|ms amps IH]; intros s0 s1 R tr s1' H.
  - cbn in *. apply (f_equal (fun o => match o with Some x => Some (fst x) | None => None end)) in H. cbn in H. injection H as <-. exists s0. rewrite app_nil_r. auto.
  - cbn [map foldO exec] in *. destruct (addAmplitude s1 ms) as [[s1a b]|] eqn:E; [|discriminate]. cbn [bnd fst snd] in H.
    assert (Hb : b = true).
    { assert (G : forall l s t s' t', foldO (fun c '(s, tr) => do r <- exec s c; Some (fst r, tr ++ [(c, snd r)])) l (s, t) = Some (s', t') -> exists u, t' = t ++ u).
      { clear. induction l as [|c l IH]; intros s t s' t' H; cbn [foldO] in H; [inversion H; subst; exists []; now rewrite app_nil_r|]. destruct (exec s c) as [[s2 b]|]; [|discriminate]. cbn [bnd fst snd] in H. apply IH in H as [u ->]. exists ((c, b) :: u). now rewrite <- app_assoc. }
      apply G in H as [u Hu]. cbn in Hu. rewrite <- app_assoc in Hu. apply app_inv_head in Hu. cbn in Hu. congruence. }
    subst b. destruct (amp_related _ _ _ _ R E) as (s0a & E0 & R0 & NM). rewrite E0. cbn [bnd fst snd].
    cbn [okAll map] in *. change ((SAmp ms, true) :: map (fun c => (c, true)) (map SAmp amps)) with ([(SAmp ms, true)] ++ okAll (map SAmp amps)) in *. rewrite app_assoc in *.
    destruct (IH _ _ R0 _ _ H) as (s0' & F & R' & NM'). exists s0'. split; [exact F|]. split; [exact R'|congruence].
Qed.


(* the flag does not matter before the first amplitude *)
Lemma read_use ws l b : forall s, foldO (readStep ws) l (useNormalizedAmps s b) = (do s' <- foldO (readStep ws) l s; Some (useNormalizedAmps s' b)).
Proof.
  induction l as [|[e w] l IH]; intros s; [reflexivity|]. cbn [foldO]. unfold readStep at 1 3. destruct (nth_error (ofRefl e ws) w); [|reflexivity]. cbn [bnd].
  rewrite <- IH. reflexivity.
Qed.
Lemma init_use s b ws r m : init (useNormalizedAmps s b) ws r m = (do x <- init s ws r m; Some (useNormalizedAmps (fst x) b, snd x)).
Proof.
  unfold init, readWaveList. destruct (forallb _ ws); [|reflexivity]. cbn [stWaves useNormalizedAmps].
  match goal with |- bnd (foldO (readStep ws) ?l ?a) _ = bnd (bnd (foldO _ _ ?c) _) _ => change (foldO (readStep ws) l a) with (foldO (readStep ws) l (useNormalizedAmps c b)) end.
  rewrite read_use. set (X := foldO _ _ _). destruct X as [t|]; [|reflexivity]. cbn [bnd stWaves useNormalizedAmps].
  destruct (Nat.eqb _ 0); [reflexivity|]. cbn [stName stThr useNormalizedAmps]. destruct (buildParDataStruct _ _ _ _); reflexivity.
Qed.
Lemma reorder_use s b m o : reorder (useNormalizedAmps s b) m o = reorder s m o. Proof. reflexivity. Qed.
Lemma norm_use s b m : addNormIntegral (useNormalizedAmps s b) m = (do x <- addNormIntegral s m; Some (useNormalizedAmps (fst x) b, snd x)).
Proof. unfold addNormIntegral. cbn [stInit useNormalizedAmps]. destruct (negb (stInit s)); [reflexivity|]. rewrite reorder_use. cbn [stNormM useNormalizedAmps]. destruct (reorder _ _ _); reflexivity. Qed.
Lemma acc_use s b m o : exec (useNormalizedAmps s b) (SAcc m o) = (do x <- exec s (SAcc m o); Some (useNormalizedAmps (fst x) b, snd x)).
Proof. cbn [exec]. unfold addAccIntegral. cbn [stNorm useNormalizedAmps]. destruct (negb (stNorm s)); [reflexivity|]. cbv zeta. rewrite reorder_use. cbn [stAccM stNumb useNormalizedAmps]. destruct (reorder _ _ _); reflexivity. Qed.

Lemma acc_dec s m o x : exec s (SAcc m o) = Some x -> stDec (fst x) = stDec s.
Proof. cbn [exec]. unfold addAccIntegral. destruct (negb (stNorm s)); [intros H; inversion H; reflexivity|]. cbv zeta. destruct (reorder _ _ _); [|discriminate]. cbn. intros H; inversion H; reflexivity. Qed.
Lemma norm_dec s m x : addNormIntegral s m = Some x -> stDec (fst x) = stDec s.
Proof. unfold addNormIntegral. destruct (negb _); [intros H; inversion H; reflexivity|]. destruct (reorder _ _ _); [|discriminate]. cbn. intros H; inversion H; reflexivity. Qed.

Lemma trace_grows : forall l s t s' t', foldO (fun c '(s, tr) => do r <- exec s c; Some (fst r, tr ++ [(c, snd r)])) l (s, t) = Some (s', t') -> exists u, t' = t ++ u /\ length u = length l.
Proof.
  induction l as [|c l IH]; intros s t s' t' H; cbn [foldO] in H; [inversion H; subst; exists []; now rewrite app_nil_r|].
  destruct (exec s c) as [[s2 b]|]; [|discriminate]. cbn [bnd fst snd] in H. apply IH in H as (u & -> & L). exists ((c, b) :: u). rewrite <- app_assoc. cbn. auto.
Qed.
Lemma finish_fst s s' : finishInit s = Some (s', true) -> stRank s' = stRank s /\ stWaves s' = stWaves s /\ stUse s' = stUse s /\ stEvts s' = stEvts s /\ stDec s' = stDec s /\ stPars s' = stPars s /\ stMap s' = stMap s /\ stTot s' = stTot s.
Proof. intros H. apply finish_keeps in H. decompose [and] H. auto 10. Qed.

(* C43: if a complete set-up with normalised amplitudes succeeds, the same set-up without
   succeeds as well, for the same events and parameters, and for every point the normalised
   likelihood at the point scaled by sqrt(N) and the norms of the waves is the plain one
   minus the constant N ln N *)
Theorem C43_same_fit : forall ws rank mass nm am over amps s1, let h := fun b => setup b ws rank mass nm am over amps in
  runs (h true) = Some (s1, okAll (h true)) ->
  exists s0, runs (h false) = Some (s0, okAll (h false)) /\ stEvts s1 = stEvts s0 /\ stPars s1 = stPars s0 /\ stMap s1 = stMap s0 /\ stPhase s1 = stPhase s0 /\ stTot s1 = stTot s0 /\
  forall tot width P f, let N := INR (stEvts s0) in
    funcVal (toLik s1 tot FLAT width) (fun t => RtoC (sqrt N * waveNorm (stNormM s0) (rf t) (wv t)) * P t)%C (sqrt N * f)
    = (do v <- funcVal (toLik s0 tot FLAT width) P f; Some (v - N * ln N)).
Proof.
  intros ws rank mass nm am over amps s1 h H. unfold h, setup, runs in *. clear h.
  assert (Hpre : exists sp, (let step := fun c '(s, tr) => do r <- exec s c; Some (fst r, tr ++ [(c, snd r)]) in
      (forall b, foldO step [SUse b; SInit ws rank mass; SNorm nm; SAcc am over] (fresh, []) = Some (useNormalizedAmps sp b, okAll [SUse b; SInit ws rank mass; SNorm nm; SAcc am over]))) /\
      (forall e k w, stDec sp e k w = RtoC 0)).
  { rewrite foldO_app in H. match type of H with bnd ?x _ = _ => destruct x as [[s t]|] eqn:E; [|discriminate] end. cbn [bnd] in H. apply trace_grows in H as (u & Hu & _).
    cbn [foldO exec bnd fst snd] in E. rewrite init_use in E. destruct (init fresh ws rank mass) as [[sa ba]|] eqn:Ea; [|discriminate]. cbn [bnd fst snd] in E.
    rewrite norm_use in E. destruct (addNormIntegral sa nm) as [[sb bb]|] eqn:Eb; [|discriminate]. cbn [bnd fst snd] in E.
    change (do r <- addAccIntegral (useNormalizedAmps sb true) am over; Some (fst (fst r), snd r)) with (exec (useNormalizedAmps sb true) (SAcc am over)) in E. rewrite acc_use in E.
    destruct (exec sb (SAcc am over)) as [[sc bc]|] eqn:Ec; [|discriminate]. cbn [bnd fst snd] in E. inversion E; subst; clear E. cbn in Hu. assert (ba = true /\ bb = true /\ bc = true) as (-> & -> & ->) by (injection Hu; intros; subst; auto).
    exists sc. split.
    - intros step b. unfold step. clear step. cbn [foldO exec bnd fst snd]. rewrite init_use, Ea. cbn [bnd fst snd]. rewrite norm_use, Eb. cbn [bnd fst snd].
      change (do r <- addAccIntegral (useNormalizedAmps sb b) am over; Some (fst (fst r), snd r)) with (exec (useNormalizedAmps sb b) (SAcc am over)). rewrite acc_use, Ec. reflexivity.
    - apply acc_dec in Ec. apply norm_dec in Eb. apply init_flags in Ea. decompose [and] Ea. cbn [fst] in Ec, Eb. intros e k w. rewrite Ec, Eb. match goal with K : stDec sa = _ |- _ => rewrite K end. reflexivity. }
  destruct Hpre as (sp & Hpre & Hz). cbv zeta in Hpre.
  rewrite foldO_app, Hpre in H. cbn [bnd] in H. rewrite foldO_app in H.
  match type of H with bnd ?x _ = _ => destruct x as [[sm1 tm]|] eqn:E; [|discriminate] end. cbn [bnd foldO exec] in H.
  destruct (finishInit sm1) as [[s1' b]|] eqn:Ef; [|discriminate]. cbn [bnd fst snd] in H.
  pose proof (f_equal (fun o => match o with Some x => snd x | None => [] end) H) as Ht. apply (f_equal (fun o => match o with Some x => fst x | None => fresh end)) in H. cbn beta iota delta [fst snd] in H, Ht. subst s1'.
  rewrite app_assoc in Ht. unfold okAll at 1 in Ht. rewrite map_app in Ht. cbn [map] in Ht. apply tr_inj in Ht as [-> ->]. rewrite map_app in E.
  destruct (amps_related amps (useNormalizedAmps sp false) (useNormalizedAmps sp true)) with (tr := okAll [SUse true; SInit ws rank mass; SNorm nm; SAcc am over]) (s1' := sm1) as (sm0 & E0 & R & NM).
  { exists (stDec sp). split; [reflexivity|]. split; [reflexivity|]. cbn. intros e k w. rewrite Hz. unfold Cdiv. now rewrite Cmult_0_l. }
  { exact E. }
  assert (E0' : foldO (fun c '(s, tr) => do r <- exec s c; Some (fst r, tr ++ [(c, snd r)])) (map SAmp amps) (useNormalizedAmps sp false, okAll [SUse false; SInit ws rank mass; SNorm nm; SAcc am over]) = Some (sm0, okAll [SUse false; SInit ws rank mass; SNorm nm; SAcc am over] ++ okAll (map SAmp amps))).
  { assert (G : forall l s t t' s', foldO (fun c '(s, tr) => do r <- exec s c; Some (fst r, tr ++ [(c, snd r)])) l (s, t) = Some (s', t ++ okAll l) -> foldO (fun c '(s, tr) => do r <- exec s c; Some (fst r, tr ++ [(c, snd r)])) l (s, t') = Some (s', t' ++ okAll l)).
    { clear. induction l as [|c l IH]; intros s t t' s' H; cbn [foldO] in *; [inversion H; rewrite app_nil_r; reflexivity|]. destruct (exec s c) as [[s2 b]|]; [|discriminate]. cbn [bnd fst snd] in *.
      pose proof (trace_grows _ _ _ _ _ H) as (u & Hu & _). assert (b = true) by (cbn in Hu; rewrite <- app_assoc in Hu; apply app_inv_head in Hu; cbn in Hu; congruence). subst b.
      cbn [okAll map] in *. change ((c, true) :: map (fun c => (c, true)) l) with ([(c, true)] ++ okAll l) in *. rewrite app_assoc in *. eapply IH; eauto. }
    eapply G; exact E0. }
  destruct R as (d1 & -> & U0 & D). destruct (finish_inv _ _ Ef) as [FA FP]. cbn in FA, FP.
  destruct (finish_spec sm0 FA FP) as (s0 & F0 & _). pose proof (finish_closed _ _ F0) as (Ph0 & C0 & _). specialize (C0 U0). pose proof (finish_closed _ _ Ef) as (Ph1 & _ & C1). specialize (C1 eq_refl). cbn [stNormM stAccM] in C1.
  exists s0. split.
  { rewrite foldO_app, Hpre. cbn [bnd]. rewrite foldO_app, E0'. cbn [bnd foldO exec]. rewrite F0. cbn [bnd fst snd]. unfold okAll. rewrite !map_app, <- app_assoc. reflexivity. }
  pose proof (finish_fst _ _ F0) as (A1 & A2 & A3 & A4 & A5 & A6 & A7 & A8). pose proof (finish_fst _ _ Ef) as (B1 & B2 & B3 & B4 & B5 & B6 & B7 & B8). cbn in B1, B2, B3, B4, B5, B6, B7, B8.
  split; [congruence|]. split; [congruence|]. split; [congruence|]. split; [|split; [congruence|]].
  { clear - Ef F0 U0. unfold finishInit in *. cbn [stAdded stWaves stNormM stPhase stUse stAccM] in Ef. destruct (negb _); [discriminate|]. match type of Ef with bnd ?x _ = _ => destruct x; [|discriminate] end. cbn [bnd] in *.
    rewrite U0 in F0. cbn [bnd] in F0. match type of Ef with bnd ?x _ = _ => destruct x; [|discriminate] end. cbn [bnd] in *. inversion Ef; inversion F0. reflexivity. }
  intros tot width P f. destruct C0 as [C0n C0a]. rewrite C0n.
  pose proof (func_scale (toLik s0 tot FLAT width) (toLik s1 tot FLAT width) (waveNorm (stNormM sm0))) as S. unfold toLik in *. cbn [lkEvts lkShape lkTotAcc lkNormAmps lkPrior lkDec lkAcc] in S.
  apply S; clear S; try reflexivity.
  - congruence.
  - rewrite A1, A2, B1, B2. reflexivity.
  - congruence.
  - congruence.
  - intros; apply waveNorm_nz.
  - intros e k w _ _. rewrite A5, B5. apply D.
  - intros e i j He Hi Hj. rewrite C0a. apply C1; (split; [exact He|]); cbn [shWaves stWaves] in *; rewrite A2 in *; assumption.
Qed.
