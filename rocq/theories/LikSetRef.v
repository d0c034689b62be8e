(* C42, C43: what the set-up protocol does not enforce (counterexamples) *)
From Coq Require Import String Ascii List ZArith Reals Bool Lia Lra.
From Coquelicot Require Import Complex.
From Verif Require Import ArrayModel PathModel StrModel CGBoxModel ParticleModel AmpIntModel LikParModel LikParProofs LikModel LikSetModel LikSetProofs LikSetProps LikNormProps LikScaleProps.
Import ListNotations.
Open Scope list_scope. Open Scope nat_scope.

(* adding the amplitude c of the only event of wave "A" *)
Lemma amp_simple s c : stAcc s = true -> stFiles s = [] -> stOrder s = [] -> m_find (lit "A"%string) (stParams s) = Some (1, 0) -> stEvts s = 0 \/ stEvts s = 1 ->
  stUse s = true -> (0 < Re (stNormM s 1 0 1 0))%R ->
  exists s', exec s (SAmp [Some (aA c)]) = Some (s', true) /\ stDec s' 1 0 0 = (c / RtoC (sqrt (Re (stNormM s 1 0 1 0))))%C /\
    stFiles s' = [] /\ stOrder s' = [] /\ stEvts s' = 1 /\ stAdded s' = upd2 (stAdded s) 1 0 true.
Proof.
  intros H1 H2 H3 H4 H5 H6 H7. cbn [exec]. unfold addAmplitude. rewrite H1. cbn [negb].
  change (mapOpt (fun m : option ampMeta => m) [Some (aA c)]) with (Some [aA c]). cbn [forallb]. rewrite str_eqb_refl. cbn [negb andb].
  change (amName (aA c)) with (lit "A"%string). rewrite H4, H2. cbv beta iota.
  change (countEvents false [] [aA c]) with (@nil (str * (nat * list nat)), 1). cbv zeta beta iota. rewrite H3.
  change (checkOrder _ _) with true. change (readAmps false [] [aA c]) with (Some [c]). cbn [bnd negb]. change (1 =? 0) with false. cbv beta iota.
  replace (if stEvts s =? 0 then 1 else stEvts s) with 1 by (destruct H5 as [-> | ->]; reflexivity). cbn [Nat.eqb negb].
  rewrite H6. cbn [copyAmps andb]. rewrite (Czero_false (stNormM s 1 0 1 0)) by (intros E; rewrite E in H7; cbn in H7; lra). cbn [andb negb].
  destruct (Rlt_dec 0 _); [|contradiction]. cbn [bnd negb]. eexists. split; [reflexivity|]. cbn. auto 6.
Qed.

(* the set-up of wave "A" with norm integral 4 and amplitude 1, up to finishInit *)
Lemma setupA : exists s1 s2, runs (hA (RtoC 4) (RtoC 1)) = Some (s1, okAll (hA (RtoC 4) (RtoC 1))) /\ exec s1 SFinish = Some (s2, true) /\
  stDec s1 1 0 0 = (RtoC 1 / RtoC 2)%C /\ stNormM s1 1 0 1 0 = RtoC 4 /\ isWave s1 1 0 /\ stUse s1 = true /\ stAcc s1 = true /\ stFiles s1 = [] /\ stOrder s1 = [] /\ stEvts s1 = 1 /\
  m_find (lit "A"%string) (stParams s1) = Some (1, 0) /\ (forall e i, isWave s1 e i -> (e, i) = (1, 0)) /\ stAdded s1 1 0 = true.
Proof.
  destruct (amp_simple (sPre (RtoC 4)) (RtoC 1)) as (s1 & E & D & F1 & F2 & F3 & F4); try reflexivity; [now left|cbn; lra|].
  assert (N4 : stNormM (sPre (RtoC 4)) 1 0 1 0 = RtoC 4) by (cbn -[Cdiv]; apply div1). rewrite N4 in D. cbn [Re fst RtoC] in D.
  replace (sqrt 4) with 2%R in D by (replace 4%R with (2 * 2)%R by lra; rewrite sqrt_square; lra).
  pose proof (amp_keeps _ _ _ _ E) as K. decompose [and] K. clear K.
  assert (W : forall e i, isWave s1 e i <-> (e, i) = (1, 0)).
  { intros e i. unfold isWave. match goal with X : stWaves s1 = _ |- _ => rewrite X end. cbn. split.
    - intros [A B]. destruct e as [|[|e]]; cbn in B; try lia. f_equal. lia.
    - intros X. inversion X; subst. cbn. lia. }
  assert (A : stAdded s1 1 0 = true) by (rewrite F4; apply upd2_same).
  destruct (finish_spec s1) as (s2 & Ef & _).
  { intros e i X. apply W in X. inversion X; subst. exact A. }
  { intros e i X. apply W in X. inversion X; subst. replace (stNormM s1) with (stNormM (sPre (RtoC 4))) by congruence. rewrite N4. cbn. lra. }
  exists s1, s2. split.
  { unfold hA. rewrite runs_snoc, runs_hPre. cbn [bnd fst snd]. rewrite E. cbn [bnd fst snd]. unfold okAll. now rewrite map_app. }
  split; [exact Ef|]. split; [exact D|]. split; [replace (stNormM s1) with (stNormM (sPre (RtoC 4))) by congruence; exact N4|].
  split; [now apply W|]. split; [replace (stUse s1) with (stUse (sPre (RtoC 4))) by congruence; reflexivity|].
  split; [replace (stAcc s1) with (stAcc (sPre (RtoC 4))) by congruence; reflexivity|]. repeat (split; [assumption|]).
  split; [replace (stParams s1) with (stParams (sPre (RtoC 4))) by congruence; reflexivity|]. split; [intros e i X; now apply W|exact A].
Qed.

(* the set-up order of C42 is satisfiable: a complete history in which every call succeeds *)
Example C42_complete_setup : exists s, runs (hA (RtoC 4) (RtoC 1) ++ [SFinish]) = Some (s, okAll (hA (RtoC 4) (RtoC 1) ++ [SFinish])).
Proof.
  destruct setupA as (s1 & s2 & R & F & _). exists s2. rewrite runs_snoc, R. cbn [bnd fst snd]. rewrite F. cbn [bnd fst snd]. unfold okAll. rewrite (map_app _ (hA _ _)). reflexivity.
Qed.
(* the hypothesis of C43_same_fit is satisfiable *)
Lemma trace_shift : forall l s t t' s', foldO (fun c '(s, tr) => do r <- exec s c; Some (fst r, tr ++ [(c, snd r)])) l (s, t) = Some (s', t ++ okAll l) -> foldO (fun c '(s, tr) => do r <- exec s c; Some (fst r, tr ++ [(c, snd r)])) l (s, t') = Some (s', t' ++ okAll l).
Proof.
  induction l as [|c l IH]; intros s t t' s' H; cbn [foldO] in *.
  - apply (f_equal (fun o => match o with Some x => Some (fst x) | None => None end)) in H. cbn in H. injection H as <-. now rewrite app_nil_r.
  - destruct (exec s c) as [[s2 b]|]; [|discriminate]. cbn [bnd fst snd] in *.
    pose proof (trace_grows _ _ _ _ _ H) as (u & Hu & _). assert (b = true) by (cbn in Hu; rewrite <- app_assoc in Hu; apply app_inv_head in Hu; cbn in Hu; congruence). subst b.
    cbn [okAll map] in *. change ((c, true) :: map (fun c => (c, true)) l) with ([(c, true)] ++ okAll l) in *. rewrite app_assoc in *. eapply IH; eauto.
Qed.
Lemma runs_use l s : runs l = Some (s, okAll l) -> runs (SUse true :: l) = Some (s, okAll (SUse true :: l)).
Proof.
  intros H. unfold runs in *. cbn [foldO exec bnd fst snd app]. change (useNormalizedAmps fresh true) with fresh. exact (trace_shift l fresh [] [(SUse true, true)] s H).
Qed.
Example C43_same_fit_ex : exists s, let h := setup true [wA] 1 1 (mA (RtoC 4)) (mA (RtoC 4)) 0 [[Some (aA (RtoC 1))]] in runs h = Some (s, okAll h).
Proof.
  destruct C42_complete_setup as (s & R). exists s. cbv zeta.
  change (setup true [wA] 1 1 (mA (RtoC 4)) (mA (RtoC 4)) 0 [[Some (aA (RtoC 1))]]) with (SUse true :: (hA (RtoC 4) (RtoC 1) ++ [SFinish])).
  now apply runs_use.
Qed.

(* C42 refuted: finishInit succeeds on an object on which nothing has been called *)
Theorem C42_finish_without_init_refuted : exists s, exec fresh SFinish = Some (s, true) /\ stFin s = true.
Proof. eexists. split; [reflexivity|reflexivity]. Qed.

(* C42 refuted: after finishInit the other set-up calls still succeed; an amplitude added again is
   then stored without normalisation, because the diagonal of the integral has become 1 *)
Theorem C42_amp_after_finish_refuted : exists h ms s1 s2 tr, 
  runs (h ++ [SAmp ms]) = Some (s1, tr) /\ runs (h ++ [SAmp ms; SFinish; SAmp ms]) = Some (s2, tr ++ [(SFinish, true); (SAmp ms, true)]) /\
  In (SAmp ms, true) tr /\ stDec s1 1 0 0 = (RtoC 1 / RtoC 2)%C /\ stDec s2 1 0 0 = RtoC 1.
Proof.
  destruct setupA as (s1 & s2 & R & F & D & N & W & U & A & Fl & O & E & M & Wu & Ad).
  pose proof F as F'. cbn [exec] in F'. pose proof (finish_keeps _ _ _ F') as K. decompose [and] K. clear K. destruct (finish_closed _ _ F') as (_ & _ & C). destruct (C U 1 0 1 0 W W) as [_ C']. cbn in C'. rewrite N, (Czero_false (RtoC 4)) in C' by (intros X; apply RtoC_inj in X; lra).
  destruct (amp_simple s2 (RtoC 1)) as (s3 & E3 & D3 & _); try congruence; [right; congruence|rewrite C'; cbn; lra|].
  exists (hPre (RtoC 4)), [Some (aA (RtoC 1))], s1, s3, (okAll (hA (RtoC 4) (RtoC 1))). split; [exact R|]. split; [|split; [|split; [exact D|]]].
  - change (hPre (RtoC 4) ++ [SAmp [Some (aA (RtoC 1))]; SFinish; SAmp [Some (aA (RtoC 1))]]) with ((hA (RtoC 4) (RtoC 1) ++ [SFinish]) ++ [SAmp [Some (aA (RtoC 1))]]).
    rewrite !runs_snoc, R. cbn [bnd fst snd]. rewrite F. cbn [bnd fst snd]. rewrite E3. cbn [bnd fst snd]. rewrite <- app_assoc. reflexivity.
  - unfold okAll, hA. rewrite map_app. apply in_or_app. right. now left.
  - rewrite D3, C'. cbn [Re fst RtoC]. rewrite sqrt_1. apply div1.
Qed.

(* C43 refuted as a property of repeated calls: a second finishInit succeeds and replaces the
   phase-space integrals by 1 *)
Theorem C43_finish_twice_refuted : exists h s1 s2 s3 tr, runs h = Some (s1, tr) /\ exec s1 SFinish = Some (s2, true) /\ exec s2 SFinish = Some (s3, true) /\
  isWave s1 1 0 /\ stPhase s2 1 0 = 2%R /\ stPhase s3 1 0 = 1%R.
Proof.
  destruct setupA as (s1 & s2 & R & F & D & N & W & U & A & Fl & O & E & M & Wu & Ad).
  pose proof F as F'. cbn [exec] in F'. pose proof (finish_keeps _ _ _ F') as K. decompose [and] K. clear K. destruct (finish_closed _ _ F') as (P & _ & C). destruct (C U 1 0 1 0 W W) as [_ C']. cbn in C'. rewrite N, (Czero_false (RtoC 4)) in C' by (intros X; apply RtoC_inj in X; lra).
  assert (W2 : forall e i, isWave s2 e i <-> isWave s1 e i) by (intros; unfold isWave; replace (stWaves s2) with (stWaves s1) by congruence; reflexivity).
  destruct (finish_spec s2) as (s3 & E3 & P3 & _).
  { intros e i X. apply W2, Wu in X. inversion X; subst. replace (stAdded s2) with (stAdded s1) by congruence. exact Ad. }
  { intros e i X. apply W2, Wu in X. inversion X; subst. rewrite C'. cbn. lra. }
  exists (hA (RtoC 4) (RtoC 1)), s1, s2, s3, (okAll (hA (RtoC 4) (RtoC 1))). split; [exact R|]. split; [exact F|]. split; [exact E3|]. split; [exact W|]. split.
  - rewrite (P 1 0 W), N. cbn. replace 4%R with (2 * 2)%R by lra. rewrite sqrt_square; lra.
  - rewrite (P3 1 0) by (now apply W2). rewrite C'. cbn. apply sqrt_1.
Qed.

(* C42 refuted: addAccIntegral changes the matrix of the caller, so that adding the same object
   again (e.g. to a second likelihood) silently gives acceptance 1 *)
Theorem C42_acc_twice_refuted : exists s m s1 m1 s2 m2, addAccIntegral s m 0 = Some (s1, m1, true) /\ addAccIntegral s1 m1 0 = Some (s2, m2, true) /\
  stTot s1 = Some (1 / 2)%R /\ stTot s2 = Some 1%R.
Proof.
  exists (let s := sPre (RtoC 4) in St (stWaves s) (stName s) (stThr s) (stAdded s) (stParams s) (stRank s) (stPars s) (stFixed s) (stMap s) (stInit s) (stNorm s) (stAcc s) (stFin s)
     2 (stNormM s) (stAccM s) (stTot s) (stUse s) (stEvts s) (stDec s) (stOrder s) (stFiles s) (stPhase s)), (mA (RtoC 4)).
  do 4 eexists. split; [reflexivity|]. split; [reflexivity|]. cbn. unfold odiv. destruct (Req_EM_T 2 0); [lra|]. split; [reflexivity|]. f_equal. field.
Qed.
(* in general: the second call with the same object gives total acceptance 1 *)
Theorem C42_acc_again : forall s m o s1 m1 s2 m2, addAccIntegral s m o = Some (s1, m1, true) -> addAccIntegral s1 m1 0 = Some (s2, m2, true) -> stNumb s1 <> 0%Z -> stTot s2 = Some 1%R.
Proof.
  intros s m o s1 m1 s2 m2 H1 H2 Hn. unfold addAccIntegral in *. destruct (negb (stNorm s)); [discriminate|]. cbv zeta in H1. destruct (reorder _ _ _); [|discriminate]. cbn [bnd] in H1. inversion H1; subst; clear H1. cbn in *.
  destruct (stNorm s); cbn [negb] in H2; [|discriminate]. match type of H2 with bnd ?x _ = _ => destruct x; [|discriminate] end. cbn in H2. inversion H2; subst. cbn. unfold odiv. destruct (Req_EM_T _ 0) as [E|E].
  - apply eq_IZR in E. contradiction.
  - f_equal. now field.
Qed.
