(* C93: a complete set-up of the likelihood for a wave with a parsable name, and a fit result with this wave. *)
From Coq Require Import String Ascii List ZArith Reals Bool Lia Lra.
From Coquelicot Require Import Complex.
From Verif Require Import ArrayModel PathModel StrModel CGBoxModel ParticleModel AmpIntModel LikParModel LikParProofs LikModel LikSetModel LikSetProofs LikSetProps LikNormProps LikScaleProps LikSetRef LikIntProps FitResultModel AddIntModel AddIntSpec AddIntProofs AddIntProps.
Import ListNotations.
Open Scope list_scope. Open Scope nat_scope.

Definition x_wA : waveIn := (exW, 1%Z, 0%R).
Definition x_mA (z : C) : aim := AIM 1 [exW] 1 [[z]].
Definition x_aA (c : C) : ampMeta := AM (exW) [] [[c]].
Definition x_hPre (z : C) : list scall := [SInit [x_wA] 1 1%R; SNorm (x_mA z); SAcc (x_mA z) 0].
Definition x_hA (z c : C) : list scall := x_hPre z ++ [SAmp [Some (x_aA c)]].
Definition x_dA : parData := match buildParDataStruct (Shape 1 (fun e => length (ofRefl e [x_wA]))) (upd2 (fun _ _ => []) 1 0 (exW)) (upd2 (fun _ _ => 0%R) 1 0 0%R) 1 with Some d => d | None => PD 0 [] 0 (fun _ => (0, 0)%Z) end.
Lemma x_dA_pars : pdPars x_dA = [FP (exW) 0 0%R false true; FP (lit "flat"%string) 0 0%R false true].
Proof. unfold x_dA, buildParDataStruct. cbn -[Req_EM_T Rle_dec]. unfold parStep. cbn -[Req_EM_T Rle_dec]. destruct (Req_EM_T 0 0); [reflexivity|congruence]. Qed.
Lemma x_dA_fixed : pdFixed x_dA = 0.
Proof. unfold x_dA, buildParDataStruct. cbn -[Req_EM_T Rle_dec]. unfold parStep. cbn -[Req_EM_T Rle_dec]. destruct (Req_EM_T 0 0); [reflexivity|congruence]. Qed.
(* the state before the amplitude is added *)
Definition x_sPre (z : C) : state :=
  St (fun e => length (ofRefl e [x_wA])) (upd2 (fun _ _ => []) 1 0 (exW)) (upd2 (fun _ _ => 0%R) 1 0 0%R) (upd2 (fun _ _ => false) 1 0 false)
     [(exW, (1, 0))] 1 (pdPars x_dA) (pdFixed x_dA) (pdMap x_dA) true true true false 1 (upd4 (fun _ _ _ _ => RtoC 0) 1 0 1 0 (z / RtoC 1)%C)
     (upd4 (fun _ _ _ _ => RtoC 0) 1 0 1 0 (z / RtoC 1)%C) (odiv 1 1) true 0 (fun _ _ _ => RtoC 0) [] [] (fun _ _ => 0%R).
Lemma x_build_dA : buildParDataStruct (Shape 1 (fun e => length (ofRefl e [x_wA]))) (upd2 (fun _ _ => []) 1 0 (exW)) (upd2 (fun _ _ => 0%R) 1 0 0%R) 1 = Some x_dA.
Proof. unfold x_dA. destruct (build_spec (upd2 (fun _ _ => []) 1 0 (exW)) (upd2 (fun _ _ => 0%R) 1 0 0%R) 1 (Shape 1 (fun e => length (ofRefl e [x_wA])))) as (d & -> & _). reflexivity. Qed.
Lemma x_runs_hPre z : runs (x_hPre z) = Some (x_sPre z, okAll (x_hPre z)).
Proof.
  unfold x_hPre, runs. cbn [foldO exec]. unfold init.
  assert (E : readWaveList fresh [x_wA] = Some (St (fun e => length (ofRefl e [x_wA])) (upd2 (fun _ _ => []) 1 0 (exW)) (upd2 (fun _ _ => 0%R) 1 0 0%R) (upd2 (fun _ _ => false) 1 0 false) [(exW, (1, 0))]
     1 [] 0 (fun _ => (0, 0)%Z) false false false false 0 (fun _ _ _ _ => RtoC 0) (fun _ _ _ _ => RtoC 0) None true 0 (fun _ _ _ => RtoC 0) [] [] (fun _ _ => 0%R))) by reflexivity.
  rewrite E. cbn [bnd stWaves]. change (length (ofRefl 0 [x_wA]) + length (ofRefl 1 [x_wA]) =? 0) with false. cbn iota.
  cbn [stName stThr]. rewrite x_build_dA. reflexivity.
Qed.
Lemma x_runs_hA z c : (0 < Re z)%R \/ z = RtoC 0 /\ c = RtoC 0 ->
  exists s, runs (x_hA z c) = Some (s, okAll (x_hA z c)) /\ exec (x_sPre z) (SAmp [Some (x_aA c)]) = Some (s, true) /\
    stDec s 1 0 0 = (if Czero z then c else c / RtoC (sqrt (Re z)))%C /\
    stPars s = (if Czero z && Czero c then fixWave (exW) (pdPars x_dA) else pdPars x_dA) /\ stAdded s 1 0 = true.
Proof.
  intros H. unfold x_hA.
  assert (E : exists s, exec (x_sPre z) (SAmp [Some (x_aA c)]) = Some (s, true) /\
    stDec s 1 0 0 = (if Czero z then c else c / RtoC (sqrt (Re z)))%C /\
    stPars s = (if Czero z && Czero c then fixWave (exW) (pdPars x_dA) else pdPars x_dA) /\ stAdded s 1 0 = true).
  { cbn [exec]. unfold addAmplitude. change (stAcc (x_sPre z)) with true. cbn [negb].
    change (mapOpt (fun m : option ampMeta => m) [Some (x_aA c)]) with (Some [x_aA c]). cbn [forallb negb andb].
    rewrite str_eqb_refl. cbn [negb andb]. change (m_find (amName (x_aA c)) (stParams (x_sPre z))) with (Some (1, 0)). cbn iota.
    change (stFiles (x_sPre z)) with (@nil (str * (nat * list nat))). cbn iota.
    change (countEvents false [] [x_aA c]) with (@nil (str * (nat * list nat)), 1). cbv zeta beta iota.
    change (checkOrder _ _) with true. change (readAmps false [] [x_aA c]) with (Some [c]). cbn [bnd negb].
    change (1 =? 0) with false. cbv beta iota. change (stEvts (x_sPre z)) with 0. cbn [Nat.eqb negb].
    change (stNormM (x_sPre z) 1 0 1 0) with (z / RtoC 1)%C. change (stAccM (x_sPre z) 1 0 1 0) with (z / RtoC 1)%C. rewrite div1. change (stUse (x_sPre z)) with true.
    cbn [copyAmps andb]. destruct H as [H|[-> ->]].
    - rewrite (Czero_false z) by (intros ->; cbn in H; lra). cbn [andb negb]. destruct (Rlt_dec 0 (Re z)); [|contradiction]. cbn [bnd negb]. eexists. split; [reflexivity|]. cbn. split; [reflexivity|]. split; [|reflexivity]. now destruct (Czero _).
    - rewrite !Czero_true by reflexivity. cbn [andb negb bnd]. rewrite !Czero_true by reflexivity. eexists. split; [reflexivity|]. cbn. repeat split; reflexivity. }
  destruct E as (s & E & R). exists s. split; [|split; [exact E|exact R]].
  rewrite runs_snoc, x_runs_hPre. cbn [bnd fst snd]. rewrite E. cbn [bnd fst snd]. unfold okAll. now rewrite map_app.
Qed.
(* adding the amplitude c of the only event of wave "A" *)
Lemma x_amp_simple s c : stAcc s = true -> stFiles s = [] -> stOrder s = [] -> m_find (exW) (stParams s) = Some (1, 0) -> stEvts s = 0 \/ stEvts s = 1 ->
  stUse s = true -> (0 < Re (stNormM s 1 0 1 0))%R ->
  exists s', exec s (SAmp [Some (x_aA c)]) = Some (s', true) /\ stDec s' 1 0 0 = (c / RtoC (sqrt (Re (stNormM s 1 0 1 0))))%C /\
    stFiles s' = [] /\ stOrder s' = [] /\ stEvts s' = 1 /\ stAdded s' = upd2 (stAdded s) 1 0 true.
Proof.
  intros H1 H2 H3 H4 H5 H6 H7. cbn [exec]. unfold addAmplitude. rewrite H1. cbn [negb].
  change (mapOpt (fun m : option ampMeta => m) [Some (x_aA c)]) with (Some [x_aA c]). cbn [forallb]. rewrite str_eqb_refl. cbn [negb andb].
  change (amName (x_aA c)) with (exW). rewrite H4, H2. cbv beta iota.
  change (countEvents false [] [x_aA c]) with (@nil (str * (nat * list nat)), 1). cbv zeta beta iota. rewrite H3.
  change (checkOrder _ _) with true. change (readAmps false [] [x_aA c]) with (Some [c]). cbn [bnd negb]. change (1 =? 0) with false. cbv beta iota.
  replace (if stEvts s =? 0 then 1 else stEvts s) with 1 by (destruct H5 as [-> | ->]; reflexivity). cbn [Nat.eqb negb].
  rewrite H6. cbn [copyAmps andb]. rewrite (Czero_false (stNormM s 1 0 1 0)) by (intros E; rewrite E in H7; cbn in H7; lra). cbn [andb negb].
  destruct (Rlt_dec 0 _); [|contradiction]. cbn [bnd negb]. eexists. split; [reflexivity|]. cbn. auto 6.
Qed.

(* the set-up of wave "A" with norm integral 4 and amplitude 1, up to finishInit *)
Lemma x_setupA : exists s1 s2, runs (x_hA (RtoC 4) (RtoC 1)) = Some (s1, okAll (x_hA (RtoC 4) (RtoC 1))) /\ exec s1 SFinish = Some (s2, true) /\
  stDec s1 1 0 0 = (RtoC 1 / RtoC 2)%C /\ stNormM s1 1 0 1 0 = RtoC 4 /\ isWave s1 1 0 /\ stUse s1 = true /\ stAcc s1 = true /\ stFiles s1 = [] /\ stOrder s1 = [] /\ stEvts s1 = 1 /\
  m_find (exW) (stParams s1) = Some (1, 0) /\ (forall e i, isWave s1 e i -> (e, i) = (1, 0)) /\ stAdded s1 1 0 = true.
Proof.
  destruct (x_amp_simple (x_sPre (RtoC 4)) (RtoC 1)) as (s1 & E & D & F1 & F2 & F3 & F4); try reflexivity; [now left|cbn; lra|].
  assert (N4 : stNormM (x_sPre (RtoC 4)) 1 0 1 0 = RtoC 4) by (cbn -[Cdiv]; apply div1). rewrite N4 in D. cbn [Re fst RtoC] in D.
  replace (sqrt 4) with 2%R in D by (replace 4%R with (2 * 2)%R by lra; rewrite sqrt_square; lra).
  pose proof (amp_keeps _ _ _ _ E) as K. decompose [and] K. clear K.
  assert (W : forall e i, isWave s1 e i <-> (e, i) = (1, 0)).
  { intros e i. unfold isWave. match goal with X : stWaves s1 = _ |- _ => rewrite X end. cbn. split.
    - intros [A B]. destruct e as [|[|e]]; cbn in B; try lia. f_equal. lia.
    - intros X. inversion X; subst. cbn. lia. }
  assert (A : stAdded s1 1 0 = true) by (rewrite F4; apply upd2_same).
  destruct (finish_spec s1) as (s2 & Ef & _).
  { intros e i X. apply W in X. inversion X; subst. exact A. }
  { intros e i X. apply W in X. inversion X; subst. replace (stNormM s1) with (stNormM (x_sPre (RtoC 4))) by congruence. rewrite N4. cbn. lra. }
  exists s1, s2. split.
  { unfold x_hA. rewrite runs_snoc, x_runs_hPre. cbn [bnd fst snd]. rewrite E. cbn [bnd fst snd]. unfold okAll. now rewrite map_app. }
  split; [exact Ef|]. split; [exact D|]. split; [replace (stNormM s1) with (stNormM (x_sPre (RtoC 4))) by congruence; exact N4|].
  split; [now apply W|]. split; [replace (stUse s1) with (stUse (x_sPre (RtoC 4))) by congruence; reflexivity|].
  split; [replace (stAcc s1) with (stAcc (x_sPre (RtoC 4))) by congruence; reflexivity|]. repeat (split; [assumption|]).
  split; [replace (stParams s1) with (stParams (x_sPre (RtoC 4))) by congruence; reflexivity|]. split; [intros e i X; now apply W|exact A].
Qed.

Lemma x_complete : exists s, runs (x_hA (RtoC 4) (RtoC 1) ++ [SFinish]) = Some (s, okAll (x_hA (RtoC 4) (RtoC 1) ++ [SFinish])).
Proof.
  destruct x_setupA as (s1 & s2 & R & F & _). exists s2. rewrite runs_snoc, R. cbn [bnd fst snd]. rewrite F. cbn [bnd fst snd]. unfold okAll. rewrite (map_app _ (x_hA _ _)). reflexivity.
Qed.
Lemma x_setup : exists s, let h := setup true [x_wA] 1 1 (x_mA (RtoC 4)) (x_mA (RtoC 4)) 0 [[Some (x_aA (RtoC 1))]] in runs h = Some (s, okAll h).
Proof.
  destruct x_complete as (s & R). exists s. cbv zeta.
  change (setup true [x_wA] 1 1 (x_mA (RtoC 4)) (x_mA (RtoC 4)) 0 [[Some (x_aA (RtoC 1))]]) with (SUse true :: (x_hA (RtoC 4) (RtoC 1) ++ [SFinish])).
  now apply runs_use.
Qed.

(* the hypotheses of C93_as_fitted can be met *)
Example C93_as_fitted_ex : exists s Nm Am ph, let m := x_mA (RtoC 4) in let h := setup true [x_wA] 1 1 m m 0 [[Some (x_aA (RtoC 1))]] in
  runs h = Some (s, okAll h) /\ getIntegralMatrices s true = Some (Nm, Am, ph)
  /\ stored exFit /\ without exFit /\ frWaveNames exFit = map wiName (waveOrder [x_wA]) ++ [lit "flat"]
  /\ (forall x, In x (waveOrder [x_wA]) -> wiName x <> lit "flat" /\ getReflectivity (wiName x) = Some (wiRefl x))
  /\ usable m (map wiName (waveOrder [x_wA])) /\ covers m (map wiName (waveOrder [x_wA])).
Proof.
  destruct x_setup as [s H]. cbv zeta in *. exists s. destruct (setup_before _ _ _ _ _ _ _ _ _ H) as (s1 & F & _ & _ & _ & T & _).
  cbn [exec] in F. pose proof (finish_keeps _ _ _ F) as K.
  assert (Ht : exists tot, stTot s = Some tot).
  { exists (1 / 1)%R. replace (stTot s) with (stTot s1) by (decompose [and] K; congruence). rewrite T. unfold odiv. cbn. destruct (Req_EM_T 1 0); [lra|reflexivity]. }
  destruct Ht as [tot Ht]. unfold getIntegralMatrices. cbv zeta. rewrite Ht. cbn [bnd]. do 3 eexists. split; [exact H|]. split; [reflexivity|].
  destruct ex_ok as (St & Wi & _). split; [exact St|]. split; [exact Wi|]. split; [reflexivity|].
  change (waveOrder [x_wA]) with [x_wA]. cbn [map wiName x_wA fst].
  assert (C : covers (x_mA (RtoC 4)) [exW]). { split; [reflexivity|]. intros a b [<-|[]] [<-|[]]. eexists. eapply ex_int; reflexivity. }
  split. { intros x [<-|[]]. split; [discriminate|reflexivity]. }
  split; [|exact C]. split; [reflexivity|]. split; [exact C|]. intros a v [<-|[]] Hv. rewrite (integralOf_fun _ _ _ _ _ _ Hv (ex_int (x_mA (RtoC 4)) (RtoC 4) _ 1 eq_refl 1 eq_refl)). rewrite (div1 (RtoC 4)). cbn. lra.
Qed.
