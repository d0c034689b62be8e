(* C95: the result of a fit with NLopt; concrete fits and refutations *)
From Coq Require Import String Ascii List ZArith Reals Bool Lia Lra.
From Coquelicot Require Import Complex Hierarchy Derive.
From Verif Require Import ArrayModel PathModel StrModel DecModel CGBoxModel FitResultModel LikParModel LikParProofs LikParProps LikGradProps LikSignProps PwaFitModel PwaFitProofs PwaFitProps PwaFitEx NloptModel NloptProofs NloptProps.
Import ListNotations.
Open Scope list_scope. Open Scope nat_scope.

Lemma nlopt_inv L bounds u fn ch sv opt st r st' : pwaNloptFit L bounds u fn ch sv opt st = Some (r, st') ->
  fn = [] /\ exists o params par amps, optimize L (opt (nlStart u (liNmbEvents (nlBase L)) 0 (nlPars L))) st = Some (o, st') /\ addFixed (nlPars L) (noPars o) = Some params /\
    correctParamSigns (liShape (nlBase L)) (pdMap (liData (nlBase L))) params = Some par /\ noLik o = liEval (nlBase L) par /\
    buildProdAmpArrays (liShape (nlBase L)) (liNames (nlBase L)) par true = Some amps /\
    frNmbEvents r = Z.of_nat (liNmbEvents (nlBase L)) /\ frNormNmbEvents r = (if liNormalized (nlBase L) then 1 else Z.of_nat (liNmbEvents (nlBase L)))%Z /\ frBounds r = bounds /\
    frLogL r = noLik o /\ frRank r = Z.of_nat (shRank (liShape (nlBase L))) /\ frAmps r = map (fun x => fst (fst x)) amps /\ frAmpNames r = map snd amps /\
    frCovIdx r = map (fun x => snd (fst x)) amps /\
    frConverged r = (let c := (0 <? noResult o)%Z in if ch || negb sv then c && forallb (fun e => if Rle_dec e 0 then false else true) (liEigen (nlBase L) par) else c) /\
    frCovValid r = (if sv then false else negb (rows (nlCov L par) =? 0) && negb (cols (nlCov L par) =? 0)) /\
    frHasHessian r = (if sv then false else if negb (rows (nlCov L par) =? 0) && negb (cols (nlCov L par) =? 0) then true else frConverged r) /\
    frCov r = (if sv then emptyR else nlCov L par) /\
    frNorm r = (if sv then emptyC else liNorm (nlBase L)) /\ frAcc r = (if sv then emptyC else liAcc (nlBase L)) /\ frPhaseSpace r = (if sv then [] else liPhsp (nlBase L)).
Proof.
  unfold pwaNloptFit. intros E. destruct (Nat.eqb_spec (length fn) 0) as [F|F]; [|discriminate]. cbn [negb] in E. cbv zeta in E.
  destruct (optimize _ _ _) as [[o st1]|] eqn:E1; [|discriminate]. cbn [bnd] in E. destruct (addFixed _ _) as [params|] eqn:E2; [|discriminate]. cbn [bnd] in E.
  destruct (correctParamSigns _ _ _) as [par|] eqn:E3; [|discriminate]. cbn [bnd] in E. destruct (Req_EM_T (noLik o) _) as [E4|]; [|discriminate].
  destruct (buildProdAmpArrays _ _ _ _) as [amps|] eqn:E5; [|discriminate]. cbn [bnd] in E.
  split; [destruct fn; [reflexivity|discriminate]|]. exists o, params, par, amps.
  assert (E' := f_equal (fun x => match x with Some y => y | None => (frNew, st') end) E). cbv beta iota in E'. clear E. apply pair_equal_spec in E' as [E' ->]. subst r.
  repeat (split; [solve [assumption|reflexivity]|]). unfold fill. cbn [faCov faHasHessian faAmpNames faNorm faAcc faNmbEvents faNormNmbEvents faBounds faLogL faRank faAmps faCovIdx faPhaseSpace faConverged].
  destruct (fillWaves _ _ _ _) as [W M]. cbn [frNmbEvents frNormNmbEvents frBounds frLogL frRank frAmps frAmpNames frCovIdx frConverged frHasHessian frCovValid frCov frNorm frAcc frPhaseSpace].
  destruct sv; repeat split; reflexivity.
Qed.

(* a start value file cannot be used: any name ends the program *)
Theorem C95_no_start_file : forall L bounds u fn ch sv opt st, fn <> [] -> pwaNloptFit L bounds u fn ch sv opt st = None.
Proof. intros L bounds u [|c fn] ch sv opt st H; [now destruct H|reflexivity]. Qed.

(* the fit result: the parameters at which the optimiser stopped, with zeros for the fixed ones and after the choice of
   signs, with the likelihood of these, and the covariance matrix of the likelihood at these; converged exactly if the
   optimiser says so and no eigenvalue is not positive (if they are needed) *)
Theorem C95_result : forall L thr m bounds u fn ch sv opt st r st', ready (nlBase L) thr m ->
  pwaNloptFit L bounds u fn ch sv opt st = Some (r, st') ->
  exists o params par P flat, optimize L (opt (nlStart u (liNmbEvents (nlBase L)) 0 (nlPars L))) st = Some (o, st') /\
    length params = length (nlPars L) /\ (forall k p, nth_error (nlPars L) k = Some p -> fpFixed p = true -> nth_error params k = Some 0%R) /\
    (length (noPars o) + nmbFixed (nlPars L) = length (nlPars L) -> freeValues (nlPars L) params = noPars o) /\
    correctParamSigns (liShape (nlBase L)) (pdMap (liData (nlBase L))) params = Some par /\ copyFromParArray (liShape (nlBase L)) par = Some (P, flat) /\ (0 <= flat)%R /\
    frLogL r = liEval (nlBase L) par /\ noLik o = liEval (nlBase L) par /\ frNmbEvents r = Z.of_nat (liNmbEvents (nlBase L)) /\
    frNormNmbEvents r = (if liNormalized (nlBase L) then 1 else Z.of_nat (liNmbEvents (nlBase L)))%Z /\ frBounds r = bounds /\ frRank r = Z.of_nat (shRank (liShape (nlBase L))) /\
    frAmps r = map P (filter (fun t => rk t <=? wv t) (loopWaves (liShape (nlBase L)))) ++ [RtoC flat] /\
    frAmpNames r = map (fun t => ampName (Z.of_nat (rk t)) (liNames (nlBase L) (rf t) (wv t))) (filter (fun t => rk t <=? wv t) (loopWaves (liShape (nlBase L)))) ++ [flatName] /\
    frCovIdx r = map (pdMap (liData (nlBase L))) (filter (fun t => rk t <=? wv t) (loopWaves (liShape (nlBase L)))) ++ [(nmbPars (liShape (nlBase L)) - 1, -1)%Z] /\
    (frConverged r = true <-> (0 < noResult o)%Z /\ (ch = true \/ sv = false -> forall e, In e (liEigen (nlBase L) par) -> (0 < e)%R)) /\
    (sv = false -> frCov r = nlCov L par /\ frNorm r = liNorm (nlBase L) /\ frAcc r = liAcc (nlBase L) /\ frPhaseSpace r = liPhsp (nlBase L)) /\
    (sv = true -> frCovValid r = false /\ frHasHessian r = false /\ frNorm r = emptyC /\ frAcc r = emptyC /\ frPhaseSpace r = []).
Proof.
  intros L thr m bounds u fn ch sv opt st r st' (Hd & Hr & _ & _) E. apply nlopt_inv in E as (_ & o & params & par & amps & A1 & A2 & A3 & A4 & A5 & B1 & B2 & B3 & B4 & B5 & B6 & B7 & B8 & B9 & B10 & B11 & B12 & B13 & B14 & B15).
  destruct (addFixed_inv _ _ _ A2) as (C1 & C2 & C3).
  assert (Lx : Z.of_nat (length params) = nmbPars (liShape (nlBase L))).
  { rewrite C1. destruct (C36_parameters_one_to_one (liShape (nlBase L)) (liNames (nlBase L)) thr m) as (d & Ed & Ln & _). unfold nlPars. congruence. }
  destruct (correct_spec _ _ _ _ _ _ Hd Lx Hr) as (P0 & f0 & par' & P & _ & E' & Lp & EP & _). rewrite E' in A3. injection A3 as ->.
  destruct (C36_production_amplitude_arrays _ _ _ _ _ par true Hd Lp) as (P' & fl & E2 & E3). rewrite EP in E2. injection E2 as <- <-. rewrite E3 in A5. injection A5 as <-.
  rewrite !map_app, !map_map in B6, B7, B8.
  exists o, params, par, P, (flatPos f0). repeat (split; [solve [assumption|congruence|apply flatPos_nonneg]|]). split; [|split].
  - rewrite B9. cbv zeta.
    assert (F : forallb (fun e => if Rle_dec e 0 then false else true) (liEigen (nlBase L) par) = true <-> forall e, In e (liEigen (nlBase L) par) -> (0 < e)%R).
    { rewrite forallb_forall. split; intros H e He; specialize (H e He); destruct (Rle_dec e 0); try discriminate; try lra; reflexivity. }
    destruct ch, sv; cbn [orb negb]; rewrite ?andb_true_iff, ?F, Z.ltb_lt; intuition discriminate.
  - intros ->. rewrite B12, B13, B14, B15. repeat split.
  - intros ->. rewrite B10, B11, B13, B14, B15. repeat split.
Qed.

(* a fit of one free wave and the flat wave: one call of the objective function, then stop at (-2, 1) *)
Definition exNl (eig : list R) : nlikelihood :=
  NL (Lik sh1 nm1 data1 100 true (fun _ => (-5)%R) (fun _ => eig) emptyC emptyC []) (fun par => map (fun _ => 0%R) par) (fun par => Mat 2 2 (fun _ _ => 1%R)).
Definition exOpt (x : list R) : strategy := Ask x true (fun _ => Stop (NO 1 [(-2)%R; 1%R] (-5))).
Lemma exNl_pars eig : nlPars (exNl eig) = [FP [] 0 0%R false true; FP (lit "flat"%string) 0 0%R false true] /\ nlFixed (exNl eig) = 0.
Proof. unfold nlPars, nlFixed, exNl. cbn [nlBase liData]. unfold data1, buildParDataStruct. cbn -[Req_EM_T Rle_dec]. unfold parStep. cbn -[Req_EM_T Rle_dec]. destruct (Req_EM_T 0 0); [split; reflexivity|congruence]. Qed.
Lemma exNl_ready eig : ready (nlBase (exNl eig)) (fun _ _ => 0%R) 1%R.
Proof. exact fit_ready. Qed.
Lemma exNl_consistent eig : consistent (exNl eig).
Proof. destruct (exNl_pars eig) as [E1 E2]. split; [rewrite E1, E2; reflexivity|]. intros. apply map_length. Qed.
Lemma exNl_runs eig u : exists r st', pwaNloptFit (exNl eig) [] u [] false false exOpt (None, None) = Some (r, st').
Proof.
  destruct (exNl_pars eig) as [E1 E2]. unfold pwaNloptFit. cbn [length Nat.eqb negb]. cbv zeta. rewrite E1. cbn [nlStart fpFixed]. unfold exOpt. cbn [optimize]. unfold objective. rewrite E1, E2. cbn [length Nat.sub Nat.eqb negb bnd optimize noPars addFixed fpFixed fst snd].
  change (correctParamSigns (liShape (nlBase (exNl eig))) (pdMap (liData (nlBase (exNl eig)))) [(-2)%R; 1%R]) with (correctParamSigns sh1 (pdMap data1) [(-2)%R; 1%R]). rewrite fit_signs. cbn [bnd].
  change (liEval (nlBase (exNl eig)) [2%R; 1%R]) with (-5)%R. cbn [noLik]. destruct (Req_EM_T (-5) (-5)); [|lra].
  destruct (C36_production_amplitude_arrays sh1 nm1 (fun _ _ => 0%R) 1%R data1 [2%R; 1%R] true eq_refl eq_refl) as (P & f & _ & E).
  change (liShape (nlBase (exNl eig))) with sh1. change (liNames (nlBase (exNl eig))) with nm1. rewrite E. cbn [bnd]. eexists. eexists. reflexivity.
Qed.
Example C95_fit_ex : ready (nlBase (exNl [1%R])) (fun _ _ => 0%R) 1%R /\ consistent (exNl [1%R]) /\
  exists r st', pwaNloptFit (exNl [1%R]) [] (fun _ => (1/4)%R) [] false false exOpt (None, None) = Some (r, st') /\ frConverged r = true.
Proof.
  split; [apply exNl_ready|]. split; [apply exNl_consistent|]. destruct (exNl_runs [1%R] (fun _ => (1/4)%R)) as (r & st' & E). exists r, st'. split; [exact E|].
  destruct (nlopt_inv _ _ _ _ _ _ _ _ _ _ E) as (_ & o & params & par & amps & A1 & _ & _ & _ & _ & _ & _ & _ & _ & _ & _ & _ & _ & B9 & _). rewrite B9. cbv zeta.
  assert (Ho : noResult o = 1%Z).
  { destruct (exNl_pars [1%R]) as [P1 P2]. rewrite P1 in A1. cbn [nlStart fpFixed] in A1. unfold exOpt in A1. cbn [optimize] in A1. unfold objective in A1. rewrite P1, P2 in A1. cbn in A1. injection A1 as <- _. reflexivity. }
  rewrite Ho. cbn. destruct (Rle_dec 1 0); [lra|reflexivity].
Qed.
Example C95_fixed_ex : consistent (nlOf largerSh 0 []) /\ length [1%R] + nmbFixed (nlPars (nlOf largerSh 0 [])) = length (nlPars (nlOf largerSh 0 [])) /\ 0 < nmbFixed (nlPars (nlOf largerSh 0 [])).
Proof. destruct sizes_ex as (_ & _ & -> & ->). split; [apply nlOf_consistent|]. cbn. lia. Qed.
Example C95_gradient_ex : exists L, consistent L /\ 0 < nmbFixed (nlPars L) /\ (forall par k p0 gk, length par = length (nlPars L) -> nth_error par k = Some p0 -> nth_error (nlGrad L par) k = Some gk -> is_derive (fun y : R => liEval (nlBase L) (setAt par k y)) p0 gk).
Proof.
  exists (nlOf largerSh 0 []). destruct sizes_ex as (_ & _ & _ & F). split; [apply nlOf_consistent|]. split; [rewrite F; lia|]. intros par k p0 gk _ _ Hg. cbn in Hg.
  rewrite nth_error_map in Hg. destruct (nth_error par k); [|discriminate]. injection Hg as <-. cbn. apply (is_derive_const (0%R : R)).
Qed.
Example C95_jobs_ex : forall j, In j [Job (exNl [1%R]) [] (fun _ => (1/4)%R) [] false false exOpt; Job (exNl [2%R]) [] (fun _ => (1/3)%R) [] true true exOpt] ->
  consistent (jbL j) /\ length (nlPars (jbL j)) = 2 /\ forall x, length x = length (nlPars (jbL j)) - nmbFixed (nlPars (jbL j)) -> asks (length x) (jbOpt j x).
Proof.
  intros j [<-|[<-|[]]]; (split; [apply exNl_consistent|]); cbn [jbL jbOpt]; rewrite (proj1 (exNl_pars _)); (split; [reflexivity|]);
    intros x Hx; cbn in Hx; (apply asks_ask; [reflexivity|]); intros a; apply asks_stop; cbn; congruence.
Qed.

(* refuted: a fit whose Hessian matrix has a negative eigenvalue is not converged, yet its result says that it has a
   Hessian matrix, which the program meant to say only of converged fits *)
Theorem C95_hessian_flag_refuted : exists L bounds u opt r st', pwaNloptFit L bounds u [] false false opt (None, None) = Some (r, st') /\
  (forall par, liEigen (nlBase L) par = [(-1)%R]) /\ frConverged r = false /\ frHasHessian r = true.
Proof.
  destruct (exNl_runs [(-1)%R] (fun _ => (1/4)%R)) as (r & st' & E). exists (exNl [(-1)%R]), [], (fun _ => (1/4)%R), exOpt, r, st'. split; [exact E|]. split; [reflexivity|].
  destruct (nlopt_inv _ _ _ _ _ _ _ _ _ _ E) as (_ & o & params & par & amps & _ & _ & _ & _ & _ & _ & _ & _ & _ & _ & _ & _ & _ & B9 & _ & B11 & _). split; [|rewrite B11; reflexivity].
  rewrite B9. cbv zeta. cbn. destruct (Rle_dec (-1) 0); [apply andb_false_r|lra].
Qed.
