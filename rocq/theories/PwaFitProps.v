(* C94: the function that runs a fit *)
From Coq Require Import String Ascii List ZArith Reals Bool Lia Lra.
From Coquelicot Require Import Complex.
From Verif Require Import ArrayModel SumAccProofs PathModel StrModel DecModel CGBoxModel FitResultModel FitNameProps FitByNameProps LikParModel LikParProofs LikParProps LikGradProps LikSignProps PwaFitModel PwaFitProofs.
Import ListNotations.
Open Scope list_scope. Open Scope nat_scope.

(* the likelihood has been initialised for waves with distinct names that do not contain RE, IM or flat, at the mass m *)
Definition ready (L : likelihood) (thr : nat -> nat -> R) (m : R) : Prop :=
  buildParDataStruct (liShape L) (liNames L) thr m = Some (liData L) /\
  (shRank (liShape L) <= Nat.max (shWaves (liShape L) 0) (shWaves (liShape L) 1)) /\
  (forall e w e' w', e < 2 -> e' < 2 -> w < shWaves (liShape L) e -> w' < shWaves (liShape L) e' -> liNames L e w = liNames L e' w' -> e = e' /\ w = w') /\
  (forall e w, e < 2 -> w < shWaves (liShape L) e -> clean (liNames L e w)).
(* random numbers in the open unit interval *)
Definition randomNumbers (u : nat -> R) : Prop := forall k, (0 < u k < 1)%R.

(* without usable file: one variable per parameter in order; the k-th one starts at a random number between 0.01 and the
   square root of the number of events, negative if the second random number is above 1/2; parameters of waves below
   threshold are fixed to zero. The values are those of the seed *)
Theorem C94_random_start_values : forall u L, randomNumbers u ->
  exists vars, startValues u L None = Some vars /\ length vars = length (pdPars (liData L)) /\
    forall k p, nth_error (pdPars (liData L)) k = Some p -> exists v, nth_error vars k = Some (fpFixed p, v) /\
      (fpFixed p = true -> v = 0%R) /\
      (fpFixed p = false -> v <> 0%R
         /\ Rabs v = (1/100 + (sqrt (INR (liNmbEvents L)) - 1/100) * u (2 * k)%nat)%R
         /\ (Rmin (1/100) (sqrt (INR (liNmbEvents L))) <= Rabs v <= Rmax (1/100) (sqrt (INR (liNmbEvents L))))%R
         /\ ((v < 0)%R <-> (1/2 < u (2 * k + 1)%nat)%R)).
Proof.
  intros u L U. unfold startValues. rewrite (rand_fold u (liNmbEvents L) U). cbn [bnd snd app]. eexists. split; [reflexivity|]. split.
  - rewrite map_length, combine_length, seq_length. lia.
  - intros k p Hk. rewrite nth_error_map.
    assert (C : nth_error (List.combine (List.seq 0 (length (pdPars (liData L)))) (pdPars (liData L))) k = Some (k, p)).
    { assert (G : forall (l : list fitParameter) s k p, nth_error l k = Some p -> nth_error (List.combine (List.seq s (length l)) l) k = Some (s + k, p)).
      { clear. induction l as [|x l IH]; intros s [|k] p H; cbn in H; try discriminate; cbn [length List.seq List.combine nth_error].
        - injection H as <-. now rewrite Nat.add_0_r.
        - rewrite (IH (S s) k p H). f_equal. f_equal. lia. }
      now rewrite (G _ 0 k p Hk). }
    rewrite C. cbn [option_map fst snd]. destruct (fpFixed p); eexists; (split; [reflexivity|]); (split; [intros; try discriminate; auto|]); intros; try discriminate.
    change (0 + 2 * k) with (2 * k). split; [now apply draw_nz|]. pose proof (base_pos u (liNmbEvents L) (2 * k) U) as B. pose proof (draw_range u (liNmbEvents L) (2 * k) U) as D.
    split; [|split; [exact D|]]; clear D; unfold draw; replace (2 * k + 1) with (S (2 * k)) by lia; destruct (Rlt_dec (1/2) (u (S (2 * k)))) as [W|W].
    + rewrite Rabs_left by lra. ring.
    + now rewrite Rabs_pos_eq by lra.
    + split; intros; [exact W|lra].
    + split; intros; lra.
Qed.
Example C94_random_ex : randomNumbers (fun _ => (1/4)%R).
Proof. intros k. lra. Qed.

(* from a fit result: the values found under the names of the parameters; a zero or missing one is replaced by a random
   value different from zero; parameters below threshold are fixed to zero *)
Theorem C94_start_values_from_result : forall u L r vars, randomNumbers u -> startValues u L (Some r) = Some vars ->
  length vars = length (pdPars (liData L)) /\
  forall k p, nth_error (pdPars (liData L)) k = Some p -> exists x v, fitParameterOf r (parName p) = Some x /\ nth_error vars k = Some (fpFixed p, v) /\
    (fpFixed p = true -> v = 0%R) /\ (fpFixed p = false -> v <> 0%R /\ (x <> 0%R -> v = x) /\
      (x = 0%R -> (Rmin (1/100) (sqrt (INR (liNmbEvents L))) <= Rabs v <= Rmax (1/100) (sqrt (INR (liNmbEvents L))))%R)).
Proof.
  intros u L r vars U E. unfold startValues in E. destruct (foldO _ _ _) as [[k' out']|] eqn:F; [|discriminate]. cbn [bnd snd] in E. injection E as <-.
  apply from_fold in F as (vs & -> & F). cbn [app]. split; [symmetry; clear - F; induction F; cbn; congruence|].
  intros k p Hk. revert k Hk. induction F as [|q v l vs Hq F IH]; intros [|k] Hk; cbn in Hk; try discriminate; [|now apply IH]. injection Hk as ->.
  destruct Hq as (x & Ex & Hq). exists x. cbn [nth_error]. destruct (fpFixed p).
  - subst v. exists 0%R. repeat split; auto; intros; discriminate.
  - destruct v as [b v]. cbn [fst snd] in Hq. destruct Hq as (-> & H1 & H2). exists v. split; [exact Ex|]. split; [reflexivity|]. split; [discriminate|]. intros _.
    split; [|split; [exact H1|intros Z; destruct (H2 Z) as (j & ->); now apply draw_range]].
    destruct (Req_EM_T x 0) as [Z|Z]; [destruct (H2 Z) as (j & ->); now apply draw_nz|now rewrite (H1 Z)].
Qed.

(* of the fit results of the file the one nearest in mass is taken, the last one of several, provided at least one is as
   near as the mass zero *)
Theorem C94_nearest_result : forall bounds a b l, m_find (lit "mass"%string) bounds = Some (a, b) ->
  let c := ((a + b) / 2)%R in
  (exists e, In e l /\ (Rabs (c - massCenter e) <= Rabs (c - 0))%R) ->
  exists n r, startResult bounds (Tree l) = Some (Some r) /\ nth_error l n = Some r /\
    (forall e, In e l -> (Rabs (c - massCenter r) <= Rabs (c - massCenter e))%R) /\
    (forall n' e, n < n' -> nth_error l n' = Some e -> (Rabs (c - massCenter r) < Rabs (c - massCenter e))%R).
Proof.
  intros bounds a b l Hm c (e & He & Hd). unfold startResult. rewrite Hm. cbn [bnd fst snd]. fold c.
  destruct (bestLoop c 0 l (0, 0%R)) as [j m] eqn:E. apply best_inv in E. cbn [fst snd] in E.
  destruct E as [[_ H]|(n & r & E1 & -> & -> & E2 & E3 & E4)]; [exfalso; specialize (H e He); unfold dist in H; lra|].
  exists n, r. cbn [fst plus]. rewrite (nth_error_nth l n frNew E1). split; [reflexivity|]. split; [exact E1|]. split; [exact E3|exact E4].
Qed.
Definition atMass (x : R) : fitResult := FR 0 0 [(lit "mass"%string, (x, x))] 0 0 [] [] [] false emptyR [] emptyC emptyC (fun _ => None) [] false false.
Lemma atMass_center x : massCenter (atMass x) = x.
Proof. unfold massCenter. change (m_find _ (frBounds (atMass x))) with (Some (x, x)). cbv iota. lra. Qed.
Example C94_nearest_ex : exists e, In e [atMass 2; atMass 1] /\ (Rabs ((1 + 1) / 2 - massCenter e) <= Rabs ((1 + 1) / 2 - 0))%R.
Proof. exists (atMass 1). split; [right; now left|]. rewrite atMass_center. unfold Rabs. repeat destruct (Rcase_abs _); lra. Qed.
(* refuted: without that condition the first fit result of the file is taken, whatever its mass *)
Theorem C94_nearest_result_refuted : exists bounds l r e, m_find (lit "mass"%string) bounds = Some (1, 1)%R /\
  startResult bounds (Tree l) = Some (Some r) /\ In e l /\ (Rabs (1 - massCenter e) < Rabs (1 - massCenter r))%R.
Proof.
  exists [(lit "mass"%string, (1, 1)%R)], [atMass 4; atMass 3], (atMass 4), (atMass 3). split; [reflexivity|]. split.
  - unfold startResult. change (m_find _ [(lit "mass"%string, (1, 1)%R)]) with (Some (1, 1)%R). cbn [bnd fst snd bestLoop]. rewrite !atMass_center.
    destruct (Rle_dec (Rabs ((1 + 1) / 2 - 4)) (Rabs ((1 + 1) / 2 - 0))) as [X|X]; [exfalso; revert X; unfold Rabs; repeat destruct (Rcase_abs _); lra|]. cbn [snd].
    destruct (Rle_dec (Rabs ((1 + 1) / 2 - 3)) (Rabs ((1 + 1) / 2 - 0))) as [Y|Y]; [exfalso; revert Y; unfold Rabs; repeat destruct (Rcase_abs _); lra|]. reflexivity.
  - split; [right; now left|]. rewrite !atMass_center. unfold Rabs. repeat destruct (Rcase_abs _); lra.
Qed.
(* a file that cannot be used leaves the random values; a usable name without a mass bin ends the program *)
Theorem C94_no_file : forall bounds, startResult bounds TooShort = Some None /\
  (forall ab, m_find (lit "mass"%string) bounds = Some ab -> startResult bounds NoTree = Some None) /\
  (m_find (lit "mass"%string) bounds = None -> startResult bounds NoTree = None /\ forall l, startResult bounds (Tree l) = None).
Proof. intros bounds. split; [reflexivity|]. unfold startResult. split; [intros ab ->; reflexivity|intros ->; split; reflexivity]. Qed.

Lemma pwaFit_inv L bounds u file ch sv minimize r : pwaFit L bounds u file ch sv minimize = Some r ->
  exists from vars par amps, startResult bounds file = Some from /\ startValues u L from = Some vars /\
    correctParamSigns (liShape L) (pdMap (liData L)) (ouX (minimize vars)) = Some par /\ ouMin (minimize vars) = liEval L par /\
    buildProdAmpArrays (liShape L) (liNames L) par true = Some amps /\
    frNmbEvents r = Z.of_nat (liNmbEvents L) /\ frNormNmbEvents r = (if liNormalized L then 1 else Z.of_nat (liNmbEvents L))%Z /\ frBounds r = bounds /\
    frLogL r = ouMin (minimize vars) /\ frRank r = Z.of_nat (shRank (liShape L)) /\ frAmps r = map (fun x => fst (fst x)) amps /\ frAmpNames r = map snd amps /\
    frCovIdx r = map (fun x => snd (fst x)) amps /\
    frConverged r = (let conv := ouConv (minimize vars) && (if ch then forallb (fun e => if Rle_dec e 0 then false else true) (liEigen L par) else true) in if sv then conv else conv && ouHesse (minimize vars)) /\
    frHasHessian r = (if sv then false else if negb (length (pdPars (liData L)) =? 0) then true else ouHesse (minimize vars)) /\
    frCovValid r = (if sv then false else negb (length (pdPars (liData L)) =? 0)) /\
    frCov r = (if sv then emptyR else Mat (length (pdPars (liData L))) (length (pdPars (liData L))) (fun i j => (1/2 * ouCov (minimize vars) i j)%R)) /\
    frNorm r = (if sv then emptyC else liNorm L) /\ frAcc r = (if sv then emptyC else liAcc L) /\ frPhaseSpace r = (if sv then [] else liPhsp L).
Proof.
  unfold pwaFit. intros E. destruct (startResult bounds file) as [from|] eqn:E1; [|discriminate]. cbn [bnd] in E.
  destruct (startValues u L from) as [vars|] eqn:E2; [|discriminate]. cbn [bnd] in E. cbv zeta in E.
  destruct (correctParamSigns _ _ _) as [par|] eqn:E3; [|discriminate]. cbn [bnd] in E.
  destruct (Req_EM_T (ouMin (minimize vars)) (liEval L par)) as [E4|]; [|discriminate].
  destruct (buildProdAmpArrays _ _ _ _) as [amps|] eqn:E5; [|discriminate]. cbn [bnd] in E.
  exists from, vars, par, amps. split; [reflexivity|]. split; [exact E2|]. split; [exact E3|]. split; [exact E4|]. split; [exact E5|].
  apply (f_equal (fun o => match o with Some x => x | None => frNew end)) in E. cbv beta iota in E. subst r. unfold fill. cbn [faCov faHasHessian faAmpNames faNorm faAcc faNmbEvents faNormNmbEvents faBounds faLogL faRank faAmps faCovIdx faPhaseSpace faConverged].
  destruct (fillWaves _ _ _ _) as [W M]. cbn [frNmbEvents frNormNmbEvents frBounds frLogL frRank frAmps frAmpNames frCovIdx frConverged frHasHessian frCovValid frCov frNorm frAcc frPhaseSpace].
  destruct sv; cbn [rows cols]; repeat split; try reflexivity; destruct (length (pdPars (liData L)) =? 0); reflexivity.
Qed.

(* the fit result: numbers, bin and rank as given; the amplitudes are those of the parameters at the minimum after the
   signs are chosen, with name and indices of their parameters; the likelihood at these parameters is the minimum *)
Theorem C94_result_contents : forall L thr m bounds u file ch sv minimize r, ready L thr m ->
  (forall vars, Z.of_nat (length (ouX (minimize vars))) = nmbPars (liShape L)) ->
  pwaFit L bounds u file ch sv minimize = Some r ->
  exists from vars par P flat, startResult bounds file = Some from /\ startValues u L from = Some vars /\
    correctParamSigns (liShape L) (pdMap (liData L)) (ouX (minimize vars)) = Some par /\
    copyFromParArray (liShape L) par = Some (P, flat) /\ (0 <= flat)%R /\
    frLogL r = liEval L par /\ ouMin (minimize vars) = liEval L par /\
    frNmbEvents r = Z.of_nat (liNmbEvents L) /\ frNormNmbEvents r = (if liNormalized L then 1 else Z.of_nat (liNmbEvents L))%Z /\
    frBounds r = bounds /\ frRank r = Z.of_nat (shRank (liShape L)) /\
    frAmps r = map P (filter (fun t => rk t <=? wv t) (loopWaves (liShape L))) ++ [RtoC flat] /\
    frAmpNames r = map (fun t => ampName (Z.of_nat (rk t)) (liNames L (rf t) (wv t))) (filter (fun t => rk t <=? wv t) (loopWaves (liShape L))) ++ [flatName] /\
    frCovIdx r = map (pdMap (liData L)) (filter (fun t => rk t <=? wv t) (loopWaves (liShape L))) ++ [(nmbPars (liShape L) - 1, -1)%Z] /\
    (sv = false -> frNorm r = liNorm L /\ frAcc r = liAcc L /\ frPhaseSpace r = liPhsp L /\
       rows (frCov r) = length (pdPars (liData L)) /\ cols (frCov r) = length (pdPars (liData L)) /\ forall i j, el (frCov r) i j = (ouCov (minimize vars) i j / 2)%R) /\
    (sv = true -> frNorm r = emptyC /\ frAcc r = emptyC /\ frPhaseSpace r = [] /\ frCovValid r = false /\ frHasHessian r = false).
Proof.
  intros L thr m bounds u file ch sv minimize r (Hd & Hr & _ & _) HX E. apply pwaFit_inv in E as (from & vars & par & amps & A1 & A2 & A3 & A4 & A5 & B1 & B2 & B3 & B4 & B5 & B6 & B7 & B8 & B9 & B10 & B11 & B12 & B13 & B14 & B15).
  destruct (correct_spec _ _ _ _ _ _ Hd (HX vars) Hr) as (P0 & f0 & par' & P & _ & E' & Lp & EP & _). rewrite E' in A3. injection A3 as ->.
  destruct (C36_production_amplitude_arrays _ _ _ _ _ par true Hd Lp) as (P' & fl & E2 & E3). rewrite EP in E2. injection E2 as <- <-. rewrite E3 in A5. injection A5 as <-.
  exists from, vars, par, P, (flatPos f0). repeat (split; [solve [assumption|congruence|apply flatPos_nonneg]|]).
  rewrite !map_app, !map_map in B6, B7, B8. repeat (split; [assumption|]). split; intros ->; rewrite ?B10, ?B11, ?B12, ?B13, ?B14, ?B15; repeat split; try reflexivity. intros i j. cbn [el]. field.
Qed.

(* converged: the minimiser said so, no eigenvalue was found that is not positive if they were checked, and, unless the
   matrices are left out, the Hessian matrix was calculated *)
Theorem C94_converged : forall L bounds u file ch sv minimize r, pwaFit L bounds u file ch sv minimize = Some r ->
  exists from vars par, startResult bounds file = Some from /\ startValues u L from = Some vars /\ correctParamSigns (liShape L) (pdMap (liData L)) (ouX (minimize vars)) = Some par /\
    (frConverged r = true <-> ouConv (minimize vars) = true /\ (ch = true -> forall e, In e (liEigen L par) -> (0 < e)%R) /\ (sv = false -> ouHesse (minimize vars) = true)).
Proof.
  intros L bounds u file ch sv minimize r E. apply pwaFit_inv in E as (from & vars & par & amps & A1 & A2 & A3 & _ & _ & _ & _ & _ & _ & _ & _ & _ & _ & B9 & _).
  exists from, vars, par. repeat (split; [assumption|]). rewrite B9. cbv zeta.
  assert (F : (if ch then forallb (fun e => if Rle_dec e 0 then false else true) (liEigen L par) else true) = true <-> (ch = true -> forall e, In e (liEigen L par) -> (0 < e)%R)).
  { destruct ch; [|intuition discriminate]. rewrite forallb_forall. split.
    - intros H _ e He. specialize (H e He). destruct (Rle_dec e 0); [discriminate|lra].
    - intros H e He. specialize (H eq_refl e He). destruct (Rle_dec e 0); [lra|reflexivity]. }
  rewrite <- F. destruct sv; rewrite ?andb_true_iff; intuition (auto; discriminate).
Qed.

(* if choosing the signs changes the value of the likelihood there is no result *)
Theorem C94_value_changed : forall L bounds u file ch sv minimize from vars par,
  startResult bounds file = Some from -> startValues u L from = Some vars -> correctParamSigns (liShape L) (pdMap (liData L)) (ouX (minimize vars)) = Some par ->
  liEval L par <> ouMin (minimize vars) -> pwaFit L bounds u file ch sv minimize = None.
Proof.
  intros L bounds u file ch sv minimize from vars par E1 E2 E3 N. unfold pwaFit. rewrite E1. cbn [bnd]. rewrite E2. cbn [bnd]. cbv zeta. rewrite E3. cbn [bnd].
  destruct (Req_EM_T _ _) as [X|]; [now destruct N|reflexivity].
Qed.

(* the same seed, file and likelihood give the same start values, whatever the options and the minimiser *)
Theorem C94_reproducible : forall L bounds u u' file ch sv minimize, (forall k, u k = u' k) ->
  pwaFit L bounds u file ch sv minimize = pwaFit L bounds u' file ch sv minimize.
Proof.
  intros L bounds u u' file ch sv minimize H.
  assert (D : forall N k, draw u N k = draw u' N k) by (intros; unfold draw; now rewrite !H).
  assert (F : forall from l s, foldO (startStep u (liNmbEvents L) from) l s = foldO (startStep u' (liNmbEvents L) from) l s).
  { intros from. induction l as [|p l IH]; intros [k out]; cbn [foldO]; [reflexivity|].
    assert (E : startStep u (liNmbEvents L) from p (k, out) = startStep u' (liNmbEvents L) from p (k, out)).
    { unfold startStep. rewrite !D. destruct from as [r|]; [destruct (fitParameterOf r (parName p))|]; cbn [bnd]; rewrite ?D; reflexivity. }
    rewrite E. destruct (startStep u' _ _ _ _) as [s|]; cbn [bnd]; [apply IH|reflexivity]. }
  unfold pwaFit, startValues. destruct (startResult bounds file) as [from|]; cbn [bnd]; [|reflexivity]. now rewrite F.
Qed.
