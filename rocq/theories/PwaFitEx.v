(* C94: fits started from the result of a fit; concrete fits and refutations *)
From Coq Require Import String Ascii List ZArith Reals Bool Lia Lra.
From Coquelicot Require Import Complex.
From Verif Require Import ArrayModel SumAccProofs PathModel StrModel DecModel CGBoxModel FitResultModel FitNameProps FitByNameProps LikParModel LikParProofs LikParProps LikGradProps LikSignProps PwaFitModel PwaFitProofs PwaFitProps.
Import ListNotations.
Open Scope list_scope. Open Scope nat_scope.

Lemma nth_split_filter {A} (f : A -> bool) (l : list A) x : In x (filter f l) -> exists i, nth_error (filter f l) i = Some x.
Proof. apply In_nth_error. Qed.

(* every parameter of a likelihood with the same waves is found in a result with these amplitudes *)
Lemma parameter_found sh names thr m d par P flat r : buildParDataStruct sh names thr m = Some d ->
  (forall e w e' w', e < 2 -> e' < 2 -> w < shWaves sh e -> w' < shWaves sh e' -> names e w = names e' w' -> e = e' /\ w = w') ->
  (forall e w, e < 2 -> w < shWaves sh e -> clean (names e w)) ->
  Z.of_nat (length par) = nmbPars sh -> copyFromParArray sh par = Some (P, flat) ->
  frAmps r = map P (filter (fun t => rk t <=? wv t) (loopWaves sh)) ++ [RtoC flat] ->
  frAmpNames r = map (fun t => ampName (Z.of_nat (rk t)) (names (rf t) (wv t))) (filter (fun t => rk t <=? wv t) (loopWaves sh)) ++ [flatName] ->
  forall k q, nth_error (pdPars d) k = Some q -> exists x, nth_error par k = Some x /\ fitParameterOf r (parName q) = Some x.
Proof.
  intros Hd Hinj Hcl Hl Hc HA HN k q Hk. destruct (build_spec names thr m sh) as (d' & E & _ & Hp & _). assert (d' = d) by congruence. subst d'. clear E.
  destruct (from_spec sh par ltac:(lia)) as (P' & fl & E & F0 & F1 & _ & _). rewrite Hc in E. injection E as <- <-.
  set (W := filter (fun t => rk t <=? wv t) (loopWaves sh)) in *.
  assert (LL : length (frAmps r) = length (frAmpNames r)) by (rewrite HA, HN, !app_length, !map_length; reflexivity).
  assert (ND : NoDup (frAmpNames r)).
  { rewrite HN. apply NoDup_Add with (a := flatName) (l := map (fun t => ampName (Z.of_nat (rk t)) (names (rf t) (wv t))) W).
    - rewrite <- (app_nil_r (map _ W)) at 1. apply Add_app.
    - split.
      + assert (NW : NoDup W) by (apply NoDup_filter, loopWaves_NoDup).
        assert (IW : forall t, In t W -> In t (loopWaves sh)) by (intros t Ht; now apply filter_In in Ht).
        clear - NW IW Hinj. induction W as [|t W IH]; [constructor|]. apply NoDup_cons_iff in NW as [N1 N2]. cbn [map]. constructor; [|apply IH; [exact N2|intros; apply IW; now right]].
        intros Hi. apply in_map_iff in Hi as (t' & Ee & Ht'). destruct (C31_names_unique _ _ _ _ (Nat2Z.is_nonneg (rk t')) (Nat2Z.is_nonneg (rk t)) Ee) as [U1 U2].
        pose proof (IW t (or_introl eq_refl)) as I1. pose proof (IW t' (or_intror Ht')) as I2. destruct t as [[a e] w], t' as [[a' e'] w']. unfold rk, rf, wv in *. cbn [fst snd] in *.
        apply loopWaves_In in I1, I2. destruct (Hinj e' w' e w) as [-> ->]; try tauto. apply Nat2Z.inj in U1. now subst.
      + intros Hi. apply in_map_iff in Hi as (t & Ee & _). now apply (ampName_not_flat (Z.of_nat (rk t)) (names (rf t) (wv t))) in Ee; [|lia]. }
  rewrite Hp in Hk. destruct (Nat.lt_ge_cases k (length (comps (loopWaves sh)))) as [Lk|Lk].
  - rewrite nth_error_app1 in Hk by (rewrite map_length; exact Lk). rewrite nth_error_map in Hk. destruct (nth_error (comps (loopWaves sh)) k) as [[t b]|] eqn:Ek; [|discriminate]. cbn in Hk. injection Hk as <-.
    exists (part b (P t)). split; [now apply F1|]. pose proof (nth_error_In _ _ Ek) as Ht. apply comps_In in Ht as [Ht Hb].
    assert (HW : In t W) by (apply filter_In; split; [exact Ht|apply Nat.leb_le; destruct b; lia]). apply nth_split_filter in HW as (i & Hi). fold W in Hi.
    assert (Li : i < length W) by (apply nth_error_Some; congruence).
    rewrite (C67_parameter_by_name r (parOf names thr m (t, b)) i (P t) LL ND).
    + reflexivity.
    + unfold parOf. cbn [fpWave fst]. destruct t as [[a e] w]. apply loopWaves_In in Ht. unfold rf, wv. cbn [fst snd]. now apply Hcl.
    + rewrite HN, nth_error_app1 by (rewrite map_length; exact Li). rewrite nth_error_map, Hi. reflexivity.
    + rewrite HA, nth_error_app1 by (rewrite map_length; exact Li). rewrite nth_error_map, Hi. reflexivity.
  - rewrite nth_error_app2 in Hk by (rewrite map_length; exact Lk). rewrite map_length in Hk. destruct (k - length (comps (loopWaves sh))) as [|n] eqn:Ek; [|destruct n; discriminate].
    assert (k = length (comps (loopWaves sh))) by lia. subst k. cbn in Hk. injection Hk as <-. exists flat. split; [exact F0|].
    apply (C67_flat_parameter r (FP (lit "flat"%string) 0 0%R false true) (length W) (RtoC flat) LL ND eq_refl eq_refl).
    + rewrite HN, nth_error_app2 by (rewrite map_length; lia). now rewrite map_length, Nat.sub_diag.
    + rewrite HA, nth_error_app2 by (rewrite map_length; lia). now rewrite map_length, Nat.sub_diag.
Qed.

(* a fit with the same waves, e.g. in the next bin, that starts from the result of a fit starts with the parameters this
   fit has found *)
Theorem C94_continued_fit : forall L thr m bounds u file ch sv minimize r L' thr' m' u', ready L thr m -> ready L' thr' m' ->
  liShape L' = liShape L -> liNames L' = liNames L -> randomNumbers u' ->
  (forall vars, Z.of_nat (length (ouX (minimize vars))) = nmbPars (liShape L)) ->
  pwaFit L bounds u file ch sv minimize = Some r ->
  exists from vars par vars', startResult bounds file = Some from /\ startValues u L from = Some vars /\ correctParamSigns (liShape L) (pdMap (liData L)) (ouX (minimize vars)) = Some par /\
    frLogL r = liEval L par /\ Z.of_nat (length par) = nmbPars (liShape L) /\ startValues u' L' (Some r) = Some vars' /\
    forall k q x, nth_error (pdPars (liData L')) k = Some q -> nth_error par k = Some x ->
      (fpFixed q = true -> nth_error vars' k = Some (true, 0%R)) /\ (fpFixed q = false -> x <> 0%R -> nth_error vars' k = Some (false, x)).
Proof.
  intros L thr m bounds u file ch sv minimize r L' thr' m' u' HL (Hd' & _ & _ & _) Es En U HX E.
  destruct (C94_result_contents L thr m bounds u file ch sv minimize r HL HX E) as (from & vars & par & P & flat & A1 & A2 & A3 & A4 & _ & B1 & _ & _ & _ & _ & _ & BA & BN & _).
  destruct HL as (Hd & Hr & Hinj & Hcl). rewrite Es, En in Hd'.
  assert (Lp : Z.of_nat (length par) = nmbPars (liShape L)).
  { destruct (correct_spec _ _ _ _ _ _ Hd (HX vars) Hr) as (? & ? & par' & ? & _ & E' & Lp & _). rewrite E' in A3. now injection A3 as <-. }
  pose proof (parameter_found _ _ _ _ _ _ _ _ r Hd' Hinj Hcl Lp A4 BA BN) as F.
  destruct (from_fold_some u' (liNmbEvents L') r (pdPars (liData L')) 0 []) as [s Hs].
  { intros q Hq. apply In_nth_error in Hq as (k & Hk). destruct (F k q Hk) as (x & _ & ->). discriminate. }
  assert (Hv : startValues u' L' (Some r) = Some (snd s)) by (unfold startValues; now rewrite Hs).
  exists from, vars, par, (snd s). split; [exact A1|]. split; [exact A2|]. split; [exact A3|]. split; [exact B1|]. split; [exact Lp|]. split; [exact Hv|].
  intros k q x Hk Hx. destruct (F k q Hk) as (x' & Hx' & Hf). assert (x' = x) by congruence. subst x'.
  destruct (C94_start_values_from_result u' L' r (snd s) U Hv) as [_ G]. destruct (G k q Hk) as (y & v & Gy & Gv & G1 & G2). assert (y = x) by congruence. subst y.
  split; intros Hq; rewrite Hq in Gv; rewrite Gv.
  - now rewrite (G1 Hq).
  - intros Hx0. destruct (G2 Hq) as (_ & G3 & _). now rewrite (G3 Hx0).
Qed.

(* one wave and the flat wave; the minimiser finds (-2, 1) *)
Definition fitLik : likelihood := Lik sh1 nm1 data1 100 true (fun _ => (-5)%R) (fun _ => [1%R; 2%R]) (Mat 2 2 (fun _ _ => RtoC 1)) (Mat 2 2 (fun _ _ => RtoC 1)) [1%R; 1%R].
Definition fitMin (hesse : bool) (_ : list (bool * R)) : outcome := Out true [(-2)%R; 1%R] (-5) hesse (fun i j => if i =? j then 4%R else 2%R).
Lemma clean_nil : clean [].
Proof. repeat split; intros (a & b & E); apply (f_equal (@length _)) in E; rewrite !app_length in E; cbn in E; lia. Qed.
Lemma fit_ready : ready fitLik (fun _ _ => 0%R) 1%R.
Proof.
  split; [reflexivity|]. split; [cbn; lia|]. split.
  - intros e w e' w' He He' Hw Hw' _. cbn in Hw, Hw'. destruct (Nat.eqb_spec e 1), (Nat.eqb_spec e' 1); lia.
  - intros e w _ _. exact clean_nil.
Qed.
Lemma fit_signs : correctParamSigns sh1 (pdMap data1) [(-2)%R; 1%R] = Some [2%R; 1%R].
Proof.
  destruct (correct_spec sh1 nm1 (fun _ _ => 0%R) 1%R data1 [(-2)%R; 1%R] eq_refl eq_refl ltac:(cbn; lia)) as (P & f & par' & P' & Ec & Et & Lt & Ef & HP & _ & _).
  rewrite Et. f_equal. change (nmbPars sh1) with 2%Z in Lt. destruct par' as [|x [|y [|]]]; cbn [length] in Lt; try lia. rewrite lik1_from in Ec, Ef. injection Ec as Ec1 Ec2. injection Ef as Ef1 Ef2.
  specialize (HP (0, 1, 0)%nat). rewrite <- Ef1, <- Ec1 in HP. unfold flipped, neg, upd in HP. cbn in HP. rewrite <- Ec2 in Ef2. unfold flatPos in Ef2.
  destruct (Rlt_dec 1 0); [lra|]. destruct (Rlt_dec (-2) 0); [|lra]. destruct (Req_EM_T 0 0); [|lra]. apply (f_equal fst) in HP. cbn in HP. rewrite Ef2, HP. repeat f_equal; ring.
Qed.
Lemma fit_runs hesse : exists r, pwaFit fitLik [] (fun _ => (1/4)%R) TooShort true false (fitMin hesse) = Some r.
Proof.
  unfold pwaFit. change (startResult [] TooShort) with (Some (@None fitResult)). cbn [bnd].
  destruct (C94_random_start_values (fun _ => (1/4)%R) fitLik C94_random_ex) as (vars & -> & _). cbn [bnd]. cbv zeta. change (ouX (fitMin hesse vars)) with [(-2)%R; 1%R].
  change (correctParamSigns (liShape fitLik) (pdMap (liData fitLik)) [(-2)%R; 1%R]) with (correctParamSigns sh1 (pdMap data1) [(-2)%R; 1%R]). rewrite fit_signs. cbn [bnd].
  change (ouMin (fitMin hesse vars)) with (-5)%R. change (liEval fitLik [2%R; 1%R]) with (-5)%R. destruct (Req_EM_T (-5) (-5)); [|lra].
  destruct (C36_production_amplitude_arrays sh1 nm1 (fun _ _ => 0%R) 1%R data1 [2%R; 1%R] true eq_refl eq_refl) as (P & f & _ & E).
  change (liShape fitLik) with sh1. change (liNames fitLik) with nm1. rewrite E. cbn [bnd]. eexists. reflexivity.
Qed.
Example C94_fit_ex : ready fitLik (fun _ _ => 0%R) 1%R /\ (forall vars, Z.of_nat (length (ouX (fitMin true vars))) = nmbPars (liShape fitLik)) /\
  exists r, pwaFit fitLik [] (fun _ => (1/4)%R) TooShort true false (fitMin true) = Some r /\ frConverged r = true.
Proof.
  split; [exact fit_ready|]. split; [reflexivity|]. destruct (fit_runs true) as [r E]. exists r. split; [exact E|].
  destruct (C94_converged _ _ _ _ _ _ _ _ E) as (from & vars & par & _ & _ & _ & H). apply H. split; [reflexivity|]. split; [|reflexivity].
  intros _ e [<-|[<-|[]]]; lra.
Qed.
Example C94_continued_ex : exists r, pwaFit fitLik [] (fun _ => (1/4)%R) TooShort true false (fitMin true) = Some r /\
  startValues (fun _ => (1/4)%R) fitLik (Some r) = Some [(false, 2%R); (false, 1%R)].
Proof.
  destruct (fit_runs true) as [r E]. exists r. split; [exact E|].
  destruct (C94_continued_fit _ _ _ _ _ _ _ _ (fitMin true) _ fitLik _ _ (fun _ => (1/4)%R) fit_ready fit_ready eq_refl eq_refl C94_random_ex (fun _ => eq_refl) E) as (from & vars & par & vars' & _ & _ & A & _ & _ & V & G).
  change (correctParamSigns (liShape fitLik) (pdMap (liData fitLik)) (ouX (fitMin true vars))) with (correctParamSigns sh1 (pdMap data1) [(-2)%R; 1%R]) in A. rewrite fit_signs in A. injection A as <-. rewrite V. f_equal.
  destruct (C94_start_values_from_result _ _ _ _ C94_random_ex V) as [Lv _].
  assert (Hp : pdPars (liData fitLik) = [FP [] 0 0%R false true; FP (lit "flat"%string) 0 0%R false true]).
  { change (pdPars data1 = [FP [] 0 0%R false true; FP (lit "flat"%string) 0 0%R false true]). unfold data1, buildParDataStruct. cbn -[Req_EM_T Rle_dec]. unfold parStep. cbn -[Req_EM_T Rle_dec]. destruct (Req_EM_T 0 0); [reflexivity|congruence]. }
  rewrite Hp in *. destruct (G 0 _ 2%R eq_refl eq_refl) as [_ G0]. destruct (G 1 _ 1%R eq_refl eq_refl) as [_ G1]. specialize (G0 eq_refl ltac:(lra)). specialize (G1 eq_refl ltac:(lra)).
  destruct vars' as [|a [|b [|]]]; cbn [length] in Lv; try lia. cbn in G0, G1. congruence.
Qed.
Example C94_value_changed_ex : exists L, liEval L [2%R; 1%R] <> ouMin (fitMin true []) /\ correctParamSigns (liShape L) (pdMap (liData L)) (ouX (fitMin true [])) = Some [2%R; 1%R].
Proof. exists (Lik sh1 nm1 data1 100 true (fun _ => 0%R) (fun _ => []) emptyC emptyC []). split; [cbn; lra|exact fit_signs]. Qed.

(* refuted: a fit result says that the Hessian matrix was calculated although its calculation has failed *)
Theorem C94_hessian_flag_refuted : exists L bounds u file ch minimize r, pwaFit L bounds u file ch false minimize = Some r /\
  (forall vars, ouHesse (minimize vars) = false) /\ frHasHessian r = true /\ frConverged r = false.
Proof.
  exists fitLik, [], (fun _ => (1/4)%R), TooShort, true, (fitMin false). destruct (fit_runs false) as [r E]. exists r. split; [exact E|]. split; [reflexivity|].
  apply pwaFit_inv in E as (from & vars & par & amps & _ & _ & _ & _ & _ & _ & _ & _ & _ & _ & _ & _ & _ & B9 & B10 & _). split; [rewrite B10; reflexivity|].
  rewrite B9. cbv zeta. apply andb_false_r.
Qed.
(* refuted: the covariance matrix belongs to the parameters before the signs are chosen: the amplitude of a wave changes
   its sign, its covariance with the flat wave does not *)
Theorem C94_covariance_of_flipped_signs_refuted : exists L thr m bounds u file ch minimize r, ready L thr m /\
  pwaFit L bounds u file ch false minimize = Some r /\ (forall vars, ouX (minimize vars) = [(-2)%R; 1%R] /\ ouCov (minimize vars) 0 1 = 2%R) /\
  frAmps r = [RtoC 2; RtoC 1] /\ frCovIdx r = [(0, -1)%Z; (1, -1)%Z] /\ el (frCov r) 0 1 = 1%R.
Proof.
  exists fitLik, (fun _ _ => 0%R), 1%R, [], (fun _ => (1/4)%R), TooShort, true, (fitMin true). destruct (fit_runs true) as [r E]. exists r. split; [exact fit_ready|]. split; [exact E|]. split; [intros; split; reflexivity|].
  destruct (C94_result_contents _ _ _ _ _ _ _ _ (fitMin true) _ fit_ready (fun _ => eq_refl) E) as (from & vars & par & P & flat & _ & _ & A3 & A4 & _ & _ & _ & _ & _ & _ & _ & BA & _ & BI & BS & _).
  change (correctParamSigns (liShape fitLik) (pdMap (liData fitLik)) (ouX (fitMin true vars))) with (correctParamSigns sh1 (pdMap data1) [(-2)%R; 1%R]) in A3. rewrite fit_signs in A3. injection A3 as <-.
  change (liShape fitLik) with sh1 in *. change (liData fitLik) with data1 in *. rewrite lik1_from in A4. injection A4 as <- <-. split; [rewrite BA; reflexivity|]. split; [rewrite BI; reflexivity|].
  destruct (BS eq_refl) as (_ & _ & _ & _ & _ & H). rewrite H. cbn. lra.
Qed.
