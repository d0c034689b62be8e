(* C37: the gradient of the likelihood is its derivative *)
From Coq Require Import List ZArith Reals Lia Lra Bool Psatz FunctionalExtensionality.
From Coquelicot Require Import Complex Hierarchy Derive Rcomplements ElemFct AutoDerive Continuity.
From Verif Require Import ArrayModel PathModel CGBoxModel FitErrModel FitErrProps AmpIntProofs LikParModel LikParProofs LikParProps LikModel LikGradProofs.
Import ListNotations.
Open Scope R_scope.

(* ---- the likelihood as real function, where it is defined ---- *)
Definition wgt (lk : lik) : R := lkWidth lk * lkWidth lk.
Definition priorR (lk : lik) (P : idx -> C) : R :=
  match lkPrior lk with FLAT => 0 | HALF_CAUCHY => sumWaves lk (fun t => ln (1 + normSq (P t) / wgt lk)) end.
Definition funcR lk P f : R := rsumN (fun k => - ln (evtLik lk P f k)) (lkEvts lk) + nmbEvt lk * normFactor lk P f + priorR lk P.
Definition priorDR lk (P : idx -> C) b t : R :=
  match lkPrior lk with FLAT => 0 | HALF_CAUCHY => -2 / (wgt lk + normSq (P t)) * partOf b (P t) end.
Definition derR lk P f b t : R :=
  rsumN (fun k => - (2 / evtLik lk P f k) * partOf b (evtDeriv lk P k t)) (lkEvts lk)
  + partOf b (normDer lk t P) * (2 * nmbEvt lk) - priorDR lk P b t.
Definition derFlatR lk P f : R :=
  rsumN (fun k => - (2 / evtLik lk P f k) * f) (lkEvts lk) + f * (2 * nmbEvt lk) * lkTotAcc lk.
Definition evtsPos lk P f : Prop := forall k, (k < lkEvts lk)%nat -> 0 < evtLik lk P f k.

Lemma normSq_nonneg z : 0 <= normSq z. Proof. unfold normSq. nra. Qed.
Lemma Cmod_sq z : Cmod z * Cmod z = normSq z.
Proof. unfold Cmod, normSq. destruct z as [a b]. cbn [fst snd Re Im]. rewrite sqrt_sqrt by nra. unfold Re, Im. cbn. ring. Qed.
Lemma normSq_0 z : normSq z = 0 <-> z = RtoC 0.
Proof.
  unfold normSq. destruct z as [a b]; unfold Re, Im, RtoC; cbn. split.
  - intros H. assert (a = 0) by nra. assert (b = 0) by nra. now subst.
  - intros H. inversion H. ring.
Qed.
Lemma wgt_pos lk : lkWidth lk <> 0 -> 0 < wgt lk. Proof. unfold wgt. intros. nra. Qed.

Lemma cauchy_some x g : g <> 0 -> cauchyFunction x g = Some (g * g / (g * g + x * x)).
Proof.
  intros H. unfold cauchyFunction. assert (g * g > 0) by nra. rewrite odiv_some by nra. cbn [bnd]. rewrite odiv_some.
  - f_equal. field. split; nra.
  - intros E. assert (g * g + x * x = 0). { replace (g * g + x * x) with (g * g * (1 + x * x / (g * g))) by (field; nra). rewrite E. ring. } nra.
Qed.
Lemma cauchyD_some x g : g <> 0 -> cauchyFunctionDerivative x g = Some (-2 * x * g * g / ((g * g + x * x) * (g * g + x * x))).
Proof. intros H. unfold cauchyFunctionDerivative. apply odiv_some. assert (0 < g * g + x * x) by nra. nra. Qed.

Lemma priorTerm_some lk P t : lkWidth lk <> 0 -> priorTerm lk P t = Some (ln (1 + normSq (P t) / wgt lk)).
Proof.
  intros H. unfold priorTerm. rewrite cauchy_some by exact H. cbn [bnd]. rewrite Cmod_sq. fold (wgt lk). pose proof (wgt_pos lk H). pose proof (normSq_nonneg (P t)).
  rewrite oln_some by (apply Rdiv_lt_0_compat; lra). cbn [bnd]. f_equal. rewrite <- ln_Rinv by (apply Rdiv_lt_0_compat; lra). f_equal. field. lra.
Qed.
Lemma osumWaves_some lk f g : (forall t, In t (loopWaves (lkShape lk)) -> f t = Some (g t)) -> osumWaves lk f = Some (sumWaves lk g).
Proof.
  intros H. unfold osumWaves, sumWaves. apply osum_some. intros r Hr. apply osum_some. intros e He. apply osum_some. intros w Hw. apply H. now apply loopWaves_In.
Qed.
Lemma osumWaves_inv lk f s : osumWaves lk f = Some s -> forall t, In t (loopWaves (lkShape lk)) -> exists x, f t = Some x.
Proof.
  intros H [[r e] w] Ht. apply loopWaves_In in Ht as (Hr & He & Hw). unfold osumWaves in H.
  destruct (osum_inv _ _ _ H r Hr) as [x Hx]. destruct (osum_inv _ _ _ Hx e He) as [y Hy]. destruct (osum_inv _ _ _ Hy w Hw) as [z Hz]. eauto.
Qed.

Lemma funcVal_events lk P f pr : evtsPos lk P f -> priorValue lk P = Some pr ->
  funcVal lk P f = Some (rsumN (fun k => - ln (evtLik lk P f k)) (lkEvts lk) + nmbEvt lk * normFactor lk P f + pr).
Proof.
  intros H Hp. unfold funcVal. rewrite (osum_some _ (fun k => - ln (evtLik lk P f k))).
  - cbn [bnd]. rewrite Hp. reflexivity.
  - intros k Hk. rewrite oln_some by now apply H. reflexivity.
Qed.
Lemma funcVal_inv lk P f v : funcVal lk P f = Some v -> evtsPos lk P f /\ exists pr, priorValue lk P = Some pr.
Proof.
  unfold funcVal. intros H. destruct (osum _ _) as [ll|] eqn:E; [|discriminate]. cbn [bnd] in H. destruct (priorValue lk P) as [pr|]; [|discriminate]. split; [|eauto].
  intros k Hk. destruct (osum_inv _ _ _ E k Hk) as [x Hx]. destruct (oln _) as [y|] eqn:Ey; [|discriminate]. now apply oln_inv in Ey.
Qed.
Lemma priorValue_some lk P : (lkPrior lk = HALF_CAUCHY -> lkWidth lk <> 0) -> priorValue lk P = Some (priorR lk P).
Proof. intros H. unfold priorValue, priorR. destruct (lkPrior lk); [reflexivity|]. apply osumWaves_some. intros t _. apply priorTerm_some. auto. Qed.
Lemma priorValue_inv lk P pr t : priorValue lk P = Some pr -> In t (loopWaves (lkShape lk)) -> lkPrior lk = HALF_CAUCHY -> lkWidth lk <> 0.
Proof.
  intros H Ht Hc. unfold priorValue in H. rewrite Hc in H. destruct (osumWaves_inv _ _ _ H t Ht) as [x Hx]. intros E. unfold priorTerm, cauchyFunction in Hx. rewrite E in Hx.
  unfold odiv at 1 in Hx. destruct (Req_EM_T (0 * 0) 0); [discriminate|lra].
Qed.

(* defined gradient entries *)
Lemma priorDeriv_some lk P t b : (lkPrior lk = HALF_CAUCHY -> lkWidth lk <> 0 /\ P t <> RtoC 0) -> priorDeriv lk P t b = Some (priorDR lk P b t).
Proof.
  intros H. unfold priorDeriv, priorDR. destruct (lkPrior lk); [reflexivity|]. destruct (H eq_refl) as [Hg Hp]. rewrite cauchy_some, cauchyD_some by exact Hg. cbn [bnd].
  assert (Hr : Cmod (P t) > 0) by now apply Cmod_gt_0. pose proof (Cmod_sq (P t)) as Hs. set (r := Cmod (P t)) in *. pose proof (wgt_pos lk Hg) as Hw. unfold wgt in *.
  assert (Hd : lkWidth lk * lkWidth lk + r * r > 0) by nra.
  rewrite odiv_some; [|apply Rmult_integral_contrapositive_currified; [lra|]; apply Rgt_not_eq, Rdiv_lt_0_compat; lra]. cbn [bnd]. f_equal.
  change (if b then Re (P t) else Im (P t)) with (partOf b (P t)). rewrite <- Hs. field. repeat split; nra.
Qed.
Lemma priorDeriv_inv lk P t b x : priorDeriv lk P t b = Some x -> lkPrior lk = HALF_CAUCHY -> lkWidth lk <> 0 /\ P t <> RtoC 0.
Proof.
  intros H Hc. unfold priorDeriv in H. rewrite Hc in H. unfold cauchyFunction in H. destruct (odiv (Cmod (P t) * Cmod (P t)) (lkWidth lk * lkWidth lk)) as [q|] eqn:E; [|discriminate].
  apply odiv_inv in E as [E _]. split; [intros E0; apply E; rewrite E0; ring|]. cbn [bnd] in H. destruct (odiv 1 (1 + q)) as [c|]; [|discriminate]. cbn [bnd] in H.
  destruct (odiv 1 (Cmod (P t) * c)) as [c'|] eqn:E2; [|discriminate]. apply odiv_inv in E2 as [E2 _]. intros E3. apply E2. rewrite E3, Cmod_0. ring.
Qed.
Lemma derivative_some lk P f b t : evtsPos lk P f -> (lkPrior lk = HALF_CAUCHY -> lkWidth lk <> 0 /\ P t <> RtoC 0) -> derivative lk P f b t = Some (derR lk P f b t).
Proof.
  intros H Hp. unfold derivative, derR. rewrite (osum_some _ (fun k => - (2 / evtLik lk P f k) * partOf b (evtDeriv lk P k t))).
  - cbn [bnd]. rewrite priorDeriv_some by exact Hp. reflexivity.
  - intros k Hk. rewrite odiv_some by (apply Rgt_not_eq, H; exact Hk). reflexivity.
Qed.
Lemma derivative_inv lk P f b t x : derivative lk P f b t = Some x -> lkPrior lk = HALF_CAUCHY -> lkWidth lk <> 0 /\ P t <> RtoC 0.
Proof.
  unfold derivative. intros H Hc. destruct (osum _ _); [|discriminate]. cbn [bnd] in H. destruct (priorDeriv lk P t b) as [y|] eqn:E; [|discriminate]. exact (priorDeriv_inv lk P t b y E Hc).
Qed.
Lemma derivativeFlat_some lk P f : evtsPos lk P f -> derivativeFlat lk P f = Some (derFlatR lk P f).
Proof.
  intros H. unfold derivativeFlat, derFlatR. rewrite (osum_some _ (fun k => - (2 / evtLik lk P f k) * f)); [reflexivity|].
  intros k Hk. rewrite odiv_some by (apply Rgt_not_eq, H; exact Hk). reflexivity.
Qed.

(* ---- derivatives along one component ---- *)
Lemma derive_lnq (a b c : R) : 0 < a -> is_derive (fun h => - ln (a + (2 * h * b + h * h * c))) 0 (- (2 / a) * b).
Proof. intros H. auto_derive; [lra|]. field. lra. Qed.
Lemma derive_quad (a b c : R) : is_derive (fun h => a + (2 * h * b + h * h * c)) 0 (2 * b).
Proof. auto_derive; [exact I|ring]. Qed.

Section Dir.
  Context (lk : lik) (P : idx -> C) (f : R) (t0 : idx) (b0 : bool).
  Context (Hin : In t0 (loopWaves (lkShape lk))).
  Lemma Hb0 : (rk t0 < shRank (lkShape lk) /\ rf t0 < 2 /\ wv t0 < shWaves (lkShape lk) (rf t0))%nat.
  Proof. destruct t0 as [[r e] w]. now apply loopWaves_In in Hin. Qed.
  Notation Pd := (Pdir P t0 b0).
  Lemma Pdir_sq h : normSq (Pd h t0) = normSq (P t0) + (2 * h * partOf b0 (P t0) + h * h * 1).
  Proof.
    unfold Pdir. rewrite upd_same. destruct b0, (P t0); unfold normSq, unitC, partOf, Ci, RtoC, Cmult, Cplus, Re, Im; cbn; ring.
  Qed.
  Lemma sumWaves_upd (g g' : idx -> R) d : (forall t, t <> t0 -> g t = g' t) -> g t0 = g' t0 + d -> sumWaves lk g = sumWaves lk g' + d.
  Proof.
    intros H Hd. destruct Hb0 as (Hr & He & Hw). unfold sumWaves. apply (rsumN_upd _ _ _ (rk t0)); auto.
    - intros r _ Hne. apply rsumN_ext; intros e _. apply rsumN_ext; intros w _. apply H. now apply neq_r.
    - apply (rsumN_upd _ _ _ (rf t0)); auto.
      + intros e _ Hne. apply rsumN_ext; intros w _. apply H. now apply neq_e.
      + apply (rsumN_upd _ _ _ (wv t0)); auto.
        * intros w _ Hne. apply H. now apply neq_w.
        * rewrite <- (t0_eta lk t0 Hr He Hw). exact Hd.
  Qed.
  Lemma prior_dir : (lkPrior lk = HALF_CAUCHY -> lkWidth lk <> 0) -> is_derive (fun h => priorR lk (Pd h)) 0 (- priorDR lk P b0 t0).
  Proof.
    intros Hg. unfold priorR, priorDR. destruct (lkPrior lk).
    - rewrite Ropp_0. apply (is_derive_const (V := R_NormedModule) 0 0).
    - specialize (Hg eq_refl). pose proof (wgt_pos lk Hg) as Hw. pose proof (normSq_nonneg (P t0)) as Hn.
      apply (is_derive_ext (fun h => sumWaves lk (fun t => ln (1 + normSq (P t) / wgt lk)) +
               (ln (1 + (normSq (P t0) + (2 * h * partOf b0 (P t0) + h * h * 1)) / wgt lk) - ln (1 + normSq (P t0) / wgt lk)))).
      + intros h. symmetry. apply sumWaves_upd.
        * intros t Ht. unfold Pdir. now rewrite upd_other.
        * rewrite Pdir_sq. ring.
      + assert (Hq : 0 <= normSq (P t0) / wgt lk) by (apply Rdiv_le_0_compat; lra).
        auto_derive; [replace (2 * 0 * partOf b0 (P t0) + 0 * 0 * 1) with 0 by ring; rewrite Rplus_0_r; unfold Rdiv in Hq; lra|].
        field. split; [|lra]. lra.
  Qed.
  Lemma func_dir : hermitian lk -> evtsPos lk P f -> (lkPrior lk = HALF_CAUCHY -> lkWidth lk <> 0) ->
    is_derive (fun h => funcR lk (Pd h) f) 0 (derR lk P f b0 t0).
  Proof.
    intros Hh Hp Hg. destruct Hb0 as (Hr & He & Hw). unfold funcR, derR.
    replace (rsumN (fun k => - (2 / evtLik lk P f k) * partOf b0 (evtDeriv lk P k t0)) (lkEvts lk) + partOf b0 (normDer lk t0 P) * (2 * nmbEvt lk) - priorDR lk P b0 t0)
      with (rsumN (fun k => - (2 / evtLik lk P f k) * partOf b0 (evtDeriv lk P k t0)) (lkEvts lk) + nmbEvt lk * (2 * partOf b0 (normDer lk t0 P)) + - priorDR lk P b0 t0) by ring.
    apply (is_derive_plus (V := R_NormedModule) (fun h => rsumN _ _ + nmbEvt lk * _) (fun h => priorR lk (Pd h))); [|now apply prior_dir].
    apply (is_derive_plus (V := R_NormedModule) (fun h => rsumN (fun k => - ln (evtLik lk (Pd h) f k)) (lkEvts lk)) (fun h => nmbEvt lk * normFactor lk (Pd h) f)).
    - apply (is_derive_rsumN (fun k h => - ln (evtLik lk (Pd h) f k))). intros k Hk.
      apply (is_derive_ext (fun h => - ln (evtLik lk P f k + (2 * h * partOf b0 (evtDeriv lk P k t0) + h * h * normSq (lkDec lk (rf t0) k (wv t0)))))).
      + intros h. now rewrite evt_dir.
      + apply derive_lnq. now apply Hp.
    - apply is_derive_scal. apply (is_derive_ext (fun h => normFactor lk P f + (2 * h * partOf b0 (normDer lk t0 P) + h * h * Re (lkAcc lk (rf t0) (wv t0) (wv t0))))).
      + intros h. now rewrite norm_dir.
      + apply derive_quad.
  Qed.
  Lemma pos_dir : evtsPos lk P f -> locally 0 (fun h => evtsPos lk (Pd h) f).
  Proof.
    intros H. destruct Hb0 as (Hr & He & Hw). apply (locally_all (fun k h => 0 < evtLik lk (Pd h) f k)). intros k Hk.
    apply (filter_imp (fun h => 0 < evtLik lk P f k + (2 * h * partOf b0 (evtDeriv lk P k t0) + h * h * normSq (lkDec lk (rf t0) k (wv t0))))).
    - intros h Hh. now rewrite evt_dir.
    - apply quad_pos. now apply H.
  Qed.
End Dir.

Lemma func_flat lk P f : evtsPos lk P f -> is_derive (fun h => funcR lk P (f + h)) 0 (derFlatR lk P f).
Proof.
  intros Hp. unfold funcR, derFlatR.
  replace (rsumN (fun k => - (2 / evtLik lk P f k) * f) (lkEvts lk) + f * (2 * nmbEvt lk) * lkTotAcc lk)
    with (rsumN (fun k => - (2 / evtLik lk P f k) * f) (lkEvts lk) + nmbEvt lk * (2 * (f * lkTotAcc lk)) + 0) by ring.
  apply (is_derive_plus (V := R_NormedModule) (fun h => rsumN _ _ + nmbEvt lk * _) (fun h => priorR lk P)); [|apply (is_derive_const (V := R_NormedModule))].
  apply (is_derive_plus (V := R_NormedModule) (fun h => rsumN (fun k => - ln (evtLik lk P (f + h) k)) (lkEvts lk)) (fun h => nmbEvt lk * normFactor lk P (f + h))).
  - apply (is_derive_rsumN (fun k h => - ln (evtLik lk P (f + h) k))). intros k Hk.
    apply (is_derive_ext (fun h => - ln (evtLik lk P f k + (2 * h * f + h * h * 1)))).
    + intros h. now rewrite evt_flat.
    + apply derive_lnq. now apply Hp.
  - apply is_derive_scal. apply (is_derive_ext (fun h => normFactor lk P f + (2 * h * (f * lkTotAcc lk) + h * h * lkTotAcc lk))).
    + intros h. now rewrite norm_flat.
    + apply derive_quad.
Qed.
Lemma pos_flat lk P f : evtsPos lk P f -> locally 0 (fun h => evtsPos lk P (f + h)).
Proof.
  intros H. apply (locally_all (fun k h => 0 < evtLik lk P (f + h) k)). intros k Hk.
  apply (filter_imp (fun h => 0 < evtLik lk P f k + (2 * h * f + h * h * 1))).
  - intros h Hh. now rewrite evt_flat.
  - apply quad_pos. now apply H.
Qed.

(* ---- in terms of the parameter array ---- *)
(* the array with element k replaced *)
Fixpoint setAt (par : list R) (k : nat) (x : R) : list R :=
  match par, k with [], _ => [] | _ :: t, O => x :: t | h :: t, S n => h :: setAt t n x end.
Lemma setAt_length par : forall k x, length (setAt par k x) = length par.
Proof. induction par as [|h t IH]; intros [|k] x; cbn; auto. Qed.
Lemma setAt_nth par : forall k x j, (k < length par)%nat -> nth_error (setAt par k x) j = if (j =? k)%nat then Some x else nth_error par j.
Proof.
  induction par as [|h t IH]; intros k x j Hk; cbn in Hk; [lia|]. destruct k as [|k], j as [|j]; cbn [setAt nth_error]; auto.
  rewrite IH by lia. reflexivity.
Qed.
(* the likelihood is set up: the parameter map was built by init *)
Definition setUp (lk : lik) : Prop :=
  exists names thr mass d, buildParDataStruct (lkShape lk) names thr mass = Some d /\ lkMap lk = pdMap d.
Definition valueOf (v : option double) : R := match v with Some (Some x) => x | _ => 0 end.

Lemma setUp_map lk : setUp lk -> goodMap (lkShape lk) (lkMap lk).
Proof.
  intros (names & thr & mass & d & E & ->). destruct (build_spec names thr mass (lkShape lk)) as (d' & E' & G & _). assert (d' = d) by congruence. now subst.
Qed.
Lemma part_partOf b z : part b z = partOf b z. Proof. reflexivity. Qed.
Lemma C_ext (z w : C) : (forall b, partOf b z = partOf b w) -> z = w.
Proof. intros H. pose proof (H true). pose proof (H false). destruct z, w; unfold partOf, Re, Im in *; cbn in *; congruence. Qed.

Lemma from_setAt sh par P f k x x0 : Z.of_nat (length par) = nmbPars sh -> copyFromParArray sh par = Some (P, f) -> nth_error par k = Some x0 ->
  copyFromParArray sh (setAt par k x) =
  Some (match nth_error (comps (loopWaves sh)) k with Some (t, b) => (Pdir P t b (x - x0), f) | None => (P, f + (x - x0)) end).
Proof.
  intros Hl Hc Hk. assert (Hkl : (k < length par)%nat) by (apply nth_error_Some; congruence).
  destruct (from_spec sh par ltac:(lia)) as (P1 & f1 & E1 & A0 & A1 & A2 & A3). assert (P1 = P) by congruence. assert (f1 = f) by congruence. subst P1 f1.
  destruct (from_spec sh (setAt par k x) ltac:(rewrite setAt_length; lia)) as (P2 & f2 & E2 & B0 & B1 & B2 & B3). rewrite E2. f_equal.
  change part with partOf in A1, A2, B1, B2.
  rewrite setAt_nth in B0 by exact Hkl. rewrite nmbPars_comps in Hl.
  destruct (nth_error (comps (loopWaves sh)) k) as [[t b]|] eqn:Ek.
  - assert (Hkn : (k < length (comps (loopWaves sh)))%nat) by (apply nth_error_Some; congruence). f_equal.
    + apply functional_extensionality. intros u. apply C_ext. intros c.
      destruct (in_dec (fun a b : idx => match idx_eqb_spec a b with ReflectT e => left e | ReflectF n => right n end) u (loopWaves sh)) as [Hu|Hu].
      * destruct (in_dec comp_eq_dec (u, c) (comps (loopWaves sh))) as [Hi|Hi].
        -- apply comps_index in Hi as (j & Ej & Hj). pose proof (B1 _ _ _ Ej) as C1. pose proof (A1 _ _ _ Ej) as C2. rewrite setAt_nth in C1 by exact Hkl.
           destruct (Nat.eqb_spec j k) as [->|Hjk].
           ++ rewrite Ek in Ej. inversion Ej; subst. assert (Q0 : partOf c (P u) = x0) by congruence. assert (Q1 : partOf c (P2 u) = x) by congruence.
              unfold Pdir. rewrite upd_same, partOf_plus, partOf_scal, Q0, Q1. destruct c; unfold unitC, partOf, RtoC, Ci, Re, Im; cbn; ring.
           ++ assert (E : partOf c (P2 u) = partOf c (P u)) by congruence. rewrite E. unfold Pdir, upd. destruct (idx_eqb_spec u t) as [->|]; [|reflexivity].
              rewrite partOf_plus, partOf_scal. assert (c <> b).
              { intros ->. apply Hjk. pose proof (comps_NoDup _ (loopWaves_NoDup sh)) as ND. apply (proj1 (NoDup_nth_error _) ND); [exact Hj|congruence]. }
              destruct b, c; try congruence; unfold unitC, partOf, RtoC, Ci, Re, Im; cbn; ring.
        -- rewrite (B2 u c Hu Hi). unfold Pdir, upd. destruct (idx_eqb_spec u t) as [->|]; [|now rewrite (A2 u c Hu Hi)].
           rewrite partOf_plus, partOf_scal. rewrite (A2 t c Hu Hi). assert (c <> b) by (intros ->; apply Hi; eapply nth_error_In; eauto).
           destruct b, c; try congruence; unfold unitC, partOf, RtoC, Ci, Re, Im; cbn; ring.
      * rewrite B3 by exact Hu. unfold Pdir. rewrite upd_other; [now rewrite A3|]. intros ->. apply Hu. apply nth_error_In in Ek. now apply comps_In in Ek.
    + destruct (Nat.eqb_spec (length (comps (loopWaves sh))) k); [lia|congruence].
  - apply nth_error_None in Ek. assert (k = length (comps (loopWaves sh))) by lia. subst k. rewrite Nat.eqb_refl in B0. f_equal.
    + apply functional_extensionality. intros u. apply C_ext. intros c.
      destruct (in_dec (fun a b : idx => match idx_eqb_spec a b with ReflectT e => left e | ReflectF n => right n end) u (loopWaves sh)) as [Hu|Hu].
      * destruct (in_dec comp_eq_dec (u, c) (comps (loopWaves sh))) as [Hi|Hi].
        -- apply comps_index in Hi as (j & Ej & Hj). pose proof (B1 _ _ _ Ej) as C1. pose proof (A1 _ _ _ Ej) as C2. rewrite setAt_nth in C1 by exact Hkl.
           destruct (Nat.eqb_spec j (length (comps (loopWaves sh)))); [lia|]. congruence.
        -- now rewrite (B2 u c Hu Hi), (A2 u c Hu Hi).
      * now rewrite B3, A3 by exact Hu.
    + assert (f2 = x) by congruence. assert (f = x0) by congruence. subst. ring.
Qed.

Lemma gradient_spec lk par P f : setUp lk -> Z.of_nat (length par) = nmbPars (lkShape lk) -> copyFromParArray (lkShape lk) par = Some (P, f) ->
  gradient lk par = Some (map (fun c => derivative lk P f (snd c) (fst c)) (comps (loopWaves (lkShape lk))) ++ [derivativeFlat lk P f]).
Proof.
  intros Hs Hl Hc. unfold gradient. rewrite Hc. cbn [bnd fst snd]. rewrite to_spec.
  - f_equal. f_equal. apply map_ext. intros [t b]. unfold partA. now destruct b.
  - now apply setUp_map.
  - now rewrite repeat_length.
Qed.
Lemma gradient_nth lk par P f g k : setUp lk -> Z.of_nat (length par) = nmbPars (lkShape lk) -> copyFromParArray (lkShape lk) par = Some (P, f) ->
  gradient lk par = Some g -> (k < length par)%nat ->
  nth_error g k = Some (match nth_error (comps (loopWaves (lkShape lk))) k with Some (t, b) => derivative lk P f b t | None => derivativeFlat lk P f end).
Proof.
  intros Hs Hl Hc Hg Hk. rewrite (gradient_spec lk par P f Hs Hl Hc) in Hg. inversion Hg; subst. clear Hg. rewrite nmbPars_comps in Hl.
  destruct (nth_error (comps (loopWaves (lkShape lk))) k) as [[t b]|] eqn:Ek.
  - assert (k < length (comps (loopWaves (lkShape lk))))%nat by (apply nth_error_Some; congruence).
    rewrite nth_error_app1 by (rewrite map_length; assumption). now rewrite nth_error_map, Ek.
  - apply nth_error_None in Ek. assert (k = length (comps (loopWaves (lkShape lk)))) by lia. subst k.
    rewrite nth_error_app2 by (rewrite map_length; lia). rewrite map_length, Nat.sub_diag. reflexivity.
Qed.

(* C37: FdF returns what DoEval and Gradient return *)
Theorem C37_FdF_agrees : forall lk par, fdF lk par = (do v <- doEval lk par; do g <- gradient lk par; Some (v, g)).
Proof. intros. unfold fdF, doEval, gradient. destruct (copyFromParArray (lkShape lk) par) as [a|]; reflexivity. Qed.

(* C37: wherever the function value is a finite number, every finite element the gradient
   returns is the partial derivative of the value, which is finite in a neighbourhood *)
Theorem C37_gradient_is_derivative : forall lk par k x0 v g d,
  setUp lk -> hermitian lk -> Z.of_nat (length par) = nmbPars (lkShape lk) ->
  nth_error par k = Some x0 ->
  doEval lk par = Some (Some v) -> gradient lk par = Some g -> nth_error g k = Some (Some d) ->
  locally x0 (fun x => exists y, doEval lk (setAt par k x) = Some (Some y)) /\
  is_derive (fun x => valueOf (doEval lk (setAt par k x))) x0 d.
Proof.
  intros lk par k x0 v g d Hs Hh Hl Hk Hv Hg Hd. assert (Hkl : (k < length par)%nat) by (apply nth_error_Some; congruence).
  unfold doEval in Hv. destruct (copyFromParArray (lkShape lk) par) as [[P f]|] eqn:Hc; [|discriminate]. cbn [bnd fst snd] in Hv. injection Hv as Hv.
  destruct (funcVal_inv _ _ _ _ Hv) as [Hp [pr Hpr]].
  rewrite (gradient_nth lk par P f g k Hs Hl Hc Hg Hkl) in Hd. injection Hd as Hd.
  assert (Ev : forall x, doEval lk (setAt par k x) = Some (match nth_error (comps (loopWaves (lkShape lk))) k with Some (t, b) => funcVal lk (Pdir P t b (x - x0)) f | None => funcVal lk P (f + (x - x0)) end)).
  { intros x. unfold doEval. rewrite (from_setAt (lkShape lk) par P f k x x0 Hl Hc Hk). cbn [bnd]. now destruct (nth_error (comps _) k) as [[t b]|]. }
  destruct (nth_error (comps (loopWaves (lkShape lk))) k) as [[t b]|] eqn:Ek.
  - assert (Hin : In t (loopWaves (lkShape lk))) by (apply nth_error_In in Ek; now apply comps_In in Ek).
    assert (Hgm : lkPrior lk = HALF_CAUCHY -> lkWidth lk <> 0) by (intros Hcau; apply (priorValue_inv lk P pr t Hpr Hin Hcau)).
    assert (Hpz : lkPrior lk = HALF_CAUCHY -> lkWidth lk <> 0 /\ P t <> RtoC 0) by (intros; now apply (derivative_inv lk P f b t d Hd)).
    rewrite derivative_some in Hd by assumption. injection Hd as <-.
    assert (Hloc : locally x0 (fun x => evtsPos lk (Pdir P t b (x - x0)) f)) by (apply (shift_locally (fun h => evtsPos lk (Pdir P t b h) f)); now apply pos_dir).
    assert (Hval : forall x, evtsPos lk (Pdir P t b (x - x0)) f -> doEval lk (setAt par k x) = Some (Some (funcR lk (Pdir P t b (x - x0)) f))).
    { intros x Hx. rewrite Ev. f_equal. now rewrite (funcVal_events _ _ _ (priorR lk (Pdir P t b (x - x0)))) by (auto using priorValue_some). }
    split.
    + revert Hloc. apply filter_imp. intros x Hx. eexists. exact (Hval x Hx).
    + apply (is_derive_ext_loc (fun x => funcR lk (Pdir P t b (x - x0)) f)).
      * revert Hloc. apply filter_imp. intros x Hx. now rewrite (Hval x Hx).
      * apply (shift_derive (fun h => funcR lk (Pdir P t b h) f)). now apply func_dir.
  - rewrite derivativeFlat_some in Hd by assumption. injection Hd as <-.
    assert (Hloc : locally x0 (fun x => evtsPos lk P (f + (x - x0)))) by (apply (shift_locally (fun h => evtsPos lk P (f + h))); now apply pos_flat).
    assert (Hval : forall x, evtsPos lk P (f + (x - x0)) -> doEval lk (setAt par k x) = Some (Some (funcR lk P (f + (x - x0)) + (pr - priorR lk P)))).
    { intros x Hx. rewrite Ev. f_equal. rewrite (funcVal_events _ _ _ pr) by assumption. unfold funcR. f_equal. ring. }
    split.
    + revert Hloc. apply filter_imp. intros x Hx. eexists. exact (Hval x Hx).
    + apply (is_derive_ext_loc (fun x => funcR lk P (f + (x - x0)) + (pr - priorR lk P))).
      * revert Hloc. apply filter_imp. intros x Hx. now rewrite (Hval x Hx).
      * rewrite <- (Rplus_0_r (derFlatR lk P f)). apply (is_derive_plus (V := R_NormedModule) (fun x => funcR lk P (f + (x - x0))) (fun _ => pr - priorR lk P)); [|apply (is_derive_const (V := R_NormedModule))].
        apply (shift_derive (fun h => funcR lk P (f + h))). now apply func_flat.
Qed.

(* C37: with the flat prior the gradient is finite wherever the value is *)
Theorem C37_gradient_finite_flat_prior : forall lk par v,
  setUp lk -> Z.of_nat (length par) = nmbPars (lkShape lk) -> lkPrior lk = FLAT -> doEval lk par = Some (Some v) ->
  exists g, gradient lk par = Some g /\ length g = length par /\ forall k, (k < length par)%nat -> exists d, nth_error g k = Some (Some d).
Proof.
  intros lk par v Hs Hl Hf Hv. unfold doEval in Hv. destruct (copyFromParArray (lkShape lk) par) as [[P f]|] eqn:Hc; [|discriminate]. cbn [bnd fst snd] in Hv. injection Hv as Hv.
  destruct (funcVal_inv _ _ _ _ Hv) as [Hp _].
  pose proof (gradient_spec lk par P f Hs Hl Hc) as Hg. eexists. split; [exact Hg|]. split.
  - rewrite app_length, map_length. rewrite nmbPars_comps in Hl. cbn [length]. lia.
  - intros k Hk. rewrite (gradient_nth lk par P f _ k Hs Hl Hc Hg Hk). destruct (nth_error (comps _) k) as [[t b]|].
    + rewrite derivative_some by (auto; congruence). eauto.
    + rewrite derivativeFlat_some by assumption. eauto.
Qed.

(* C37, half-Cauchy prior: the gradient element of an amplitude is finite exactly where the
   value is finite and the amplitude is not zero *)
Theorem C37_gradient_finite_half_cauchy : forall lk par v P f g k t b,
  setUp lk -> Z.of_nat (length par) = nmbPars (lkShape lk) -> lkPrior lk = HALF_CAUCHY -> doEval lk par = Some (Some v) ->
  copyFromParArray (lkShape lk) par = Some (P, f) -> gradient lk par = Some g ->
  In t (loopWaves (lkShape lk)) -> (if b : bool then fst else snd) (lkMap lk t) = Z.of_nat k ->
  (exists d, nth_error g k = Some (Some d)) <-> P t <> RtoC 0.
Proof.
  intros lk par v P f g k t b Hs Hl Hf Hv Hc Hg Ht Hm. unfold doEval in Hv. rewrite Hc in Hv. cbn [bnd fst snd] in Hv. injection Hv as Hv.
  destruct (funcVal_inv _ _ _ _ Hv) as [Hp [pr Hpr]]. pose proof (priorValue_inv lk P pr t Hpr Ht Hf) as Hg0.
  destruct (setUp_map lk Hs) as [G1 G2].
  assert (Ek : nth_error (comps (loopWaves (lkShape lk))) k = Some (t, b)).
  { destruct (in_dec comp_eq_dec (t, b) (comps (loopWaves (lkShape lk)))) as [Hi|Hi].
    - apply comps_index in Hi as (j & Ej & _). rewrite (G1 _ _ _ Ej) in Hm. assert (j = k) by lia. now subst.
    - rewrite (G2 t b Ht Hi) in Hm. lia. }
  assert (Hk : (k < length par)%nat). { assert (k < length (comps (loopWaves (lkShape lk))))%nat by (apply nth_error_Some; congruence). rewrite nmbPars_comps in Hl. lia. }
  rewrite (gradient_nth lk par P f g k Hs Hl Hc Hg Hk), Ek. split.
  - intros [d Hd]. injection Hd as Hd. now apply (derivative_inv lk P f b t d Hd Hf).
  - intros Hnz. rewrite derivative_some by auto. eauto.
Qed.

(* ---- a concrete likelihood: one wave of positive reflectivity, rank 1, one event ---- *)
Definition sh1 : shape := Shape 1 (fun e => if (e =? 1)%nat then 1%nat else 0%nat).
Definition nm1 : nat -> nat -> str := fun _ _ => [].
Definition data1 : parData := match buildParDataStruct sh1 nm1 (fun _ _ => 0) 1 with Some d => d | None => PD 0 [] 0 (fun _ => (0, 0)%Z) end.
Definition lik1 (p : prior) : lik := Lik 1 sh1 (fun _ _ _ => RtoC 1) (fun _ _ _ => RtoC 1) 1 false p 1 (pdMap data1) (pdPars data1).
Lemma lik1_setUp p : setUp (lik1 p).
Proof. exists nm1, (fun _ _ => 0), 1, data1. split; reflexivity. Qed.
Lemma lik1_hermitian p : hermitian (lik1 p).
Proof. unfold hermitian. intros. cbn. unfold Cconj, RtoC. cbn. now rewrite Ropp_0. Qed.
Lemma lik1_from x f : copyFromParArray sh1 [x; f] = Some (upd (fun _ => RtoC 0) (0, 1, 0)%nat (x, 0), f).
Proof. reflexivity. Qed.
Lemma lik1_evt p x f k : evtLik (lik1 p) (upd (fun _ => RtoC 0) (0, 1, 0)%nat (x, 0)) f k = x * x + f * f.
Proof. unfold evtLik, ampProdSum, normSq. cbn. ring. Qed.
Lemma lik1_pos p x f : x * x + f * f > 0 -> evtsPos (lik1 p) (upd (fun _ => RtoC 0) (0, 1, 0)%nat (x, 0)) f.
Proof. intros H k _. rewrite lik1_evt. exact H. Qed.
Lemma lik1_norm p x f : normFactor (lik1 p) (upd (fun _ => RtoC 0) (0, 1, 0)%nat (x, 0)) f = x * x + f * f.
Proof. unfold normFactor. cbn. ring. Qed.
Lemma lik1_eval p x f : x * x + f * f > 0 ->
  doEval (lik1 p) [x; f] = Some (Some (- ln (x * x + f * f) + (x * x + f * f) + match p with FLAT => 0 | HALF_CAUCHY => ln (1 + x * x) end)).
Proof.
  intros H. unfold doEval. change (lkShape (lik1 p)) with sh1. rewrite lik1_from. cbn [bnd fst snd]. f_equal.
  rewrite (funcVal_events _ _ _ (priorR (lik1 p) (upd (fun _ => RtoC 0) (0, 1, 0)%nat (x, 0)))); [|now apply lik1_pos|].
  - f_equal. rewrite lik1_norm. change (lkEvts (lik1 p)) with 1%nat. cbn [rsumN]. rewrite lik1_evt. unfold nmbEvt. cbn [lkNormAmps lik1 lkEvts INR].
    replace (priorR (lik1 p) (upd (fun _ => RtoC 0) (0, 1, 0)%nat (x, 0))) with (match p with FLAT => 0 | HALF_CAUCHY => ln (1 + x * x) end); [ring|].
    unfold priorR. destruct p; cbn [lkPrior lik1]; [reflexivity|]. unfold sumWaves, normSq, wgt. cbn.
    replace (1 + (x * x + 0 * 0) / (1 * 1)) with (1 + x * x) by field. ring.
  - apply priorValue_some. intros _. cbn. lra.
Qed.

(* the hypotheses of C37_gradient_is_derivative hold here, with a non-zero derivative *)
Example C37_ex : exists v g d, doEval (lik1 HALF_CAUCHY) [2; 1] = Some (Some v) /\ gradient (lik1 HALF_CAUCHY) [2; 1] = Some g /\ nth_error g 0 = Some (Some d) /\ d = 4.
Proof.
  exists (- ln (2 * 2 + 1 * 1) + (2 * 2 + 1 * 1) + ln (1 + 2 * 2)). rewrite lik1_eval by lra.
  pose proof (gradient_spec (lik1 HALF_CAUCHY) [2; 1] _ _ (lik1_setUp _) eq_refl (lik1_from 2 1)) as Hg.
  eexists. exists 4. split; [reflexivity|]. split; [exact Hg|]. split; [|reflexivity].
  cbn [lkShape lik1 sh1 loopWaves comps compOf flat_map map seq app List.seq shRank shWaves Nat.eqb nth_error fst snd]. cbn.
  rewrite derivative_some.
  - f_equal. f_equal. unfold derR, priorDR. cbn [lkPrior lik1 lkEvts rsumN]. rewrite lik1_evt. unfold normDer, evtDeriv, ampProdSum, wgt, normSq, nmbEvt, partOf. cbn. field.
  - apply lik1_pos. lra.
  - intros _. split; [cbn; lra|]. unfold upd, RtoC. cbn. intros E. inversion E. lra.
Qed.

(* C37 refuted for the half-Cauchy prior: at a vanishing production amplitude the likelihood
   is finite and differentiable, but the gradient element is 0/0 *)
Theorem C37_gradient_half_cauchy_refuted : exists lk par g v,
  setUp lk /\ hermitian lk /\ Z.of_nat (length par) = nmbPars (lkShape lk) /\ lkPrior lk = HALF_CAUCHY /\
  doEval lk par = Some (Some v) /\ is_derive (fun x => valueOf (doEval lk (setAt par 0 x))) 0 0 /\ nth_error par 0 = Some 0 /\
  gradient lk par = Some g /\ nth_error g 0 = Some None.
Proof.
  exists (lik1 HALF_CAUCHY), [0; 1]. pose proof (gradient_spec (lik1 HALF_CAUCHY) [0; 1] _ _ (lik1_setUp _) eq_refl (lik1_from 0 1)) as Hg.
  eexists. eexists. split; [apply lik1_setUp|]. split; [apply lik1_hermitian|]. split; [reflexivity|]. split; [reflexivity|].
  split; [apply lik1_eval; lra|]. split; [|split; [reflexivity|split; [exact Hg|]]].
  - apply (is_derive_ext (fun x => - ln (x * x + 1 * 1) + (x * x + 1 * 1) + ln (1 + x * x))).
    + intros x. cbn [setAt]. rewrite lik1_eval by nra. reflexivity.
    + auto_derive; [split; [lra|]; lra|]. field.
  - cbn. f_equal. unfold derivative. destruct (osum _ _); cbn [bnd]; [|reflexivity]. unfold priorDeriv. cbn [lkPrior lik1 lkWidth]. rewrite cauchy_some by lra. cbn [bnd].
    replace (Cmod _) with 0; [unfold odiv; destruct (Req_EM_T _ 0) as [|Hn]; [reflexivity|exfalso; apply Hn; ring]|].
    unfold upd. cbn. symmetry. apply Cmod_0.
Qed.
