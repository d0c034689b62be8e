(* C38: the Hessian of the likelihood is the derivative of its gradient *)
From Coq Require Import List ZArith Reals Lia Lra Bool Psatz FunctionalExtensionality.
From Coquelicot Require Import Complex Hierarchy Derive Rcomplements ElemFct AutoDerive Continuity.
From Verif Require Import ArrayModel PathModel CGBoxModel FitErrModel FitErrProps AmpIntProofs LikParModel LikParProofs LikParProps LikModel LikGradProofs LikGradProps.
Import ListNotations.
Open Scope R_scope.

(* ---- second derivatives as real numbers ---- *)
Definition sameBlock (t u : idx) : bool := (rk t =? rk u)%nat && (rf t =? rf u)%nat.
Definition priorHR lk (P : idx -> C) b c t : R :=
  match lkPrior lk with
  | FLAT => 0
  | HALF_CAUCHY => -2 * ((if eqb b c then 1 else 0) / (wgt lk + normSq (P t)) - 2 * partOf b (P t) * partOf c (P t) / ((wgt lk + normSq (P t)) * (wgt lk + normSq (P t))))
  end.
(* derivative of the gradient element (t,b) in the direction (u,c) *)
Definition hessR lk P f b t c u : R :=
  rsumN (fun k => (2 / evtLik lk P f k) * (2 / evtLik lk P f k) * partOf c (evtDeriv lk P k u) * partOf b (evtDeriv lk P k t)
                  + (if sameBlock t u then - (2 / evtLik lk P f k) * partOf b (unitC c * lkDec lk (rf u) k (wv u) * Cconj (lkDec lk (rf t) k (wv t)))%C else 0)) (lkEvts lk)
  + (if sameBlock t u then partOf b (unitC c * Cconj (lkAcc lk (rf t) (wv t) (wv u)))%C * (2 * nmbEvt lk) else 0)
  - (if idx_eqb t u then priorHR lk P b c t else 0).
Definition flatR lk P f b t : R := rsumN (fun k => (2 / evtLik lk P f k) * (2 / evtLik lk P f k) * f * partOf b (evtDeriv lk P k t)) (lkEvts lk).
Definition hessFlatR lk P f : R := rsumN (fun k => (2 / evtLik lk P f k) * (2 / evtLik lk P f k) * (f * f) - 2 / evtLik lk P f k) (lkEvts lk) + 2 * nmbEvt lk * lkTotAcc lk.

Lemma derive_term (a b c g s : R) : 0 < a ->
  is_derive (fun h => - (2 / (a + (2 * h * b + h * h * c))) * (g + h * s)) 0 (2 / a * (2 / a) * b * g + - (2 / a) * s).
Proof. intros H. auto_derive; [lra|]. field. lra. Qed.
Lemma inBlock_same u t : inBlock u (rk t) (rf t) = sameBlock t u. Proof. reflexivity. Qed.

Section Dir2.
  Context (lk : lik) (P : idx -> C) (f : R) (u : idx) (c : bool).
  Context (Hin : In u (loopWaves (lkShape lk))).
  Notation Pd := (Pdir P u c).
  Lemma priorDR_dir b t : (lkPrior lk = HALF_CAUCHY -> lkWidth lk <> 0) ->
    is_derive (fun h => priorDR lk (Pd h) b t) 0 (if idx_eqb t u then priorHR lk P b c t else 0).
  Proof.
    intros Hg. unfold priorDR, priorHR. destruct (lkPrior lk).
    - destruct (idx_eqb t u); apply (is_derive_const (V := R_NormedModule) 0 0).
    - specialize (Hg eq_refl). pose proof (wgt_pos lk Hg) as Hw. destruct (idx_eqb_spec t u) as [->|Hn].
      + pose proof (normSq_nonneg (P u)) as Hp.
        apply (is_derive_ext (fun h => -2 / (wgt lk + (normSq (P u) + (2 * h * partOf c (P u) + h * h * 1))) * (partOf b (P u) + h * (if eqb b c then 1 else 0)))).
        * intros h. rewrite (Pdir_sq P u c h). f_equal. unfold Pdir. rewrite upd_same, partOf_plus, partOf_scal. f_equal. f_equal.
          destruct b, c; unfold unitC, partOf, RtoC, Ci, Re, Im; reflexivity.
        * set (e := if eqb b c then 1 else 0). auto_derive; [lra|]. field. lra.
      + apply (is_derive_ext (fun h => -2 / (wgt lk + normSq (P t)) * partOf b (P t))).
        * intros h. unfold Pdir. now rewrite upd_other.
        * apply (is_derive_const (V := R_NormedModule)).
  Qed.
  Lemma der_dir b t : evtsPos lk P f -> (lkPrior lk = HALF_CAUCHY -> lkWidth lk <> 0) ->
    is_derive (fun h => derR lk (Pd h) f b t) 0 (hessR lk P f b t c u).
  Proof.
    intros Hp Hg. destruct (Hb0 lk u Hin) as (Hr & He & Hw). unfold derR, hessR.
    apply (is_derive_minus (V := R_NormedModule) (fun h => rsumN _ _ + _) (fun h => priorDR lk (Pd h) b t)); [|now apply priorDR_dir].
    apply (is_derive_plus (V := R_NormedModule) (fun h => rsumN (fun k => - (2 / evtLik lk (Pd h) f k) * partOf b (evtDeriv lk (Pd h) k t)) (lkEvts lk))
             (fun h => partOf b (normDer lk t (Pd h)) * (2 * nmbEvt lk))).
    - apply (is_derive_rsumN (fun k h => - (2 / evtLik lk (Pd h) f k) * partOf b (evtDeriv lk (Pd h) k t))). intros k Hk.
      set (s := if sameBlock t u then partOf b (unitC c * lkDec lk (rf u) k (wv u) * Cconj (lkDec lk (rf t) k (wv t)))%C else 0).
      apply (is_derive_ext (fun h => - (2 / (evtLik lk P f k + (2 * h * partOf c (evtDeriv lk P k u) + h * h * normSq (lkDec lk (rf u) k (wv u))))) * (partOf b (evtDeriv lk P k t) + h * s))).
      + intros h. rewrite (evt_dir lk P u c Hr He Hw). f_equal. rewrite (evtDeriv_dir lk P u c Hr He Hw), inBlock_same, partOf_plus. f_equal. unfold s.
        destruct (sameBlock t u); [now rewrite partOf_scal|]. replace (partOf b (RtoC 0)) with 0 by (destruct b; reflexivity). ring.
      + replace (if sameBlock t u then - (2 / evtLik lk P f k) * partOf b (unitC c * lkDec lk (rf u) k (wv u) * Cconj (lkDec lk (rf t) k (wv t)))%C else 0)
          with (- (2 / evtLik lk P f k) * s) by (unfold s; destruct (sameBlock t u); ring).
        apply derive_term. now apply Hp.
    - set (s := if sameBlock t u then partOf b (unitC c * Cconj (lkAcc lk (rf t) (wv t) (wv u)))%C else 0).
      apply (is_derive_ext (fun h => (partOf b (normDer lk t P) + h * s) * (2 * nmbEvt lk))).
      + intros h. f_equal. rewrite (normDer_dir lk P u c Hr He Hw), inBlock_same, partOf_plus. f_equal. unfold s.
        destruct (sameBlock t u); [now rewrite partOf_scal|]. replace (partOf b (RtoC 0)) with 0 by (destruct b; reflexivity). ring.
      + replace (if sameBlock t u then partOf b (unitC c * Cconj (lkAcc lk (rf t) (wv t) (wv u)))%C * (2 * nmbEvt lk) else 0) with (s * (2 * nmbEvt lk)) by (unfold s; destruct (sameBlock t u); ring).
        auto_derive; [exact I|ring].
  Qed.
  Lemma derFlat_dir : evtsPos lk P f -> is_derive (fun h => derFlatR lk (Pd h) f) 0 (flatR lk P f c u).
  Proof.
    intros Hp. destruct (Hb0 lk u Hin) as (Hr & He & Hw). unfold derFlatR, flatR. rewrite <- (Rplus_0_r (rsumN _ _)).
    apply (is_derive_plus (V := R_NormedModule) (fun h => rsumN (fun k => - (2 / evtLik lk (Pd h) f k) * f) (lkEvts lk)) (fun h => f * (2 * nmbEvt lk) * lkTotAcc lk));
      [|apply (is_derive_const (V := R_NormedModule))].
    apply (is_derive_rsumN (fun k h => - (2 / evtLik lk (Pd h) f k) * f)). intros k Hk.
    apply (is_derive_ext (fun h => - (2 / (evtLik lk P f k + (2 * h * partOf c (evtDeriv lk P k u) + h * h * normSq (lkDec lk (rf u) k (wv u))))) * (f + h * 0))).
    - intros h. rewrite (evt_dir lk P u c Hr He Hw). f_equal. ring.
    - replace (2 / evtLik lk P f k * (2 / evtLik lk P f k) * f * partOf c (evtDeriv lk P k u)) with
        (2 / evtLik lk P f k * (2 / evtLik lk P f k) * partOf c (evtDeriv lk P k u) * f + - (2 / evtLik lk P f k) * 0) by ring.
      apply derive_term. now apply Hp.
  Qed.
  Lemma nz_dir t : P t <> RtoC 0 -> locally 0 (fun h => Pd h t <> RtoC 0).
  Proof.
    intros H. destruct (idx_eqb_spec t u) as [->|Hn].
    - apply (filter_imp (fun h => 0 < normSq (P u) + (2 * h * partOf c (P u) + h * h * 1))).
      + intros h Hh E. rewrite <- (Pdir_sq P u c h) in Hh. rewrite E in Hh. rewrite (proj2 (normSq_0 _) eq_refl) in Hh. lra.
      + apply quad_pos. pose proof (normSq_nonneg (P u)). assert (normSq (P u) <> 0) by (intros E; now apply normSq_0 in E). lra.
    - apply (filter_imp (fun _ => True)); [|apply filter_true]. intros h _. unfold Pdir. now rewrite upd_other.
  Qed.
End Dir2.

Lemma der_flat lk P f b t : evtsPos lk P f -> is_derive (fun h => derR lk P (f + h) b t) 0 (flatR lk P f b t).
Proof.
  intros Hp. unfold derR, flatR. replace (rsumN (fun k => 2 / evtLik lk P f k * (2 / evtLik lk P f k) * f * partOf b (evtDeriv lk P k t)) (lkEvts lk))
    with (rsumN (fun k => 2 / evtLik lk P f k * (2 / evtLik lk P f k) * f * partOf b (evtDeriv lk P k t)) (lkEvts lk) + 0 - 0) by ring.
  apply (is_derive_minus (V := R_NormedModule) (fun h => rsumN _ _ + _) (fun h => priorDR lk P b t)); [|apply (is_derive_const (V := R_NormedModule))].
  apply (is_derive_plus (V := R_NormedModule) (fun h => rsumN (fun k => - (2 / evtLik lk P (f + h) k) * partOf b (evtDeriv lk P k t)) (lkEvts lk)) (fun h => partOf b (normDer lk t P) * (2 * nmbEvt lk)));
    [|apply (is_derive_const (V := R_NormedModule))].
  apply (is_derive_rsumN (fun k h => - (2 / evtLik lk P (f + h) k) * partOf b (evtDeriv lk P k t))). intros k Hk.
  apply (is_derive_ext (fun h => - (2 / (evtLik lk P f k + (2 * h * f + h * h * 1))) * (partOf b (evtDeriv lk P k t) + h * 0))).
  - intros h. rewrite evt_flat. f_equal. ring.
  - replace (2 / evtLik lk P f k * (2 / evtLik lk P f k) * f * partOf b (evtDeriv lk P k t)) with
      (2 / evtLik lk P f k * (2 / evtLik lk P f k) * f * partOf b (evtDeriv lk P k t) + - (2 / evtLik lk P f k) * 0) by ring.
    apply derive_term. now apply Hp.
Qed.
Lemma derFlat_flat lk P f : evtsPos lk P f -> is_derive (fun h => derFlatR lk P (f + h)) 0 (hessFlatR lk P f).
Proof.
  intros Hp. unfold derFlatR, hessFlatR.
  apply (is_derive_plus (V := R_NormedModule) (fun h => rsumN (fun k => - (2 / evtLik lk P (f + h) k) * (f + h)) (lkEvts lk)) (fun h => (f + h) * (2 * nmbEvt lk) * lkTotAcc lk)).
  - apply (is_derive_rsumN (fun k h => - (2 / evtLik lk P (f + h) k) * (f + h))). intros k Hk.
    apply (is_derive_ext (fun h => - (2 / (evtLik lk P f k + (2 * h * f + h * h * 1))) * (f + h * 1))).
    + intros h. rewrite evt_flat. f_equal. ring.
    + replace (2 / evtLik lk P f k * (2 / evtLik lk P f k) * (f * f) - 2 / evtLik lk P f k) with
        (2 / evtLik lk P f k * (2 / evtLik lk P f k) * f * f + - (2 / evtLik lk P f k) * 1) by ring.
      apply derive_term. now apply Hp.
  - auto_derive; [exact I|ring].
Qed.

(* ---- the elements the code computes ---- *)
Lemma conj_mult_parts (b c : bool) (x y : C) : partOf b (unitC c * x * Cconj y)%C =
  match b, c with true, true => Re (Cconj x * y)%C | true, false => Im (Cconj x * y)%C | false, true => Im (Cconj y * x)%C | false, false => Re (Cconj x * y)%C end.
Proof. destruct b, c, x, y; unfold partOf, unitC, RtoC, Ci, Cmult, Cconj, Re, Im; cbn; ring. Qed.
Lemma acc_parts (b c : bool) (x : C) : partOf b (unitC c * Cconj x)%C =
  match b, c with true, true => Re x | true, false => Im x | false, true => - Im x | false, false => Re x end.
Proof. destruct b, c, x; unfold partOf, unitC, RtoC, Ci, Cmult, Cconj, Re, Im; cbn; ring. Qed.

Lemma cauchyDD_some x g : g <> 0 -> cauchyFunctionSecondDerivative x g = Some (g * g / ((g * g + x * x) * (g * g + x * x)) * (-2 + 8 * (x * x) / (g * g + x * x))).
Proof. intros H. unfold cauchyFunctionSecondDerivative. assert (0 < g * g + x * x) by nra. rewrite odiv_some by nra. cbn [bnd]. rewrite odiv_some by nra. reflexivity. Qed.
Lemma hessPrior_some lk P n t : (lkPrior lk = HALF_CAUCHY -> lkWidth lk <> 0 /\ P t <> RtoC 0) ->
  hessPrior lk P n t = Some (priorHR lk P (fst (hessPart n)) (snd (hessPart n)) t).
Proof.
  intros H. unfold hessPrior, priorHR. destruct (lkPrior lk); [reflexivity|]. destruct (H eq_refl) as [Hg Hp].
  rewrite cauchy_some, cauchyD_some, cauchyDD_some by exact Hg. cbn [bnd].
  assert (Hr : Cmod (P t) > 0) by now apply Cmod_gt_0. pose proof (Cmod_sq (P t)) as Hs. set (r := Cmod (P t)) in *. pose proof (wgt_pos lk Hg) as Hw. unfold wgt in *.
  set (w := lkWidth lk * lkWidth lk) in *. assert (Hd : w + r * r > 0) by nra.
  replace (-2 * r * lkWidth lk * lkWidth lk) with (-2 * r * w) by (unfold w; ring).
  assert (Hc : 0 < w / (w + r * r)) by (apply Rdiv_lt_0_compat; lra). set (q := w / (w + r * r)) in *.
  assert (Hqr : 0 < q * r) by nra. assert (Hqrr : 0 < q * r * r) by nra. assert (Hqq : 0 < q * q * r * r) by (replace (q * q * r * r) with ((q * r) * (q * r)) by ring; nra).
  assert (Hq3 : 0 < q * r * r * r) by nra.
  rewrite !odiv_some by lra. cbn [bnd]. f_equal. rewrite <- Hs. unfold q.
  destruct n as [|[|n]]; cbn [hessPart fst snd eqb]; unfold partOf; field; repeat split; nra.
Qed.
Lemma hessPart_parts n : (n < 3)%nat -> n = match fst (hessPart n), snd (hessPart n) with true, true => 0 | true, false => 1 | false, _ => 2 end%nat.
Proof. intros H. destruct n as [|[|[|n]]]; cbn; lia. Qed.

Lemma hess_some lk P f n i j : (n < 3)%nat -> evtsPos lk P f -> (i = j -> lkPrior lk = HALF_CAUCHY -> lkWidth lk <> 0 /\ P i <> RtoC 0) ->
  hess lk P f n i j = Some (hessR lk P f (fst (hessPart n)) i (snd (hessPart n)) j).
Proof.
  intros Hn He Hp. unfold hess, hessR. destruct (hessPart n) as [bi bj] eqn:En. cbn [fst snd].
  assert (Hcase : forall x y : C, partOf bi (unitC bj * x * Cconj y)%C = (if (n =? 1)%nat then Im (Cconj x * y)%C else Re (Cconj x * y)%C)).
  { intros x y. rewrite conj_mult_parts. destruct n as [|[|[|n]]]; cbn in En; inversion En; subst; try reflexivity; lia. }
  assert (Hcase2 : forall x : C, partOf bi (unitC bj * Cconj x)%C = (if (n =? 1)%nat then Im x else Re x)).
  { intros x. rewrite acc_parts. destruct n as [|[|[|n]]]; cbn in En; inversion En; subst; try reflexivity; lia. }
  rewrite (osum_some _ (fun k => 2 / evtLik lk P f k * (2 / evtLik lk P f k) * partOf bj (evtDeriv lk P k j) * partOf bi (evtDeriv lk P k i)
       + (if sameBlock i j then - (2 / evtLik lk P f k) * partOf bi (unitC bj * lkDec lk (rf j) k (wv j) * Cconj (lkDec lk (rf i) k (wv i)))%C else 0))).
  2:{ intros k Hk. rewrite odiv_some by (apply Rgt_not_eq, He; exact Hk). cbn [bnd]. fold (sameBlock i j). destruct (sameBlock i j); f_equal; [|ring]. now rewrite Hcase. }
  cbn [bnd]. fold (sameBlock i j). rewrite Hcase2. set (S := rsumN _ _).
  destruct (idx_eqb_spec i j) as [->|Hne].
  - rewrite hessPrior_some by (intros; now apply Hp). rewrite En. cbn [bnd fst snd]. f_equal. destruct (sameBlock j j); ring.
  - f_equal. destruct (sameBlock i j); ring.
Qed.

Lemma flatTerm_some lk P f b t : evtsPos lk P f -> flatTerm lk P f b t = Some (flatR lk P f b t).
Proof. intros H. unfold flatTerm, flatR. apply osum_some. intros k Hk. rewrite odiv_some by (apply Rgt_not_eq, H; exact Hk). reflexivity. Qed.
Lemma hessFlat_some lk P f : evtsPos lk P f -> hessFlat lk P f = Some (hessFlatR lk P f).
Proof.
  intros H. unfold hessFlat, hessFlatR. rewrite (osum_some _ (fun k => 2 / evtLik lk P f k * (2 / evtLik lk P f k) * (f * f) - 2 / evtLik lk P f k)); [reflexivity|].
  intros k Hk. rewrite odiv_some by (apply Rgt_not_eq, H; exact Hk). reflexivity.
Qed.

(* real/imaginary: the element of the transposed pair *)
Lemma hessR_swap lk P f t u : hermitian lk -> In t (loopWaves (lkShape lk)) -> In u (loopWaves (lkShape lk)) -> hessR lk P f false t true u = hessR lk P f true u false t.
Proof.
  intros Hh Ht Hu. unfold hessR.
  assert (Es : sameBlock u t = sameBlock t u) by (unfold sameBlock; now rewrite (Nat.eqb_sym (rk u)), (Nat.eqb_sym (rf u))).
  assert (Ei : idx_eqb u t = idx_eqb t u) by (destruct (idx_eqb_spec u t), (idx_eqb_spec t u); congruence). rewrite Es, Ei. f_equal; [f_equal|].
  - apply rsumN_ext. intros k _. rewrite !conj_mult_parts. f_equal. ring.
  - destruct (sameBlock t u) eqn:E; [|reflexivity]. f_equal. rewrite !acc_parts. unfold sameBlock in E. apply andb_true_iff in E as [E1 E2]. apply Nat.eqb_eq in E1, E2.
    destruct t as [[r1 e1] w1], u as [[r2 e2] w2]. unfold rk, rf, wv in *; cbn in *. subst. apply loopWaves_In in Ht, Hu. rewrite (Hh e2 w2 w1) by tauto. unfold Cconj, Im. cbn. ring.
  - destruct (idx_eqb_spec t u) as [->|]; [|reflexivity]. unfold priorHR. destruct (lkPrior lk); [reflexivity|]. cbn [eqb]. unfold Rdiv. ring.
Qed.

(* ---- the matrix ---- *)
(* the writes into the matrix, in order *)
Definition applyW (ws : list (Z * Z * double)) (m : tmat) : tmat := fold_left (fun m w => mset m (fst (fst w)) (snd (fst w)) (snd w)) ws m.
Lemma applyW_app a b m : applyW (a ++ b) m = applyW b (applyW a m). Proof. apply fold_left_app. Qed.
Lemma mset_spec m p q v a b : mset m p q v a b = if ((a =? p) && (b =? q))%Z then v else m a b. Proof. reflexivity. Qed.
Lemma applyW_none ws : forall m a b, (forall v, ~ In (a, b, v) ws) -> applyW ws m a b = m a b.
Proof.
  induction ws as [|[[p q] v] ws IH]; intros m a b H; [reflexivity|]. cbn. rewrite IH by (intros v' Hv; apply (H v'); now right).
  rewrite mset_spec. destruct (Z.eqb_spec a p) as [->|]; [destruct (Z.eqb_spec b q) as [->|]|]; try reflexivity. exfalso. apply (H v). now left.
Qed.
Lemma applyW_some ws x : forall m a b, (forall v, In (a, b, v) ws -> v = x) -> ((exists v, In (a, b, v) ws) \/ m a b = x) -> applyW ws m a b = x.
Proof.
  induction ws as [|[[p q] v] ws IH]; intros m a b H Hex.
  - destruct Hex as [[v []]|]; assumption.
  - cbn. apply IH; [intros v' Hv; apply H; now right|]. rewrite mset_spec. destruct (Z.eqb_spec a p) as [->|Ha]; [destruct (Z.eqb_spec b q) as [->|Hb]|]; cbn [andb].
    + right. apply H. now left.
    + destruct Hex as [[v' [E|Hi]]|Hm]; [inversion E; congruence|left; eauto|now right].
    + destruct Hex as [[v' [E|Hi]]|Hm]; [inversion E; congruence|left; eauto|now right].
Qed.

(* the two parts of an amplitude are fixed together, and every parameter has an entry;
   C38_init_pairs and C41 show that init and addAmplitude see to this *)
Definition fixedPar (lk : lik) (p : nat) : bool := match nth_error (lkPars lk) p with Some q => fpFixed q | None => false end.
Definition pairsFixed (lk : lik) : Prop :=
  Z.of_nat (length (lkPars lk)) = nmbPars (lkShape lk) /\
  forall t p q, In t (loopWaves (lkShape lk)) -> lkMap lk t = (Z.of_nat p, Z.of_nat q) -> fixedPar lk p = fixedPar lk q.

Definition freeT (lk : lik) (t : idx) : bool := match freeIndices lk t with Some (Some _) => true | _ => false end.
Definition mp (lk : lik) (t : idx) (b : bool) : Z := (if b then fst else snd) (lkMap lk t).
Lemma map_pos lk k t b : goodMap (lkShape lk) (lkMap lk) -> nth_error (comps (loopWaves (lkShape lk))) k = Some (t, b) -> mp lk t b = Z.of_nat k.
Proof. intros [G1 _] H. unfold mp. exact (G1 _ _ _ H). Qed.
Lemma map_neg lk t b : goodMap (lkShape lk) (lkMap lk) -> In t (loopWaves (lkShape lk)) -> (mp lk t b = -1)%Z \/ exists k, nth_error (comps (loopWaves (lkShape lk))) k = Some (t, b).
Proof.
  intros [G1 G2] Ht. destruct (in_dec comp_eq_dec (t, b) (comps (loopWaves (lkShape lk)))) as [Hi|Hi].
  - apply comps_index in Hi as (j & Ej & _). right. eauto.
  - left. exact (G2 t b Ht Hi).
Qed.
Lemma fixedAt_some lk p : pairsFixed lk -> (0 <= p < nmbPars (lkShape lk))%Z -> fixedAt lk p = Some (fixedPar lk (Z.to_nat p)).
Proof.
  intros [Hl _] Hp. unfold fixedAt, fixedPar, rd. destruct (nth_error (lkPars lk) (Z.to_nat p)) eqn:E; [reflexivity|]. apply nth_error_None in E. lia.
Qed.
Lemma freeIndices_spec lk t : setUp lk -> pairsFixed lk -> In t (loopWaves (lkShape lk)) ->
  freeIndices lk t = Some (if (mp lk t true <? 0)%Z || fixedPar lk (Z.to_nat (mp lk t true)) then None else Some (mp lk t true, mp lk t false)).
Proof.
  intros Hs Hf Ht. pose proof (setUp_map lk Hs) as G. unfold freeIndices, mp. destruct (lkMap lk t) as [r i] eqn:Em. cbn [fst snd].
  assert (Hn : forall b k, nth_error (comps (loopWaves (lkShape lk))) k = Some (t, b) -> (Z.of_nat k < nmbPars (lkShape lk))%Z).
  { intros b k Hk. rewrite nmbPars_comps. assert (k < length (comps (loopWaves (lkShape lk))))%nat by (apply nth_error_Some; congruence). lia. }
  destruct (map_neg lk t true G Ht) as [Hr|[k Hk]].
  - unfold mp in Hr. rewrite Em in Hr. cbn in Hr. subst r. reflexivity.
  - pose proof (map_pos lk k t true G Hk) as Hr. unfold mp in Hr. rewrite Em in Hr. cbn in Hr. subst r. pose proof (Hn _ _ Hk).
    destruct (Z.ltb_spec (Z.of_nat k) 0); [lia|]. rewrite fixedAt_some by (auto; lia). cbn [bnd orb]. rewrite Nat2Z.id.
    destruct (fixedPar lk k) eqn:Efk; [reflexivity|].
    destruct (map_neg lk t false G Ht) as [Hi|[j Hj]].
    + unfold mp in Hi. rewrite Em in Hi. cbn in Hi. subst i. reflexivity.
    + pose proof (map_pos lk j t false G Hj) as Hi. unfold mp in Hi. rewrite Em in Hi. cbn in Hi. subst i. pose proof (Hn _ _ Hj).
      destruct (Z.ltb_spec (Z.of_nat j) 0); [lia|]. rewrite fixedAt_some by (auto; lia). cbn [bnd]. rewrite Nat2Z.id.
      rewrite <- (proj2 Hf t k j Ht Em), Efk. reflexivity.
Qed.
Lemma freeT_spec lk t b k : setUp lk -> pairsFixed lk -> nth_error (comps (loopWaves (lkShape lk))) k = Some (t, b) -> freeT lk t = negb (fixedPar lk k).
Proof.
  intros Hs Hf Hk. pose proof (setUp_map lk Hs) as G. assert (Hc : In (t, b) (comps (loopWaves (lkShape lk)))) by (eapply nth_error_In; eauto). apply comps_In in Hc as [Ht Hb].
  unfold freeT. rewrite freeIndices_spec by assumption.
  assert (Hi : In (t, true) (comps (loopWaves (lkShape lk)))). { apply comps_In. split; [exact Ht|]. destruct b; lia. }
  apply comps_index in Hi as (j & Hj & _). rewrite (map_pos lk j t true G Hj). destruct (Z.ltb_spec (Z.of_nat j) 0); [lia|]. cbn [orb]. rewrite Nat2Z.id.
  assert (E : fixedPar lk j = fixedPar lk k).
  { destruct b.
    - pose proof (comps_NoDup _ (loopWaves_NoDup (lkShape lk))) as ND. assert (j = k); [|congruence]. apply (proj1 (NoDup_nth_error _) ND); [apply nth_error_Some; congruence|congruence].
    - apply (proj2 Hf t j k Ht). destruct (lkMap lk t) as [r i] eqn:Em. pose proof (map_pos lk j t true G Hj) as A. pose proof (map_pos lk k t false G Hk) as B. unfold mp in A, B. rewrite Em in A, B. cbn in A, B. now subst. }
  rewrite E. now destruct (fixedPar lk k).
Qed.

(* the value of a matrix element in terms of the two components *)
Definition entry lk P f (t : idx) (b : bool) (u : idx) (c : bool) : double :=
  match b, c with
  | true, true => hess lk P f 0 t u | true, false => hess lk P f 1 t u
  | false, true => hess lk P f 1 u t | false, false => hess lk P f 2 t u
  end.
Definition innerW lk P f t u : list (Z * Z * double) :=
  if freeT lk u then
    [(mp lk t true, mp lk u true, hess lk P f 0 t u)]
    ++ (if (0 <=? mp lk u false)%Z then [(mp lk t true, mp lk u false, hess lk P f 1 t u)] else [])
    ++ (if (0 <=? mp lk t false)%Z then [(mp lk t false, mp lk u true, hess lk P f 1 u t)] else [])
    ++ (if (0 <=? mp lk t false)%Z && (0 <=? mp lk u false)%Z then [(mp lk t false, mp lk u false, hess lk P f 2 t u)] else [])
  else [].
Definition lastP lk : Z := (nmbPars (lkShape lk) - 1)%Z.
Definition outerW lk P f t : list (Z * Z * double) :=
  if freeT lk t then
    flat_map (innerW lk P f t) (loopWaves (lkShape lk))
    ++ [(mp lk t true, lastP lk, flatTerm lk P f true t); (lastP lk, mp lk t true, flatTerm lk P f true t)]
    ++ (if (0 <=? mp lk t false)%Z then [(mp lk t false, lastP lk, flatTerm lk P f false t); (lastP lk, mp lk t false, flatTerm lk P f false t)] else [])
  else [].

Lemma innerW_fold lk P f t l m : setUp lk -> pairsFixed lk -> (forall u, In u l -> In u (loopWaves (lkShape lk))) ->
  foldO (hessInner lk P f t (mp lk t true) (mp lk t false)) l m = Some (applyW (flat_map (innerW lk P f t) l) m).
Proof.
  intros Hs Hf. revert m. induction l as [|u l IH]; intros m Hl; [reflexivity|]. cbn [foldO flat_map]. rewrite applyW_app.
  assert (E : hessInner lk P f t (mp lk t true) (mp lk t false) u m = Some (applyW (innerW lk P f t u) m)).
  { unfold hessInner, innerW, freeT. rewrite freeIndices_spec by (auto using in_eq). cbn [bnd]. destruct (_ || _); [reflexivity|]. f_equal.
    destruct (0 <=? mp lk t false)%Z, (0 <=? mp lk u false)%Z; reflexivity. }
  rewrite E. cbn [bnd]. apply IH. intros; apply Hl; now right.
Qed.
Lemma outerW_fold lk P f l m : setUp lk -> pairsFixed lk -> (forall u, In u l -> In u (loopWaves (lkShape lk))) ->
  foldO (hessOuter lk P f) l m = Some (applyW (flat_map (outerW lk P f) l) m).
Proof.
  intros Hs Hf. revert m. induction l as [|t l IH]; intros m Hl; [reflexivity|]. cbn [foldO flat_map]. rewrite applyW_app.
  assert (E : hessOuter lk P f t m = Some (applyW (outerW lk P f t) m)).
  { unfold hessOuter, outerW, freeT. rewrite freeIndices_spec by (auto using in_eq). cbn [bnd]. destruct (_ || _); [reflexivity|].
    rewrite innerW_fold by auto. cbn [bnd]. rewrite !applyW_app. fold (lastP lk). destruct (0 <=? mp lk t false)%Z; reflexivity. }
  rewrite E. cbn [bnd]. apply IH. intros; apply Hl; now right.
Qed.
Definition allW lk P f : list (Z * Z * double) := flat_map (outerW lk P f) (loopWaves (lkShape lk)) ++ [(lastP lk, lastP lk, hessFlat lk P f)].
Lemma hessian_writes lk par P f : setUp lk -> pairsFixed lk -> copyFromParArray (lkShape lk) par = Some (P, f) ->
  hessian lk par = Some (applyW (allW lk P f) (fun _ _ => Some 0)).
Proof.
  intros Hs Hf Hc. unfold hessian. rewrite Hc. cbn [bnd fst snd]. rewrite outerW_fold by auto. cbn [bnd]. unfold allW. now rewrite applyW_app.
Qed.

Section Mat.
  Context (lk : lik) (P : idx -> C) (f : R) (Hs : setUp lk) (Hf : pairsFixed lk).
  Notation cs := (comps (loopWaves (lkShape lk))).
  Let G : goodMap (lkShape lk) (lkMap lk) := setUp_map lk Hs.
  Lemma last_len : lastP lk = Z.of_nat (length cs). Proof. unfold lastP. rewrite nmbPars_comps. lia. Qed.
  Lemma mp_inv t b p : In t (loopWaves (lkShape lk)) -> mp lk t b = Z.of_nat p -> nth_error cs p = Some (t, b).
  Proof. intros Ht H. destruct (map_neg lk t b G Ht) as [E|[k Hk]]; [lia|]. rewrite (map_pos lk k t b G Hk) in H. assert (k = p) by lia. now subst. Qed.
  Lemma mp_lt t b p : nth_error cs p = Some (t, b) -> (mp lk t b < lastP lk)%Z.
  Proof. intros H. rewrite (map_pos lk p t b G H), last_len. assert (p < length cs)%nat by (apply nth_error_Some; congruence). lia. Qed.
  Lemma mp_not_last t b : In t (loopWaves (lkShape lk)) -> mp lk t b <> lastP lk.
  Proof. intros Ht E. rewrite last_len in E. pose proof (mp_inv t b _ Ht E) as H. assert (length cs < length cs)%nat by (apply nth_error_Some; congruence). lia. Qed.

  Lemma innerW_In t u a b v : In t (loopWaves (lkShape lk)) -> In u (loopWaves (lkShape lk)) -> freeT lk t = true ->
    In (a, b, v) (innerW lk P f t u) <-> freeT lk u = true /\ exists x y, (0 <= mp lk t x)%Z /\ (0 <= mp lk u y)%Z /\ a = mp lk t x /\ b = mp lk u y /\ v = entry lk P f t x u y.
  Proof.
    intros Ht Hu Hft. unfold innerW. destruct (freeT lk u) eqn:Hfu.
    2:{ split; [intros []|intros [X _]; discriminate]. }
    assert (Hpos : forall w, In w (loopWaves (lkShape lk)) -> freeT lk w = true -> (0 <= mp lk w true)%Z).
    { intros w Hw Hfw. unfold freeT in Hfw. rewrite freeIndices_spec in Hfw by assumption. destruct (Z.ltb_spec (mp lk w true) 0); [discriminate|lia]. }
    pose proof (Hpos t Ht Hft) as P1. pose proof (Hpos u Hu Hfu) as P2. rewrite !in_app_iff. split.
    - intros H. split; [reflexivity|]. destruct H as [[H|[]]|[H|[H|H]]].
      + inversion H; subst. exists true, true. auto 10.
      + destruct (Z.leb_spec 0 (mp lk u false)) as [Q|Q]; [|destruct H]. destruct H as [H|[]]. inversion H; subst. exists true, false. auto 10.
      + destruct (Z.leb_spec 0 (mp lk t false)) as [Q|Q]; [|destruct H]. destruct H as [H|[]]. inversion H; subst. exists false, true. auto 10.
      + destruct (Z.leb_spec 0 (mp lk t false)) as [Q|Q]; [|destruct H]. destruct (Z.leb_spec 0 (mp lk u false)) as [Q'|Q']; [|destruct H]. destruct H as [H|[]]. inversion H; subst. exists false, false. auto 10.
    - intros (_ & x & y & Hx & Hy & -> & -> & ->). destruct x, y; cbn [entry].
      + left. now left.
      + right. left. destruct (Z.leb_spec 0 (mp lk u false)); [now left|lia].
      + right. right. left. destruct (Z.leb_spec 0 (mp lk t false)); [now left|lia].
      + right. right. right. destruct (Z.leb_spec 0 (mp lk t false)); [|lia]. destruct (Z.leb_spec 0 (mp lk u false)); [now left|lia].
  Qed.
  Lemma allW_In a b v : In (a, b, v) (allW lk P f) <->
    (exists t u x y, In t (loopWaves (lkShape lk)) /\ In u (loopWaves (lkShape lk)) /\ freeT lk t = true /\ freeT lk u = true /\ (0 <= mp lk t x)%Z /\ (0 <= mp lk u y)%Z /\ a = mp lk t x /\ b = mp lk u y /\ v = entry lk P f t x u y)
    \/ (exists t x, In t (loopWaves (lkShape lk)) /\ freeT lk t = true /\ (0 <= mp lk t x)%Z /\ v = flatTerm lk P f x t /\ ((a = mp lk t x /\ b = lastP lk) \/ (a = lastP lk /\ b = mp lk t x)))
    \/ (a = lastP lk /\ b = lastP lk /\ v = hessFlat lk P f).
  Proof.
    unfold allW. rewrite in_app_iff, in_flat_map.
    assert (Hpos : forall w, In w (loopWaves (lkShape lk)) -> freeT lk w = true -> (0 <= mp lk w true)%Z).
    { intros w Hw Hfw. unfold freeT in Hfw. rewrite freeIndices_spec in Hfw by assumption. destruct (Z.ltb_spec (mp lk w true) 0); [discriminate|lia]. }
    split.
    - intros [(t & Ht & H)|[H|[]]]; [|inversion H; subst; right; right; auto]. unfold outerW in H. destruct (freeT lk t) eqn:Hft; [|destruct H].
      pose proof (Hpos t Ht Hft). rewrite !in_app_iff in H. destruct H as [H|[H|H]].
      + apply in_flat_map in H as (u & Hu & H). apply innerW_In in H; auto. destruct H as (Hfu & x & y & A1 & A2 & A3 & A4 & A5). left. exists t, u, x, y. auto 12.
      + right. left. exists t, true. destruct H as [H|[H|[]]]; inversion H; subst; repeat split; auto.
      + right. left. destruct (Z.leb_spec 0 (mp lk t false)) as [Q|Q]; [|destruct H]. exists t, false. destruct H as [H|[H|[]]]; inversion H; subst; repeat split; auto.
    - intros [(t & u & x & y & Ht & Hu & Hft & Hfu & A1 & A2 & A3 & A4 & A5)|[(t & x & Ht & Hft & Hx & Hv & Hab)|(-> & -> & ->)]].
      + left. exists t. split; [exact Ht|]. unfold outerW. rewrite Hft. rewrite !in_app_iff. left. apply in_flat_map. exists u. split; [exact Hu|]. apply innerW_In; auto. split; [exact Hfu|]. exists x, y. auto 10.
      + left. exists t. split; [exact Ht|]. unfold outerW. rewrite Hft. rewrite !in_app_iff. right. destruct x.
        * left. destruct Hab as [[-> ->]|[-> ->]]; rewrite Hv; [now left|right; now left].
        * right. destruct (Z.leb_spec 0 (mp lk t false)); [|lia]. destruct Hab as [[-> ->]|[-> ->]]; rewrite Hv; [now left|right; now left].
      + right. now left.
  Qed.

  Notation M := (applyW (allW lk P f) (fun _ _ => Some 0)).
  Lemma mat_entry p q t b u c : nth_error cs p = Some (t, b) -> nth_error cs q = Some (u, c) ->
    M (Z.of_nat p) (Z.of_nat q) = if freeT lk t && freeT lk u then entry lk P f t b u c else Some 0.
  Proof.
    intros Hp Hq. assert (Ht : In t (loopWaves (lkShape lk))) by (apply nth_error_In in Hp; now apply comps_In in Hp). assert (Hu : In u (loopWaves (lkShape lk))) by (apply nth_error_In in Hq; now apply comps_In in Hq).
    pose proof (mp_lt t b p Hp) as L1. pose proof (mp_lt u c q Hq) as L2. pose proof (map_pos lk p t b G Hp) as E1. pose proof (map_pos lk q u c G Hq) as E2. rewrite E1 in L1. rewrite E2 in L2.
    assert (Inv : forall v, In (Z.of_nat p, Z.of_nat q, v) (allW lk P f) -> freeT lk t = true /\ freeT lk u = true /\ v = entry lk P f t b u c).
    { intros v Hv. apply allW_In in Hv as [(t' & u' & x & y & Ht' & Hu' & Hft & Hfu & A1 & A2 & A3 & A4 & A5)|[(t' & x & Ht' & Hft & Hx & Hv & [[_ A]|[A _]])|(A & _)]]; [|lia..].
      pose proof (mp_inv t' x p Ht' (eq_sym A3)) as B1. pose proof (mp_inv u' y q Hu' (eq_sym A4)) as B2. rewrite Hp in B1. rewrite Hq in B2. inversion B1; inversion B2; subst. auto. }
    destruct (freeT lk t) eqn:Hft; [destruct (freeT lk u) eqn:Hfu|]; cbn [andb].
    - apply applyW_some; [intros v Hv; now apply Inv in Hv|]. left. exists (entry lk P f t b u c). apply allW_In. left. exists t, u, b, c. repeat split; auto; lia.
    - apply (applyW_none (allW lk P f)). intros v Hv. apply Inv in Hv as (_ & X & _). discriminate.
    - apply (applyW_none (allW lk P f)). intros v Hv. apply Inv in Hv as (X & _). discriminate.
  Qed.
  Lemma mat_flat p t b : nth_error cs p = Some (t, b) ->
    M (Z.of_nat p) (lastP lk) = (if freeT lk t then flatTerm lk P f b t else Some 0) /\ M (lastP lk) (Z.of_nat p) = (if freeT lk t then flatTerm lk P f b t else Some 0).
  Proof.
    intros Hp. assert (Ht : In t (loopWaves (lkShape lk))) by (apply nth_error_In in Hp; now apply comps_In in Hp).
    pose proof (mp_lt t b p Hp) as L1. pose proof (map_pos lk p t b G Hp) as E1. rewrite E1 in L1.
    assert (Inv : forall v a d, (a = Z.of_nat p /\ d = lastP lk) \/ (a = lastP lk /\ d = Z.of_nat p) -> In (a, d, v) (allW lk P f) -> freeT lk t = true /\ v = flatTerm lk P f b t).
    { intros v a d Had Hv. apply allW_In in Hv as [(t' & u' & x & y & Ht' & Hu' & Hft & Hfu & A1 & A2 & A3 & A4 & A5)|[(t' & x & Ht' & Hft & Hx & Hv & A)|(A & A' & _)]]; [| |lia].
      - pose proof (mp_not_last t' x Ht'). pose proof (mp_not_last u' y Hu'). destruct Had as [[? ?]|[? ?]]; congruence.
      - assert (mp lk t' x = Z.of_nat p) by (destruct Had as [[? ?]|[? ?]], A as [[? ?]|[? ?]]; lia). pose proof (mp_inv t' x p Ht' H) as B1. rewrite Hp in B1. inversion B1; subst. auto. }
    split; destruct (freeT lk t) eqn:Hft.
    - apply applyW_some; [intros v Hv; apply (Inv v) in Hv; [tauto|auto]|]. left. exists (flatTerm lk P f b t). apply allW_In. right. left. exists t, b. repeat split; auto; lia.
    - apply (applyW_none (allW lk P f)). intros v Hv. apply Inv in Hv as [X _]; [discriminate|auto].
    - apply applyW_some; [intros v Hv; apply (Inv v) in Hv; [tauto|auto]|]. left. exists (flatTerm lk P f b t). apply allW_In. right. left. exists t, b. repeat split; auto; lia.
    - apply (applyW_none (allW lk P f)). intros v Hv. apply Inv in Hv as [X _]; [discriminate|auto].
  Qed.
  Lemma mat_flatflat : M (lastP lk) (lastP lk) = hessFlat lk P f.
  Proof. unfold allW. rewrite applyW_app. cbn. rewrite mset_spec, !Z.eqb_refl. reflexivity. Qed.
End Mat.

(* ---- C38 ---- *)
(* element p of the gradient, 0 where it is not a finite number *)
Definition gradAt (lk : lik) (par : list R) (p : nat) : R := match gradient lk par with Some g => valueOf (nth_error g p) | None => 0 end.
Definition gradFinite (lk : lik) (par : list R) (p : nat) : Prop := exists g d, gradient lk par = Some g /\ nth_error g p = Some (Some d).

(* the parameters made by init satisfy pairsFixed *)
Theorem C38_init_pairs : forall lk names thr mass d, buildParDataStruct (lkShape lk) names thr mass = Some d -> lkMap lk = pdMap d -> lkPars lk = pdPars d -> pairsFixed lk.
Proof.
  intros lk names thr mass d E Em Ep. destruct (build_spec names thr mass (lkShape lk)) as (d' & E' & G & Hp & _). assert (d' = d) by congruence. subst d'. split.
  - rewrite Ep, Hp, app_length, map_length, nmbPars_comps. cbn [length]. lia.
  - intros t p q Ht Hm. rewrite Em in Hm. destruct G as [G1 G2].
    assert (Inv : forall b j, (if b : bool then fst else snd) (pdMap d t) = Z.of_nat j -> nth_error (comps (loopWaves (lkShape lk))) j = Some (t, b)).
    { intros b j Hb. destruct (in_dec comp_eq_dec (t, b) (comps (loopWaves (lkShape lk)))) as [Hi|Hi].
      - apply comps_index in Hi as (i & Ei & _). rewrite (G1 _ _ _ Ei) in Hb. assert (i = j) by lia. now subst.
      - rewrite (G2 t b Ht Hi) in Hb. lia. }
    pose proof (Inv true p ltac:(rewrite Hm; reflexivity)) as A. pose proof (Inv false q ltac:(rewrite Hm; reflexivity)) as B.
    unfold fixedPar. rewrite Ep, Hp. rewrite !nth_error_app1 by (rewrite map_length; apply nth_error_Some; congruence). rewrite !nth_error_map, A, B. reflexivity.
Qed.

Lemma from_some sh par : Z.of_nat (length par) = nmbPars sh -> exists P f, copyFromParArray sh par = Some (P, f).
Proof. intros H. destruct (from_spec sh par ltac:(lia)) as (P & f & E & _). eauto. Qed.

Lemma entry_some lk P f t b u c : hermitian lk -> In t (loopWaves (lkShape lk)) -> In u (loopWaves (lkShape lk)) -> evtsPos lk P f ->
  (t = u -> lkPrior lk = HALF_CAUCHY -> lkWidth lk <> 0 /\ P t <> RtoC 0) -> entry lk P f t b u c = Some (hessR lk P f b t c u).
Proof.
  intros Hh Ht Hu Hp Hz. destruct b, c; cbn [entry].
  - apply (hess_some lk P f 0 t u); auto.
  - apply (hess_some lk P f 1 t u); auto.
  - rewrite (hessR_swap lk P f t u) by assumption. apply (hess_some lk P f 1 u t); auto. intros ->. now apply Hz.
  - apply (hess_some lk P f 2 t u); auto.
Qed.

(* wherever the value and element p of the gradient are finite and both parameters are free,
   element (p,q) of the Hessian is finite and is the derivative of element p of the gradient
   with respect to parameter q, the gradient being finite in a neighbourhood *)
Theorem C38_hessian_is_derivative : forall lk par p q x0 v,
  setUp lk -> pairsFixed lk -> hermitian lk -> Z.of_nat (length par) = nmbPars (lkShape lk) ->
  (p < length par)%nat -> nth_error par q = Some x0 -> fixedPar lk p = false -> fixedPar lk q = false ->
  doEval lk par = Some (Some v) -> gradFinite lk par p ->
  exists M h, hessian lk par = Some M /\ M (Z.of_nat p) (Z.of_nat q) = Some h /\
    locally x0 (fun x => gradFinite lk (setAt par q x) p) /\ is_derive (fun x => gradAt lk (setAt par q x) p) x0 h.
Proof.
  intros lk par p q x0 v Hs Hf Hh Hl Hpl Hq Fp Fq Hv Hgf. assert (Hql : (q < length par)%nat) by (apply nth_error_Some; congruence).
  destruct (from_some _ _ Hl) as (P & f & Hc). unfold doEval in Hv. rewrite Hc in Hv. cbn [bnd fst snd] in Hv. injection Hv as Hv.
  destruct (funcVal_inv _ _ _ _ Hv) as [Hp [pr Hpr]]. destruct Hgf as (g & d & Hg & Hd). rewrite (gradient_nth lk par P f g p Hs Hl Hc Hg Hpl) in Hd. injection Hd as Hd.
  rewrite (hessian_writes lk par P f Hs Hf Hc). set (M := applyW _ _). exists M.
  set (cs := comps (loopWaves (lkShape lk))) in *.
  assert (Hlen : length par = (length cs + 1)%nat) by (rewrite nmbPars_comps in Hl; unfold cs; lia).
  pose proof (last_len lk) as EL. fold cs in EL.
  (* gradient after changing parameter q *)
  assert (Eg : forall x Q fx, copyFromParArray (lkShape lk) (setAt par q x) = Some (Q, fx) ->
     gradient lk (setAt par q x) = Some (map (fun c => derivative lk Q fx (snd c) (fst c)) cs ++ [derivativeFlat lk Q fx]) /\
     forall g', gradient lk (setAt par q x) = Some g' -> nth_error g' p = Some (match nth_error cs p with Some (t, b) => derivative lk Q fx b t | None => derivativeFlat lk Q fx end)).
  { intros x Q fx Ec. assert (Hl' : Z.of_nat (length (setAt par q x)) = nmbPars (lkShape lk)) by now rewrite setAt_length. split.
    - exact (gradient_spec lk _ Q fx Hs Hl' Ec).
    - intros g' Hg'. apply (gradient_nth lk _ Q fx g' p Hs Hl' Ec Hg'). now rewrite setAt_length. }
  assert (Fin : forall x Q fx (y : R), copyFromParArray (lkShape lk) (setAt par q x) = Some (Q, fx) ->
     match nth_error cs p with Some (t, b) => derivative lk Q fx b t | None => derivativeFlat lk Q fx end = Some y ->
     gradFinite lk (setAt par q x) p /\ gradAt lk (setAt par q x) p = y).
  { intros x Q fx y Ec Ey. destruct (Eg x Q fx Ec) as [E1 E2]. specialize (E2 _ E1). rewrite Ey in E2. split.
    - eexists. eexists. split; [exact E1|exact E2].
    - unfold gradAt. rewrite E1, E2. reflexivity. }
  assert (Main : forall (A : R -> Prop) (F : R -> R) h, M (Z.of_nat p) (Z.of_nat q) = Some h -> locally 0 A -> is_derive F 0 h ->
     (forall x, A (x - x0) -> gradFinite lk (setAt par q x) p /\ gradAt lk (setAt par q x) p = F (x - x0)) ->
     exists h, Some M = Some M /\ M (Z.of_nat p) (Z.of_nat q) = Some h /\ locally x0 (fun x => gradFinite lk (setAt par q x) p) /\ is_derive (fun x => gradAt lk (setAt par q x) p) x0 h).
  { intros A F h Em HA HF Hx. exists h. split; [reflexivity|]. split; [exact Em|]. pose proof (shift_locally A x0 HA) as HA'. split.
    - revert HA'. apply filter_imp. intros x Ax. now apply Hx.
    - apply (is_derive_ext_loc (fun x => F (x - x0))); [|now apply shift_derive]. revert HA'. apply filter_imp. intros x Ax. symmetry. now apply Hx. }
  pose proof (from_setAt (lkShape lk) par P f q) as Fs. fold cs in Fs.
  destruct (nth_error cs p) as [[t b]|] eqn:Ep.
  - assert (Ht : In t (loopWaves (lkShape lk))) by (apply nth_error_In in Ep; now apply comps_In in Ep).
    assert (Hgm : lkPrior lk = HALF_CAUCHY -> lkWidth lk <> 0) by (intros Hcau; apply (priorValue_inv lk P pr t Hpr Ht Hcau)).
    assert (Hpz : lkPrior lk = HALF_CAUCHY -> lkWidth lk <> 0 /\ P t <> RtoC 0) by (intros; now apply (derivative_inv lk P f b t d Hd)).
    assert (Hft : freeT lk t = true) by (rewrite (freeT_spec lk t b p Hs Hf Ep), Fp; reflexivity).
    destruct (nth_error cs q) as [[u c]|] eqn:Eq.
    + assert (Hu : In u (loopWaves (lkShape lk))) by (apply nth_error_In in Eq; now apply comps_In in Eq).
      assert (Hfu : freeT lk u = true) by (rewrite (freeT_spec lk u c q Hs Hf Eq), Fq; reflexivity).
      apply (Main (fun h => evtsPos lk (Pdir P u c h) f /\ (lkPrior lk = HALF_CAUCHY -> Pdir P u c h t <> RtoC 0)) (fun h => derR lk (Pdir P u c h) f b t) (hessR lk P f b t c u)).
      * unfold M. rewrite (mat_entry lk P f Hs Hf p q t b u c Ep Eq), Hft, Hfu. cbn [andb]. apply entry_some; auto.
      * apply filter_and; [now apply pos_dir|]. destruct (lkPrior lk).
        -- apply (filter_imp (fun _ => True)); [discriminate|apply filter_true].
        -- apply (filter_imp (fun h => Pdir P u c h t <> RtoC 0)); [auto|]. apply nz_dir. now apply Hpz.
      * now apply der_dir.
      * intros x [Hx Hx']. apply (Fin x _ _ _ (Fs x x0 Hl Hc Hq)). apply derivative_some; [exact Hx|]. intros Hcau. split; [now apply Hgm|now apply Hx'].
    + assert (q = length cs) by (apply nth_error_None in Eq; lia).
      apply (Main (fun h => evtsPos lk P (f + h)) (fun h => derR lk P (f + h) b t) (flatR lk P f b t)).
      * unfold M. rewrite H, <- EL. rewrite (proj1 (mat_flat lk P f Hs Hf p t b Ep)), Hft. now apply flatTerm_some.
      * now apply pos_flat.
      * now apply der_flat.
      * intros x Hx. apply (Fin x _ _ _ (Fs x x0 Hl Hc Hq)). now apply derivative_some.
  - assert (Hpe : p = length cs) by (apply nth_error_None in Ep; lia).
    destruct (nth_error cs q) as [[u c]|] eqn:Eq.
    + assert (Hu : In u (loopWaves (lkShape lk))) by (apply nth_error_In in Eq; now apply comps_In in Eq).
      assert (Hfu : freeT lk u = true) by (rewrite (freeT_spec lk u c q Hs Hf Eq), Fq; reflexivity).
      apply (Main (fun h => evtsPos lk (Pdir P u c h) f) (fun h => derFlatR lk (Pdir P u c h) f) (flatR lk P f c u)).
      * unfold M. rewrite Hpe, <- EL. rewrite (proj2 (mat_flat lk P f Hs Hf q u c Eq)), Hfu. now apply flatTerm_some.
      * now apply pos_dir.
      * now apply derFlat_dir.
      * intros x Hx. apply (Fin x _ _ _ (Fs x x0 Hl Hc Hq)). now apply derivativeFlat_some.
    + assert (q = length cs) by (apply nth_error_None in Eq; lia).
      apply (Main (fun h => evtsPos lk P (f + h)) (fun h => derFlatR lk P (f + h)) (hessFlatR lk P f)).
      * unfold M. rewrite H, Hpe, <- EL. rewrite (mat_flatflat lk P f). now apply hessFlat_some.
      * now apply pos_flat.
      * now apply derFlat_flat.
      * intros x Hx. apply (Fin x _ _ _ (Fs x x0 Hl Hc Hq)). now apply derivativeFlat_some.
Qed.

(* symmetry, whether or not the elements are finite *)
Lemma osum_ext f g n : (forall k, (k < n)%nat -> f k = g k) -> osum f n = osum g n.
Proof. induction n as [|n IH]; intros H; [reflexivity|]. cbn [osum]. rewrite IH by (intros; apply H; lia). now rewrite H by lia. Qed.
Lemma hess_sym lk P f n t u : hermitian lk -> In t (loopWaves (lkShape lk)) -> In u (loopWaves (lkShape lk)) -> n <> 1%nat -> hess lk P f n t u = hess lk P f n u t.
Proof.
  intros Hh Ht Hu Hn. destruct (idx_eqb_spec t u) as [->|Hne]; [reflexivity|].
  assert (Eb : fst (hessPart n) = snd (hessPart n)) by (destruct n as [|[|n]]; cbn; congruence).
  unfold hess. destruct (hessPart n) as [bi bj]. cbn in Eb. subst bj. fold (sameBlock t u). fold (sameBlock u t).
  assert (Es : sameBlock u t = sameBlock t u) by (unfold sameBlock; now rewrite (Nat.eqb_sym (rk u)), (Nat.eqb_sym (rf u))).
  rewrite Es. destruct (idx_eqb_spec t u); [contradiction|]. destruct (idx_eqb_spec u t); [congruence|]. destruct (Nat.eqb_spec n 1); [contradiction|].
  erewrite osum_ext.
  2:{ intros k _. instantiate (1 := fun k => do f0 <- odiv 2 (evtLik lk P f k);
        (let s := f0 * f0 * partOf bi (evtDeriv lk P k t) * partOf bi (evtDeriv lk P k u) in
         if sameBlock t u then let u0 := (Cconj (lkDec lk (rf t) k (wv t)) * lkDec lk (rf u) k (wv u))%C in Some (s + - f0 * Re u0) else Some s)).
      cbn beta. destruct (odiv 2 (evtLik lk P f k)); [|reflexivity]. cbn [bnd]. destruct (sameBlock t u); f_equal; [|ring].
      set (x := lkDec lk (rf t) k (wv t)). set (y := lkDec lk (rf u) k (wv u)). replace (Re (Cconj y * x)%C) with (Re (Cconj x * y)%C); [ring|]. destruct x, y; unfold Cconj, Cmult, Re; cbn; ring. }
  destruct (osum _ _); [|reflexivity]. cbn [bnd]. f_equal. destruct (sameBlock t u) eqn:E; [|reflexivity]. f_equal. f_equal.
  unfold sameBlock in E. apply andb_true_iff in E as [E1 E2]. apply Nat.eqb_eq in E1, E2.
  destruct t as [[r1 e1] w1], u as [[r2 e2] w2]. unfold rk, rf, wv in *; cbn in *. subst. apply loopWaves_In in Ht, Hu. rewrite (Hh e2 w1 w2) by tauto. unfold Cconj, Re. reflexivity.
Qed.
Lemma entry_sym lk P f t b u c : hermitian lk -> In t (loopWaves (lkShape lk)) -> In u (loopWaves (lkShape lk)) -> entry lk P f t b u c = entry lk P f u c t b.
Proof. intros Hh Ht Hu. destruct b, c; cbn [entry]; try reflexivity; apply hess_sym; auto; lia. Qed.

Theorem C38_symmetric : forall lk par M p q,
  setUp lk -> pairsFixed lk -> hermitian lk -> hessian lk par = Some M -> (p < length (lkPars lk))%nat -> (q < length (lkPars lk))%nat ->
  M (Z.of_nat p) (Z.of_nat q) = M (Z.of_nat q) (Z.of_nat p).
Proof.
  intros lk par M p q Hs Hf Hh HM Hp Hq. destruct (copyFromParArray (lkShape lk) par) as [[P f]|] eqn:Hc; [|unfold hessian in HM; rewrite Hc in HM; discriminate].
  rewrite (hessian_writes lk par P f Hs Hf Hc) in HM. injection HM as <-.
  pose proof (proj1 Hf) as Hl. rewrite nmbPars_comps in Hl. set (cs := comps (loopWaves (lkShape lk))) in *. pose proof (last_len lk) as EL. fold cs in EL.
  assert (Hin : forall j t b, nth_error cs j = Some (t, b) -> In t (loopWaves (lkShape lk))) by (intros j t b H; apply nth_error_In in H; now apply comps_In in H).
  destruct (nth_error cs p) as [[t b]|] eqn:Ep, (nth_error cs q) as [[u c]|] eqn:Eq.
  - rewrite (mat_entry lk P f Hs Hf p q t b u c Ep Eq), (mat_entry lk P f Hs Hf q p u c t b Eq Ep), andb_comm. destruct (_ && _); [|reflexivity]. apply entry_sym; eauto.
  - assert (Z.of_nat q = lastP lk) as -> by (apply nth_error_None in Eq; lia). destruct (mat_flat lk P f Hs Hf p t b Ep) as [-> ->]. reflexivity.
  - assert (Z.of_nat p = lastP lk) as -> by (apply nth_error_None in Ep; lia). destruct (mat_flat lk P f Hs Hf q u c Eq) as [-> ->]. reflexivity.
  - assert (p = q) by (apply nth_error_None in Ep, Eq; lia). now subst.
Qed.

(* rows and columns of fixed parameters are zero (the flat wave is the last parameter and is
   never fixed by init) *)
Theorem C38_fixed_rows_zero : forall lk par M p q,
  setUp lk -> pairsFixed lk -> hessian lk par = Some M -> (p < length (lkPars lk))%nat -> (S q < length (lkPars lk))%nat -> fixedPar lk q = true ->
  M (Z.of_nat p) (Z.of_nat q) = Some 0 /\ M (Z.of_nat q) (Z.of_nat p) = Some 0.
Proof.
  intros lk par M p q Hs Hf HM Hp Hq Fq. destruct (copyFromParArray (lkShape lk) par) as [[P f]|] eqn:Hc; [|unfold hessian in HM; rewrite Hc in HM; discriminate].
  rewrite (hessian_writes lk par P f Hs Hf Hc) in HM. injection HM as <-.
  pose proof (proj1 Hf) as Hl. rewrite nmbPars_comps in Hl. set (cs := comps (loopWaves (lkShape lk))) in *. pose proof (last_len lk) as EL. fold cs in EL.
  destruct (nth_error cs q) as [[u c]|] eqn:Eq; [|apply nth_error_None in Eq; lia].
  assert (Hfu : freeT lk u = false) by (rewrite (freeT_spec lk u c q Hs Hf Eq), Fq; reflexivity).
  destruct (nth_error cs p) as [[t b]|] eqn:Ep.
  - rewrite (mat_entry lk P f Hs Hf p q t b u c Ep Eq), (mat_entry lk P f Hs Hf q p u c t b Eq Ep), Hfu. rewrite andb_false_r. auto.
  - assert (Z.of_nat p = lastP lk) as -> by (apply nth_error_None in Ep; lia). destruct (mat_flat lk P f Hs Hf q u c Eq) as [-> ->]. rewrite Hfu. auto.
Qed.

(* nothing is written outside the matrix *)
Theorem C38_inside_matrix : forall lk par M a b, setUp lk -> pairsFixed lk -> hessian lk par = Some M ->
  ~ ((0 <= a < nmbPars (lkShape lk))%Z /\ (0 <= b < nmbPars (lkShape lk))%Z) -> M a b = Some 0.
Proof.
  intros lk par M a b Hs Hf HM Hab. destruct (copyFromParArray (lkShape lk) par) as [[P f]|] eqn:Hc; [|unfold hessian in HM; rewrite Hc in HM; discriminate].
  rewrite (hessian_writes lk par P f Hs Hf Hc) in HM. injection HM as <-. apply (applyW_none (allW lk P f)). intros v Hv. apply Hab.
  pose proof (last_len lk) as EL. unfold lastP in *. pose proof (setUp_map lk Hs) as G.
  assert (Hm : forall t x, In t (loopWaves (lkShape lk)) -> (mp lk t x < nmbPars (lkShape lk))%Z).
  { intros t x Ht. destruct (map_neg lk t x G Ht) as [->|[k Hk]]; [lia|]. pose proof (mp_lt lk P Hs t x k Hk). unfold lastP in *. lia. }
  apply (allW_In lk P f Hs Hf) in Hv as [(t & u & x & y & Ht & Hu & Hft & Hfu & A1 & A2 & -> & -> & A5)|[(t & x & Ht & Hft & Hx & Hv & [[-> ->]|[-> ->]])|(-> & -> & A)]]; unfold lastP; try (pose proof (Hm t x Ht)); try (pose proof (Hm u y Hu)); lia.
Qed.

(* the hypotheses hold for the likelihood of C37_ex *)
Example C38_ex : setUp (lik1 FLAT) /\ pairsFixed (lik1 FLAT) /\ hermitian (lik1 FLAT) /\ fixedPar (lik1 FLAT) 0 = false /\ gradFinite (lik1 FLAT) [2; 1] 0 /\ exists v, doEval (lik1 FLAT) [2; 1] = Some (Some v).
Proof.
  split; [apply lik1_setUp|]. split; [apply (C38_init_pairs _ nm1 (fun _ _ => 0) 1 data1); reflexivity|]. split; [apply lik1_hermitian|]. split; [|split].
  - unfold fixedPar. change (lkPars (lik1 FLAT)) with (pdPars data1). destruct (build_spec nm1 (fun _ _ => 0) 1 sh1) as (d & E & _ & Hp & _).
    assert (Ed : data1 = d) by (unfold data1; now rewrite E). rewrite Ed, Hp. cbn. unfold isFixed. destruct (Req_EM_T 0 0) as [_|n]; [reflexivity|now contradiction n].
  - destruct (C37_gradient_finite_flat_prior (lik1 FLAT) [2; 1] _ (lik1_setUp _) eq_refl eq_refl (lik1_eval FLAT 2 1 ltac:(lra))) as (g & Hg & Hl & Hall).
    destruct (Hall 0%nat ltac:(cbn; lia)) as [d Hd]. exists g, d. auto.
  - eexists. apply lik1_eval. lra.
Qed.
