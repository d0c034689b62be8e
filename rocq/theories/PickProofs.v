(* Proofs for C82. *)
From Coq Require Import List ZArith Reals Bool Lia Lra Psatz.
From Coquelicot Require Import Coquelicot.
From Verif Require Import ArrayModel CGBoxModel PhysModel PhaseModel PhaseSpec PhaseProofs PhaseProofs2 LikSetProofs ProdModel ProdSpec ProdProofs2 PickModel PickSpec.
Import ListNotations.
Open Scope R_scope.

(* ---- intensity and its primitive function ---- *)
Definition prim (p : list R) (t : R) : R := sumTerms (fun ca => fst ca * exp (snd ca * t) / snd ca) (termsOf p).
Lemma sumTerms_cons f x l : sumTerms f (x :: l) = f x + sumTerms f l.
Proof. reflexivity. Qed.
Lemma rdiv_ne x y : y <> 0 -> rdiv x y = Some (x / y).
Proof. intros H. unfold rdiv, reqb. destruct (Req_EM_T y 0); [contradiction|reflexivity]. Qed.
Lemma skipn_skipn {A} x : forall y (l : list A), skipn x (skipn y l) = skipn (x + y) l.
Proof.
  induction y as [|y IH]; intros l; [now rewrite Nat.add_0_r|]. destruct l as [|z l]; [now rewrite !skipn_nil|]. rewrite Nat.add_succ_r. cbn [skipn]. apply IH.
Qed.
Lemma restF_ok n : forall p i t acc, (2 * (i + n) <= length p + 1)%nat -> (1 <= i)%nat ->
  List.Forall (fun ca => 0 <= fst ca /\ snd ca < 0) (pairsOf (skipn (2 * i - 1) p)) -> (length p + 1 <= 2 * (i + n) + 1)%nat ->
  restF n i p t acc = Some (acc + sumTerms (fun ca => fst ca * exp (snd ca * t) / snd ca) (pairsOf (skipn (2 * i - 1) p))).
Proof.
  induction n as [|n IH]; intros p i t acc L1 I1 G L2; cbn [restF].
  - destruct (skipn (2 * i - 1) p) as [|x [|y r]] eqn:E; [cbn; f_equal; unfold sumTerms; cbn; ring|cbn; f_equal; unfold sumTerms; cbn; ring|].
    exfalso. apply (f_equal (@length R)) in E. rewrite skipn_length in E. cbn in E. lia.
  - destruct (skipn (2 * i - 1) p) as [|x [|y r]] eqn:E; [apply (f_equal (@length R)) in E; rewrite skipn_length in E; cbn in E; lia|apply (f_equal (@length R)) in E; rewrite skipn_length in E; cbn in E; lia|].
    assert (nth_error p (2 * i - 1) = Some x) as ->. { rewrite <- (firstn_skipn (2 * i - 1) p), E, nth_error_app2; rewrite firstn_length_le by lia; [|lia]. now rewrite Nat.sub_diag. }
    assert (nth_error p (2 * i) = Some y) as ->. { rewrite <- (firstn_skipn (2 * i - 1) p), E, nth_error_app2; rewrite firstn_length_le by lia; [|lia]. now replace (2 * i - (2 * i - 1))%nat with 1%nat by lia. }
    cbn [bnd]. cbn [pairsOf] in G |- *. inversion G as [|? ? [G1 G2] G3]; subst. cbn [fst snd] in G1, G2. rewrite rdiv_ne by lra. cbn [bnd].
    assert (skipn (2 * S i - 1) p = r) as ER. { replace (2 * S i - 1)%nat with (2 + (2 * i - 1))%nat by lia. rewrite <- skipn_skipn, E. reflexivity. }
    rewrite IH; [|lia|lia|rewrite ER; exact G3|lia]. rewrite ER, sumTerms_cons. cbn [fst snd]. f_equal. ring.
Qed.
Lemma restf_ok n : forall p i t acc, (2 * (i + n) <= length p + 1)%nat -> (1 <= i)%nat -> (length p + 1 <= 2 * (i + n) + 1)%nat ->
  restf n i p t acc = Some (acc + sumTerms (fun ca => fst ca * exp (snd ca * t)) (pairsOf (skipn (2 * i - 1) p))).
Proof.
  induction n as [|n IH]; intros p i t acc L1 I1 L2; cbn [restf].
  - destruct (skipn (2 * i - 1) p) as [|x [|y r]] eqn:E; [cbn; f_equal; unfold sumTerms; cbn; ring|cbn; f_equal; unfold sumTerms; cbn; ring|].
    exfalso. apply (f_equal (@length R)) in E. rewrite skipn_length in E. cbn in E. lia.
  - destruct (skipn (2 * i - 1) p) as [|x [|y r]] eqn:E; [apply (f_equal (@length R)) in E; rewrite skipn_length in E; cbn in E; lia|apply (f_equal (@length R)) in E; rewrite skipn_length in E; cbn in E; lia|].
    assert (nth_error p (2 * i - 1) = Some x) as ->. { rewrite <- (firstn_skipn (2 * i - 1) p), E, nth_error_app2; rewrite firstn_length_le by lia; [|lia]. now rewrite Nat.sub_diag. }
    assert (nth_error p (2 * i) = Some y) as ->. { rewrite <- (firstn_skipn (2 * i - 1) p), E, nth_error_app2; rewrite firstn_length_le by lia; [|lia]. now replace (2 * i - (2 * i - 1))%nat with 1%nat by lia. }
    cbn [bnd]. cbn [pairsOf].
    assert (skipn (2 * S i - 1) p = r) as ER. { replace (2 * S i - 1)%nat with (2 + (2 * i - 1))%nat by lia. rewrite <- skipn_skipn, E. reflexivity. }
    rewrite IH; [|lia|lia|lia]. rewrite ER, sumTerms_cons. cbn [fst snd]. f_equal. ring.
Qed.
Lemma half_len (p : list R) n : ((length p + 1) / 2 = n)%nat -> (2 * n <= length p + 1 <= 2 * n + 1)%nat.
Proof. intros <-. pose proof (Nat.div_mod (length p + 1) 2 ltac:(lia)). pose proof (Nat.mod_upper_bound (length p + 1) 2 ltac:(lia)). lia. Qed.
Lemma bigF_ok n p t : ((length p + 1) / 2 = n)%nat -> goodParams p -> bigF n p t = Some (prim p t).
Proof.
  intros H [NE G]. apply half_len in H. destruct p as [|a p]; [congruence|]. unfold bigF, prim. cbn [nth_error bnd termsOf] in *. inversion G as [|? ? [_ A] G']; subst. cbn [fst snd] in A.
  rewrite rdiv_ne by lra. cbn [bnd]. cbn [length] in H. rewrite restF_ok; [|cbn [length]; lia|lia|exact G'|cbn [length]; lia].
  rewrite sumTerms_cons. cbn [fst snd]. f_equal. change (skipn (2 * 1 - 1) (a :: p)) with p. f_equal. rewrite Rmult_1_l. reflexivity.
Qed.
Lemma smallf_ok n p t : ((length p + 1) / 2 = n)%nat -> p <> [] -> smallf n p t = Some (intensity p t).
Proof.
  intros H NE. apply half_len in H. destruct p as [|a p]; [congruence|]. unfold smallf, intensity. cbn [nth_error bnd termsOf] in *. cbn [length] in H.
  rewrite restf_ok; [|cbn [length]; lia|lia|cbn [length]; lia]. rewrite sumTerms_cons. cbn [fst snd]. f_equal. change (skipn (2 * 1 - 1) (a :: p)) with p. now rewrite Rmult_1_l.
Qed.

(* concavity of the primitive function *)
Lemma tangent l : List.Forall (fun ca => 0 <= fst ca /\ snd ca < 0) l -> forall s t,
  sumTerms (fun ca => fst ca * exp (snd ca * s) / snd ca) l <= sumTerms (fun ca => fst ca * exp (snd ca * t) / snd ca) l + sumTerms (fun ca => fst ca * exp (snd ca * t)) l * (s - t).
Proof.
  induction 1 as [|[c a] l [H1 H2] _ IH]; intros s t; [unfold sumTerms; cbn; lra|]. rewrite !sumTerms_cons. specialize (IH s t). cbn [fst snd] in *.
  assert (exp (a * s) / a <= exp (a * t) / a + exp (a * t) * (s - t)) as K.
  { replace (a * s) with (a * t + a * (s - t)) by ring. rewrite exp_plus. pose proof (exp_ineq1_le (a * (s - t))) as E. pose proof (exp_pos (a * t)) as P.
    apply (Rmult_le_reg_l (- a)); [lra|]. replace (- a * (exp (a * t) * exp (a * (s - t)) / a)) with (- (exp (a * t) * exp (a * (s - t)))) by (field; lra).
    replace (- a * (exp (a * t) / a + exp (a * t) * (s - t))) with (- (exp (a * t) * (1 + a * (s - t)))) by (field; lra). nra. }
  apply (Rmult_le_compat_l c) in K; [|exact H1]. replace (c * exp (a * s) / a) with (c * (exp (a * s) / a)) by (unfold Rdiv; ring).
  replace (c * exp (a * t) / a) with (c * (exp (a * t) / a)) by (unfold Rdiv; ring). nra.
Qed.
Lemma prim_tangent p s t : goodParams p -> prim p s <= prim p t + intensity p t * (s - t).
Proof. intros [_ G]. exact (tangent _ G s t). Qed.
Lemma sumTerms_nn l t : List.Forall (fun ca => 0 <= fst ca /\ snd ca < 0) l -> 0 <= sumTerms (fun ca => fst ca * exp (snd ca * t)) l.
Proof.
  induction 1 as [|[c a] l [H1 H2] _ IH]; [unfold sumTerms; cbn; lra|]. rewrite sumTerms_cons. cbn [fst snd] in *. pose proof (exp_pos (a * t)). nra.
Qed.
Lemma intensity_pos p t : goodParams p -> 0 < intensity p t.
Proof.
  intros [NE G]. destruct p as [|a p]; [congruence|]. unfold intensity. cbn [termsOf] in *. inversion G as [|? ? _ G']; subst. rewrite sumTerms_cons. cbn [fst snd].
  pose proof (exp_pos (a * t)). pose proof (sumTerms_nn (pairsOf p) t G'). lra.
Qed.
Lemma prim_lt p s t : goodParams p -> s < t -> prim p s < prim p t.
Proof. intros G H. pose proof (prim_tangent p s t G). pose proof (intensity_pos p t G). nra. Qed.
Lemma prim_le p s t : goodParams p -> s <= t -> prim p s <= prim p t.
Proof. intros G [H|H]; [left; now apply prim_lt|rewrite H; lra]. Qed.
Lemma prim_derive l t : List.Forall (fun ca => 0 <= fst ca /\ snd ca < 0) l ->
  is_derive (fun t => sumTerms (fun ca => fst ca * exp (snd ca * t) / snd ca) l) t (sumTerms (fun ca => fst ca * exp (snd ca * t)) l).
Proof.
  induction 1 as [|[c a] l [H1 H2] _ IH]; [exact (is_derive_const 0 t)|].
  apply (is_derive_ext (fun t => (c * exp (a * t) / a) + sumTerms (fun ca => fst ca * exp (snd ca * t) / snd ca) l)); [reflexivity|]. rewrite sumTerms_cons. cbn [fst snd] in *.
  apply (is_derive_plus (V := R_NormedModule)); [|exact IH]. auto_derive; [trivial|]. field. lra.
Qed.
Lemma intensity_cont l t : continuous (fun t => sumTerms (fun ca => fst ca * exp (snd ca * t)) l) t.
Proof.
  induction l as [|[c a] l IH]; [exact (continuous_const 0 t)|].
  apply (continuous_ext (fun t => (c * exp (a * t)) + sumTerms (fun ca => fst ca * exp (snd ca * t)) l)); [reflexivity|].
  apply (continuous_plus (V := R_NormedModule)); [|exact IH]. apply ex_derive_continuous. auto_derive. trivial.
Qed.
Lemma int_ok p s t : goodParams p -> is_RInt (intensity p) s t (prim p t - prim p s).
Proof.
  intros [_ G]. apply (is_RInt_derive (V := R_CompleteNormedModule) (prim p) (intensity p)).
  - intros x _. exact (prim_derive _ x G).
  - intros x _. apply intensity_cont.
Qed.
Lemma quantile_of p lo hi r t : goodParams p -> lo <= t <= hi -> prim p t = prim p lo + r * (prim p hi - prim p lo) -> quantile (intensity p) lo hi r t.
Proof.
  intros G B E. split; [exact B|]. exists (prim p hi - prim p lo). split; [now apply int_ok|]. replace (r * _) with (prim p t - prim p lo) by lra. now apply int_ok.
Qed.
Lemma quantile_ex p lo hi r : goodParams p -> lo <= hi -> 0 <= r <= 1 -> exists t, lo <= t <= hi /\ prim p t = prim p lo + r * (prim p hi - prim p lo).
Proof.
  intros G L RR. pose proof (prim_le p lo hi G L) as PL. destruct (IVT_gen (prim p) lo hi (prim p lo + r * (prim p hi - prim p lo))) as (t & B & E).
  - intros x. apply continuity_pt_filterlim. apply (ex_derive_continuous (prim p)). exists (intensity p x). exact (prim_derive _ x (proj2 G)).
  - rewrite Rmin_left, Rmax_right by exact PL. nra.
  - exists t. rewrite Rmin_left, Rmax_right in B by exact L. split; [exact B|exact E].
Qed.

(* ---- Newton's method ---- *)
Lemma eps_pos : 0 < eps < / 10.
Proof. unfold eps. assert (10 < 2 ^ 52) by (cbn; lra). split; [apply Rinv_0_lt_compat; lra|apply Rinv_lt_contravar; lra]. Qed.
Lemma newton_ok n p lo hi r : ((length p + 1) / 2 = n)%nat -> goodParams p -> 0 <= lo <= hi -> 0 < r <= 1 ->
  forall steps t, 0 <= t -> prim p t <= prim p lo + r * (prim p hi - prim p lo) ->
  exists ok t', newton steps n p (prim p lo) (prim p hi) r t = Some (ok, t') /\ t <= t' /\ prim p t' <= prim p lo + r * (prim p hi - prim p lo)
    /\ (ok = true -> (prim p lo + r * (prim p hi - prim p lo)) - prim p t' < 10 * eps * (r * (prim p hi - prim p lo))
                     \/ (prim p lo + r * (prim p hi - prim p lo)) - prim p t' < 10 * eps * t' * intensity p t').
Proof.
  intros L G B RR. set (T := prim p lo + r * (prim p hi - prim p lo)). induction steps as [|steps IH]; intros t T0 HT; cbn [newton];
    rewrite (bigF_ok n p t L G), (smallf_ok n p t L (proj1 G)); cbn [bnd]; pose proof (intensity_pos p t G) as FP; pose proof eps_pos as EP;
    (assert (prim p t - r * prim p hi - (1 - r) * prim p lo = prim p t - T) as EU by (unfold T; ring)); rewrite EU, rdiv_ne by lra; cbn [bnd];
    (replace (prim p t - prim p lo - r * (prim p hi - prim p lo)) with (prim p t - T) by (unfold T; ring));
    (assert (Rabs (prim p t - T) = T - prim p t) as EA by (rewrite Rabs_left1 by lra; ring)); rewrite EA;
    (assert (Rabs ((prim p t - T) / intensity p t) = (T - prim p t) / intensity p t) as EB
       by (unfold Rdiv; rewrite Rabs_mult, EA, (Rabs_right (/ intensity p t)); [reflexivity|apply Rle_ge, Rlt_le, Rinv_0_lt_compat; exact FP])); rewrite EB;
    (assert ((prim p t - T) / intensity p t <= 0) as EN by (unfold Rdiv; pose proof (Rinv_0_lt_compat _ FP); nra));
    (destruct (Rlt_le_dec (T - prim p t) (10 * (r * (prim p hi - prim p lo) * eps))) as [C1|C1]; [rewrite (rltb_true _ _ C1)|rewrite (rltb_false _ _ C1)]);
    try (exists true, t; split; [reflexivity|]; split; [lra|]; split; [exact HT|]; intros _; left; lra);
    (destruct (Rlt_le_dec ((T - prim p t) / intensity p t) (10 * (t * eps))) as [C2|C2]; [rewrite (rltb_true _ _ C2)|rewrite (rltb_false _ _ C2)]);
    try (exists true, t; split; [reflexivity|]; split; [lra|]; split; [exact HT|]; intros _; right;
         apply (Rmult_lt_compat_r (intensity p t)) in C2; [|exact FP]; unfold Rdiv in C2; rewrite Rmult_assoc, Rinv_l in C2 by lra; lra);
    rewrite (rltb_false _ _ EN).
  - exists false, t. split; [reflexivity|]. split; [lra|]. split; [exact HT|discriminate].
  - destruct (IH (t - (prim p t - T) / intensity p t)) as (ok & t' & E & L1 & L2 & L3); [lra| |].
    + pose proof (prim_tangent p (t - (prim p t - T) / intensity p t) t G) as TG. replace (intensity p t * (t - (prim p t - T) / intensity p t - t)) with (T - prim p t) in TG by (field; lra). lra.
    + exists ok, t'. split; [exact E|]. split; [lra|]. split; [exact L2|exact L3].
Qed.
