(* C28 (Cauchy-Schwarz, coherence), C29 (intensities and overlaps), counterexamples to both
   for wave names that contain each other (C32) *)
From Coq Require Import String Ascii List ZArith Bool Reals Lia Lra Psatz.
From Coquelicot Require Import Complex.
From Verif Require Import PathModel StrModel DecModel ParticleModel ParticleProps RegexModel RegexProps FitResultModel FitNameProps
  AmpIntProofs AmpIntProps AmpIntProps2 FitSdmProps.
Import ListNotations.
Open Scope list_scope.
Open Scope nat_scope.

(* |z|^2 *)
Definition abs2 (z : C) : R := (Re z * Re z + Im z * Im z)%R.
Lemma abs2_pos z : (0 <= abs2 z)%R. Proof. unfold abs2. nra. Qed.
Lemma Re_csumA {A} (f : A -> C) l : Re (csumA f l) = fold_right (fun x s => (Re (f x) + s)%R) 0%R l.
Proof. induction l as [|x l IH]; [reflexivity|]. unfold csumA in *. cbn [fold_right]. rewrite <- IH. reflexivity. Qed.

Lemma cs_step s a b p q : (0 <= p)%R -> (0 <= q)%R -> (abs2 s <= p * q)%R ->
  (abs2 (s + a * Cconj b)%C <= (p + abs2 a) * (q + abs2 b))%R.
Proof.
  intros Hp Hq H. destruct s as [s1 s2], a as [a1 a2], b as [b1 b2]. unfold abs2, Cplus, Cmult, Cconj, Re, Im in *. cbn in *.
  set (A2 := (a1 * a1 + a2 * a2)%R). set (B2 := (b1 * b1 + b2 * b2)%R).
  set (x := (s1 * (a1 * b1 + a2 * b2) + s2 * (a2 * b1 - a1 * b2))%R).
  assert (Hx : (x * x <= (s1 * s1 + s2 * s2) * (A2 * B2))%R).
  { unfold x, A2, B2. 
    assert (0 <= (s1 * (a2 * b1 - a1 * b2) - s2 * (a1 * b1 + a2 * b2)) * (s1 * (a2 * b1 - a1 * b2) - s2 * (a1 * b1 + a2 * b2)))%R by apply Rle_0_sqr.
    nra. }
  assert (A0 : (0 <= A2)%R) by (unfold A2; nra). assert (B0 : (0 <= B2)%R) by (unfold B2; nra).
  assert (Hy : (x * x <= (p * B2) * (q * A2))%R).
  { apply Rle_trans with (1 := Hx). replace ((p * B2) * (q * A2))%R with ((p * q) * (A2 * B2))%R by ring.
    apply Rmult_le_compat_r; [apply Rmult_le_pos; auto|exact H]. }
  assert (P1 : (0 <= p * B2)%R) by (apply Rmult_le_pos; auto). assert (P2 : (0 <= q * A2)%R) by (apply Rmult_le_pos; auto).
  assert (K : (2 * x <= p * B2 + q * A2)%R).
  { apply Rnot_lt_le. intros L.
    assert ((p * B2 + q * A2) * (p * B2 + q * A2) < (2 * x) * (2 * x))%R by (apply Rmult_le_0_lt_compat; lra).
    assert (0 <= (p * B2 - q * A2) * (p * B2 - q * A2))%R by apply Rle_0_sqr. lra. }
  replace ((s1 + (a1 * b1 - a2 * - b2)) * (s1 + (a1 * b1 - a2 * - b2)) + (s2 + (a1 * - b2 + a2 * b1)) * (s2 + (a1 * - b2 + a2 * b1)))%R
    with ((s1 * s1 + s2 * s2) + 2 * x + A2 * B2)%R by (unfold x, A2, B2; ring).
  replace ((p + A2) * (q + B2))%R with (p * q + (p * B2 + q * A2) + A2 * B2)%R by ring. lra.
Qed.
Lemma cauchy_schwarz {A} (f g : A -> C) l :
  let S := csumA (fun x => f x * Cconj (g x))%C l in
  let P := Re (csumA (fun x => f x * Cconj (f x))%C l) in let Q := Re (csumA (fun x => g x * Cconj (g x))%C l) in
  (0 <= P)%R /\ (0 <= Q)%R /\ (abs2 S <= P * Q)%R.
Proof.
  induction l as [|x l (IP & IQ & IH)]; cbn zeta; [unfold csumA, abs2, RtoC, Re, Im; cbn; lra|].
  unfold csumA in *. cbn [fold_right].
  set (s := fold_right _ _ l) in IH |- *. set (p := fold_right (fun x s => (f x * Cconj (f x) + s)%C) _ l) in *.
  set (q := fold_right (fun x s => (g x * Cconj (g x) + s)%C) _ l) in *.
  assert (E1 : Re (f x * Cconj (f x) + p)%C = (Re p + abs2 (f x))%R) by (destruct (f x), p; unfold abs2, Cplus, Cmult, Cconj, Re, Im; cbn; ring).
  assert (E2 : Re (g x * Cconj (g x) + q)%C = (Re q + abs2 (g x))%R) by (destruct (g x), q; unfold abs2, Cplus, Cmult, Cconj, Re, Im; cbn; ring).
  rewrite E1, E2. pose proof (abs2_pos (f x)). pose proof (abs2_pos (g x)). split; [lra|]. split; [lra|].
  replace (f x * Cconj (g x) + s)%C with (s + f x * Cconj (g x))%C by ring. now apply cs_step.
Qed.

(* ---- sums of reals over lists ---- *)
Definition rsumA {A} (f : A -> R) (l : list A) : R := fold_right (fun x s => (f x + s)%R) 0%R l.
Lemma rsumA_app {A} (f : A -> R) a b : rsumA f (a ++ b) = (rsumA f a + rsumA f b)%R.
Proof. induction a as [|x a IH]; unfold rsumA in *; cbn; [ring|]. rewrite IH. ring. Qed.
Lemma rsumA_ext {A} (f g : A -> R) l : (forall x, In x l -> f x = g x) -> rsumA f l = rsumA g l.
Proof. induction l as [|x l IH]; intros H; [reflexivity|]. unfold rsumA in *. cbn. rewrite IH by (intros; apply H; now right). rewrite H by now left. reflexivity. Qed.
Lemma rsumA_plus {A} (f g : A -> R) l : rsumA (fun x => (f x + g x)%R) l = (rsumA f l + rsumA g l)%R.
Proof. induction l as [|x l IH]; unfold rsumA in *; cbn; [ring|]. rewrite IH. ring. Qed.
Lemma rsumA_Re {A} (f : A -> C) l : rsumA (fun x => Re (f x)) l = Re (csumA f l).
Proof. now rewrite Re_csumA. Qed.
Lemma csumA_pointwise {A} (f g : A -> C) l : csumA (fun x => f x + g x)%C l = (csumA f l + csumA g l)%C.
Proof. induction l as [|x l IH]; unfold csumA in *; cbn [fold_right]; [ring|]. rewrite IH. ring. Qed.
Lemma csumA_one {A} (f : A -> C) x : csumA f [x] = f x.
Proof. unfold csumA. cbn [fold_right]. ring. Qed.
Lemma csumA_cons {A} (f : A -> C) x l : csumA f (x :: l) = (f x + csumA f l)%C.
Proof. reflexivity. Qed.
Lemma csumA_swap {A B} (f : A -> B -> C) l k : csumA (fun x => csumA (f x) k) l = csumA (fun y => csumA (fun x => f x y) l) k.
Proof.
  induction l as [|x l IH].
  - unfold csumA at 1. cbn. symmetry. apply csumA_zero. reflexivity.
  - unfold csumA at 1. cbn [fold_right]. fold (csumA (fun x => csumA (f x) k) l). rewrite IH, <- csumA_pointwise. reflexivity.
Qed.

Section Regular2.
  Variable fr : fitResult.
  Variable ks : list (Z * str).
  Hypothesis Hreg : regular fr ks.
  Let n := length (frWaveNames fr).

  (* C28: |rho_AB|^2 <= rho_AA rho_BB *)
  Theorem C28_cauchy_schwarz : forall a b x y z, spinDensityMatrixElem fr a b = Some x ->
    spinDensityMatrixElem fr a a = Some y -> spinDensityMatrixElem fr b b = Some z -> (abs2 x <= Re y * Re z)%R.
  Proof.
    intros a b x y z Hx Hy Hz.
    destruct (waveNameAt fr a) as [wa|] eqn:Ea; [|unfold spinDensityMatrixElem in Hx; rewrite Ea in Hx; discriminate].
    destruct (waveNameAt fr b) as [wb|] eqn:Eb; [|unfold spinDensityMatrixElem in Hx; rewrite Ea, Eb in Hx; discriminate].
    rewrite (C28_closed_form fr ks Hreg a b wa wb Ea Eb) in Hx. rewrite (C28_closed_form fr ks Hreg a a wa wa Ea Ea) in Hy.
    rewrite (C28_closed_form fr ks Hreg b b wb wb Eb Eb) in Hz.
    injection Hx as <-. injection Hy as <-. injection Hz as <-. unfold rhoSpec.
    destruct (option_eq_dec_Z (getReflectivity wa) (getReflectivity wa)) as [_|E]; [|congruence].
    destruct (option_eq_dec_Z (getReflectivity wb) (getReflectivity wb)) as [_|E]; [|congruence].
    set (N := IZR (frNormNmbEvents fr)). assert (HN : (0 <= N)%R) by (apply IZR_le, (rg_norm _ _ Hreg)).
    destruct (cauchy_schwarz (V fr ks wa) (V fr ks wb) (ranks fr)) as (HP & HQ & HS).
    set (P := csumA (fun r => V fr ks wa r * Cconj (V fr ks wa r))%C (ranks fr)) in *.
    set (Q := csumA (fun r => V fr ks wb r * Cconj (V fr ks wb r))%C (ranks fr)) in *.
    set (U := csumA (fun r => V fr ks wa r * Cconj (V fr ks wb r))%C (ranks fr)) in *.
    destruct (RtoC_mult_re N P) as [-> _]. destruct (RtoC_mult_re N Q) as [-> _].
    destruct (option_eq_dec_Z (getReflectivity wa) (getReflectivity wb)) as [_|_].
    - unfold abs2 in *. destruct (RtoC_mult_re N U) as [-> ->].
      replace (N * Re U * (N * Re U) + N * Im U * (N * Im U))%R with ((N * N) * (Re U * Re U + Im U * Im U))%R by ring.
      replace (N * Re P * (N * Re Q))%R with ((N * N) * (Re P * Re Q))%R by ring.
      apply Rmult_le_compat_l; [apply Rmult_le_pos; auto|exact HS].
    - unfold abs2, RtoC, Re at 1 2, Im. cbn. replace (0 * 0 + 0 * 0)%R with 0%R by ring. apply Rmult_le_pos; apply Rmult_le_pos; auto.
  Qed.

  (* C28: coherences lie in [0,1] *)
  Theorem C28_coherence_in_unit_interval : forall a b c, coherence fr a b = Some c -> (0 <= c <= 1)%R.
  Proof.
    intros a b c. unfold coherence.
    destruct (spinDensityMatrixElem fr a a) as [y|] eqn:Ey; [|discriminate]. cbn [bindP].
    destruct (spinDensityMatrixElem fr b b) as [z|] eqn:Ez; [|discriminate]. cbn [bindP].
    destruct (spinDensityMatrixElem fr a b) as [x|] eqn:Ex; [|discriminate]. cbn [bindP].
    destruct (Req_EM_T (Re y * Re z) 0) as [|Hd]; [discriminate|]. intros [= <-]. split; [apply sqrt_pos|].
    pose proof (C28_cauchy_schwarz a b x y z Ex Ey Ez) as HC. fold (abs2 x).
    pose proof (abs2_pos x). assert (Hpos : (0 < Re y * Re z)%R) by lra.
    rewrite <- sqrt_1. apply sqrt_le_1_alt. apply Rmult_le_reg_r with (Re y * Re z)%R; [exact Hpos|].
    unfold Rdiv. rewrite Rmult_assoc, Rinv_l by lra. lra.
  Qed.

  (* ---------------- C29 ---------------- *)
  (* the normalisation integrals are Hermitian for the given waves *)
  Definition normHermitian (l : list nat) : Prop := forall i j, In i l -> In j l -> normIntegral fr j i = Cconj (normIntegral fr i j).
  Definition valid (l : list nat) : Prop := forall i, In i l -> i < n.
  (* sum over all ordered pairs of waves of rho_ij n_ij *)
  Definition pairSum (l : list nat) : C := csumA (fun i => csumA (fun j => rhoAt fr ks i j * normIntegral fr i j) l)%C l.

  Lemma rhoAt_conj i j : rhoAt fr ks j i = Cconj (rhoAt fr ks i j).
  Proof. apply rho_conj. Qed.

  Lemma intensity1_val i : i < n -> normIntegral fr i i = Cconj (normIntegral fr i i) ->
    intensity1 fr i = Some (Re (rhoAt fr ks i i * normIntegral fr i i)%C).
  Proof.
    intros Hi Hn. unfold intensity1. rewrite (elem_rhoAt fr ks Hreg) by auto. cbn [bindP]. f_equal.
    assert (I0 : Im (normIntegral fr i i) = 0%R).
    { apply (f_equal Im) in Hn. destruct (normIntegral fr i i). unfold Cconj, Im in *. cbn in *. lra. }
    destruct (rhoAt fr ks i i), (normIntegral fr i i). unfold Cmult, Re, Im in *. cbn in *. rewrite I0. ring.
  Qed.
  Lemma overlap_val i j : i < n -> j < n -> overlap fr i j = Some (2 * Re (rhoAt fr ks i j * normIntegral fr i j)%C)%R.
  Proof. intros Hi Hj. unfold overlap. now rewrite (elem_rhoAt fr ks Hreg) by auto. Qed.
  Lemma overlap_sym i j : normIntegral fr j i = Cconj (normIntegral fr i j) ->
    Re (rhoAt fr ks j i * normIntegral fr j i)%C = Re (rhoAt fr ks i j * normIntegral fr i j)%C.
  Proof. intros H. rewrite H, rhoAt_conj. destruct (rhoAt fr ks i j), (normIntegral fr i j). unfold Cmult, Cconj, Re. cbn. ring. Qed.

  Lemma overlaps_val i js : i < n -> valid js -> forall acc,
    overlaps fr i js acc = Some (acc + rsumA (fun j => 2 * Re (rhoAt fr ks i j * normIntegral fr i j)%C)%R js)%R.
  Proof.
    intros Hi. induction js as [|j js IH]; intros Hv acc; cbn [overlaps]; [unfold rsumA; cbn; f_equal; ring|].
    rewrite overlap_val by (auto; apply Hv; now left). cbn [bindP]. rewrite IH by (intros k Hk; apply Hv; now right).
    f_equal. unfold rsumA. cbn [fold_right]. ring.
  Qed.
  Lemma Re_plus u v : Re (u + v)%C = (Re u + Re v)%R. Proof. reflexivity. Qed.

  Lemma pairSum_snoc d i : pairSum (d ++ [i]) =
    (pairSum d + csumA (fun j => rhoAt fr ks j i * normIntegral fr j i) d + csumA (fun j => rhoAt fr ks i j * normIntegral fr i j) d
     + rhoAt fr ks i i * normIntegral fr i i)%C.
  Proof.
    unfold pairSum. rewrite csumA_app. 
    rewrite (csumA_ext (fun x => csumA (fun j => rhoAt fr ks x j * normIntegral fr x j) (d ++ [i]))%C
       (fun x => csumA (fun j => rhoAt fr ks x j * normIntegral fr x j) d + rhoAt fr ks x i * normIntegral fr x i)%C d).
    2: { intros x _. now rewrite csumA_app, csumA_one. }
    rewrite csumA_pointwise, csumA_one, csumA_app, csumA_one. ring.
  Qed.
  Lemma loop_val todo : forall d acc, valid (d ++ todo) -> normHermitian (d ++ todo) ->
    intLoopW fr d todo acc = Some (acc + (Re (pairSum (d ++ todo)) - Re (pairSum d)))%R.
  Proof.
    induction todo as [|i todo IH]; intros d acc Hv Hn; cbn [intLoopW]; [rewrite app_nil_r; f_equal; ring|].
    assert (Hi : In i (d ++ i :: todo)) by (apply in_or_app; right; now left).
    rewrite intensity1_val by auto. cbn [bindP]. rewrite overlaps_val by (auto; intros j Hj; apply Hv, in_or_app; now left). cbn [bindP].
    replace (d ++ i :: todo) with ((d ++ [i]) ++ todo) in * by (rewrite <- app_assoc; reflexivity).
    rewrite IH by auto. f_equal. rewrite (pairSum_snoc d i), !Re_plus.
    assert (E : rsumA (fun j => 2 * Re (rhoAt fr ks i j * normIntegral fr i j)%C)%R d =
      (Re (csumA (fun j => rhoAt fr ks j i * normIntegral fr j i) d)%C + Re (csumA (fun j => rhoAt fr ks i j * normIntegral fr i j) d)%C)%R).
    { rewrite <- !rsumA_Re, <- rsumA_plus. apply rsumA_ext. intros j Hj.
      rewrite (overlap_sym i j); [ring|]. apply Hn; auto. apply in_or_app. left. apply in_or_app. now left. }
    rewrite E. ring.
  Qed.

  (* C29: the intensity of a list of waves is sum_ij rho_ij n_ij, which is real *)
  Theorem C29_intensity_is_double_sum : forall l, valid l -> normHermitian l ->
    intensityOf fr l = Some (Re (pairSum l)) /\ Im (pairSum l) = 0%R.
  Proof.
    intros l Hv Hn. split.
    - destruct l as [|i [|j l]].
      + reflexivity.
      + unfold intensityOf. rewrite intensity1_val; [|apply Hv; now left|apply Hn; now left].
        unfold pairSum, csumA. cbn [fold_right]. rewrite !Re_plus. cbn [Re RtoC]. f_equal. unfold RtoC, Re. cbn. ring.
      + unfold intensityOf. rewrite loop_val by (cbn [app]; auto). cbn [app]. f_equal. unfold pairSum at 2, csumA. cbn [fold_right]. unfold RtoC, Re at 2. cbn. ring.
    - assert (E : Cconj (pairSum l) = pairSum l).
      { unfold pairSum. rewrite csumA_conj.
        rewrite (csumA_ext _ (fun i => csumA (fun j => rhoAt fr ks j i * normIntegral fr j i) l)%C).
        - rewrite csumA_swap. reflexivity.
        - intros i Hi. rewrite csumA_conj. apply csumA_ext. intros j Hj. rewrite Cconj_mult, <- rhoAt_conj. f_equal. symmetry. now apply Hn. }
      apply (f_equal Im) in E. destruct (pairSum l). unfold Cconj, Im in *. cbn in *. lra.
  Qed.
  (* C29: sum of single-wave intensities and of all pair overlaps *)
  Fixpoint pairsOf (l : list nat) : list (nat * nat) :=
    match l with [] => [] | x :: r => map (fun y => (x, y)) r ++ pairsOf r end.
  Theorem C29_sum_of_intensities_and_overlaps : forall l, valid l -> normHermitian l ->
    exists total singles ovs, intensityOf fr l = Some total /\
      mapP (intensity1 fr) l = Some singles /\ mapP (fun p => overlap fr (fst p) (snd p)) (pairsOf l) = Some ovs /\
      total = (rsum singles + rsum ovs)%R.
  Proof.
    intros l Hv Hn. destruct (C29_intensity_is_double_sum l Hv Hn) as [E _].
    eexists _, _, _. split; [exact E|].
    split; [apply mapP_map; intros i Hi; apply intensity1_val; auto|].
    split; [apply mapP_map; intros p Hp; apply overlap_val|].
    1,2: clear E Hn; revert p Hp; induction l as [|x l IH]; intros p Hp; [destruct Hp|]; cbn [pairsOf] in Hp; apply in_app_or in Hp;
      destruct Hp as [Hp|Hp]; [apply in_map_iff in Hp; destruct Hp as (y & <- & Hy); cbn; apply Hv; (now left) || (now right)|apply IH; auto; intros k Hk; apply Hv; now right].
    clear E. induction l as [|x l IH].
    - unfold pairSum, csumA, rsum. cbn [pairsOf map fold_right]. unfold RtoC, Re. cbn [fst]. ring.
    - cbn [pairsOf map]. rewrite map_app, map_map. cbn [fst snd].
      assert (RA : forall a b, rsum (a ++ b) = (rsum a + rsum b)%R) by (unfold rsum; induction a as [|u a IHa]; intros b; cbn; [ring|]; rewrite IHa; ring).
      assert (RM : forall A (f : A -> R) k, rsum (map f k) = rsumA f k) by (intros A f k; induction k as [|u k IHk]; unfold rsum, rsumA in *; cbn; [reflexivity|]; now rewrite IHk).
      unfold rsum at 1. cbn [fold_right]. fold (rsum (map (fun i => Re (rhoAt fr ks i i * normIntegral fr i i)%C) l)). rewrite RA, !RM.
      rewrite (rsumA_ext (fun y => 2 * Re (rhoAt fr ks x y * normIntegral fr x y)%C)%R (fun j => Re (rhoAt fr ks x j * normIntegral fr x j)%C + Re (rhoAt fr ks j x * normIntegral fr j x)%C)%R).
      2: { intros j Hj. rewrite (overlap_sym x j); [ring|]. apply Hn; [now left|now right]. }
      rewrite rsumA_plus, (rsumA_Re (fun j => rhoAt fr ks x j * normIntegral fr x j)%C), (rsumA_Re (fun j => rhoAt fr ks j x * normIntegral fr j x)%C).
      assert (PS : pairSum (x :: l) = (rhoAt fr ks x x * normIntegral fr x x + csumA (fun j => rhoAt fr ks x j * normIntegral fr x j) l
          + csumA (fun j => rhoAt fr ks j x * normIntegral fr j x) l + pairSum l)%C).
      { unfold pairSum at 1. unfold csumA at 1. cbn [fold_right]. fold (csumA (fun i => csumA (fun j => rhoAt fr ks i j * normIntegral fr i j) (x :: l))%C l).
        rewrite (csumA_ext (fun i => csumA (fun j => rhoAt fr ks i j * normIntegral fr i j) (x :: l))%C
          (fun i => rhoAt fr ks i x * normIntegral fr i x + csumA (fun j => rhoAt fr ks i j * normIntegral fr i j) l)%C) by reflexivity.
        rewrite csumA_pointwise. fold (pairSum l). unfold csumA at 1. cbn [fold_right]. fold (csumA (fun j => rhoAt fr ks x j * normIntegral fr x j)%C l). ring. }
      rewrite PS, !Re_plus, IH; [rewrite !RM; ring|intros k Hk; apply Hv; now right|intros i j Hi Hj; apply Hn; now right].
  Qed.
  (* C29: additivity over two sets of waves *)
  Theorem C29_additivity : forall l m, valid (l ++ m) -> normHermitian (l ++ m) ->
    exists tl tm t, intensityOf fr l = Some tl /\ intensityOf fr m = Some tm /\ intensityOf fr (l ++ m) = Some t /\
      t = (tl + tm + 2 * Re (csumA (fun i => csumA (fun j => rhoAt fr ks i j * normIntegral fr i j) m) l)%C)%R.
  Proof.
    intros l m Hv Hn.
    assert (Hvl : valid l) by (intros k Hk; apply Hv, in_or_app; auto). assert (Hvm : valid m) by (intros k Hk; apply Hv, in_or_app; auto).
    assert (Hnl : normHermitian l) by (intros i j Hi Hj; apply Hn; apply in_or_app; auto).
    assert (Hnm : normHermitian m) by (intros i j Hi Hj; apply Hn; apply in_or_app; auto).
    exists (Re (pairSum l)), (Re (pairSum m)), (Re (pairSum (l ++ m))).
    split; [apply (C29_intensity_is_double_sum l Hvl Hnl)|]. split; [apply (C29_intensity_is_double_sum m Hvm Hnm)|].
    split; [apply (C29_intensity_is_double_sum _ Hv Hn)|].
    assert (E : pairSum (l ++ m) = (pairSum l + csumA (fun i => csumA (fun j => rhoAt fr ks i j * normIntegral fr i j) m) l
       + (csumA (fun j => csumA (fun i => rhoAt fr ks j i * normIntegral fr j i) l) m + pairSum m))%C).
    { unfold pairSum at 1. rewrite csumA_app.
      rewrite !(csumA_ext (fun i => csumA (fun j => rhoAt fr ks i j * normIntegral fr i j) (l ++ m))%C
         (fun i => csumA (fun j => rhoAt fr ks i j * normIntegral fr i j) l + csumA (fun j => rhoAt fr ks i j * normIntegral fr i j) m)%C)
         by (intros x _; apply csumA_app).
      rewrite !csumA_pointwise. reflexivity. }
    rewrite E, !Re_plus.
    assert (F : Re (csumA (fun j => csumA (fun i => rhoAt fr ks j i * normIntegral fr j i) l) m)%C = Re (csumA (fun i => csumA (fun j => rhoAt fr ks i j * normIntegral fr i j) m) l)%C).
    { rewrite csumA_swap, <- !rsumA_Re. apply rsumA_ext. intros i Hi. rewrite <- !rsumA_Re. apply rsumA_ext. intros j Hj.
      apply overlap_sym. apply Hn; apply in_or_app; auto. }
    rewrite F. ring.
  Qed.
  (* the normalisation integral matrix is positive semi-definite *)
  Definition normPsd : Prop := forall v : nat -> C, Im (quadForm n (normIntegral fr) v) = 0%R /\ (0 <= Re (quadForm n (normIntegral fr) v))%R.

  (* C29: with positive semi-definite normalisation integrals no intensity is negative *)
  Theorem C29_intensity_not_negative : forall l t, NoDup l -> valid l -> normHermitian l -> normPsd ->
    intensityOf fr l = Some t -> (0 <= t)%R.
  Proof.
    intros l t Hd Hv Hn Hp Ht. destruct (C29_intensity_is_double_sum l Hv Hn) as [E _]. rewrite E in Ht. injection Ht as <-. clear E.
    set (inl := fun i => if in_dec Nat.eq_dec i l then true else false).
    set (u := fun (p : R * (nat -> C)) i => if inl i then Cconj (snd p i) else RtoC 0).
    assert (Q : pairSum l = csumA (fun p => RtoC (fst p) * quadForm n (normIntegral fr) (u p))%C (vecs fr ks)).
    { transitivity (csumA (fun p => csumA (fun i => csumA (fun j => RtoC (fst p) * (snd p i * Cconj (snd p j)) * normIntegral fr i j) l) l)%C (vecs fr ks)).
      - unfold pairSum. rewrite (csumA_ext _ (fun i => csumA (fun p => csumA (fun j => RtoC (fst p) * (snd p i * Cconj (snd p j)) * normIntegral fr i j) l)%C (vecs fr ks))).
        + apply csumA_swap.
        + intros i Hi. rewrite csumA_swap. apply csumA_ext. intros j Hj. rewrite csumA_mult_r. f_equal. apply (rhoAt_vecs fr ks Hreg); apply Hv; auto.
      - apply csumA_ext. intros p _. unfold quadForm. rewrite csum_as_csumA, <- csumA_mult_l.
        assert (Part : forall f : nat -> C, (forall i, ~ In i l -> f i = RtoC 0) -> csumA f l = csumA f (seq 0 n)).
        { intros f Hf. apply (csumA_part Nat.eq_dec); auto; [apply seq_NoDup|]. intros i Hi. apply in_seq. specialize (Hv i Hi). lia. }
        rewrite <- Part.
        2: { intros i Hi. rewrite csum_as_csumA, csumA_zero; [ring|]. intros j _. unfold u, inl. destruct (in_dec Nat.eq_dec i l); [contradiction|]. rewrite Cconj_0. ring. }
        apply csumA_ext. intros i Hi. rewrite csum_as_csumA, <- csumA_mult_l. rewrite <- Part.
        2: { intros j Hj. unfold u, inl. destruct (in_dec Nat.eq_dec j l); [contradiction|]. ring. }
        apply csumA_ext. intros j Hj. unfold u, inl. destruct (in_dec Nat.eq_dec i l); [|contradiction]. destruct (in_dec Nat.eq_dec j l); [|contradiction].
        rewrite Cconj_conj. ring. }
    rewrite Q. apply csumA_re. intros p Hpi. destruct (Hp (u p)) as [I1 I2].
    destruct (RtoC_mult_re (fst p) (quadForm n (normIntegral fr) (u p))) as [E1 E2]. rewrite E1, E2, I1. split; [ring|].
    apply Rmult_le_pos; [|exact I2]. pose proof (vecs_pos fr ks Hreg) as VP. rewrite Forall_forall in VP. now apply VP.
  Qed.
  (* the total intensity is the intensity of all waves *)
  Theorem C29_total_intensity : forall t, normHermitian (seq 0 n) -> normPsd -> totalIntensity fr = Some t ->
    t = Re (pairSum (seq 0 n)) /\ (0 <= t)%R.
  Proof.
    intros t Hn Hp Ht. assert (Hv : valid (seq 0 n)) by (intros i Hi; apply in_seq in Hi; lia).
    destruct (C29_intensity_is_double_sum _ Hv Hn) as [E _]. unfold totalIntensity in Ht. fold n in Ht. split; [congruence|].
    apply (C29_intensity_not_negative _ _ (seq_NoDup n 0) Hv Hn Hp Ht).
  Qed.
End Regular2.

(* ---- a concrete regular result with two reflectivities, rank 2 and a flat wave ---- *)
Definition demoKeys : list (Z * str) :=
  [(0, lit "[1-,1++,0+]=[rho_770_0[0,1]pi-]"); (0, lit "[1-,2-+,0+]=[f2_1270_0[0,2]pi-]"); (1, lit "[1-,2-+,0+]=[f2_1270_0[0,2]pi-]");
   (0, lit "[1-,1++,1-]=[rho_770_0[0,1]pi-]"); (-1, lit "flat")]%Z.
Definition demoAmps : list C := [(1, 0); (2, -1); (0, 3); (1, 1); (1/2, 0)]%R.
Definition demoResult : fitResult :=
  fill frNew (FA 100 1 [] 0 2 demoAmps (map keyName demoKeys) None [] (Some (Mat 4 4 (fun i j => if i =? j then RtoC 1 else RtoC 0))) None None true false).
Lemma demo_regular : regular demoResult demoKeys.
Proof.
  assert (W : frWaveNames demoResult = [lit "[1-,1++,0+]=[rho_770_0[0,1]pi-]"; lit "[1-,2-+,0+]=[f2_1270_0[0,2]pi-]"; lit "[1-,1++,1-]=[rho_770_0[0,1]pi-]"; lit "flat"]) by reflexivity.
  constructor.
  - reflexivity.
  - reflexivity.
  - unfold demoKeys. repeat constructor; intros H; repeat (destruct H as [H|H]; [discriminate|]); destruct H.
  - intros r w H. change (frRank demoResult) with 2%Z. unfold demoKeys in H. repeat (destruct H as [H|H]; [injection H as <- <-; split; [lia|intros K; (discriminate || reflexivity)]|]). destruct H.
  - intros w. rewrite W. intros H. repeat (destruct H as [<-|H]; [reflexivity|]). destruct H.
  - intros w. rewrite W. intros H. repeat (destruct H as [<-|H]; [vm_compute; discriminate|]). destruct H.
  - intros w k. rewrite W. intros H Hk Hs. apply contains_spec in Hs. unfold demoKeys in Hk.
    repeat (destruct H as [<-|H]; [repeat (destruct Hk as [<-|Hk]; [reflexivity || (vm_compute in Hs; discriminate)|]); destruct Hk|]). destruct H.
  - vm_compute. discriminate.
Qed.
Example C28_demo : exists x y, spinDensityMatrixElem demoResult 0 1 = Some x /\ x = (2, 1)%R /\
  spinDensityMatrixElem demoResult 0 2 = Some y /\ y = RtoC 0.
Proof.
  eexists _, _. split; [apply (C28_closed_form _ _ demo_regular 0 1 (lit "[1-,1++,0+]=[rho_770_0[0,1]pi-]") (lit "[1-,2-+,0+]=[f2_1270_0[0,2]pi-]")); reflexivity|].
  split.
  { unfold rhoSpec. destruct (option_eq_dec_Z _ _) as [_|E]; [|exfalso; apply E; reflexivity].
    assert (R0 : ranks demoResult = [-1; 0; 1]%Z) by reflexivity. rewrite R0. unfold csumA. cbn [fold_right].
    set (v := V demoResult demoKeys). 
    assert (A1 : v (lit "[1-,1++,0+]=[rho_770_0[0,1]pi-]") (-1)%Z = RtoC 0) by reflexivity.
    assert (A2 : v (lit "[1-,1++,0+]=[rho_770_0[0,1]pi-]") 0%Z = (1, 0)%R) by reflexivity.
    assert (A3 : v (lit "[1-,1++,0+]=[rho_770_0[0,1]pi-]") 1%Z = RtoC 0) by reflexivity.
    assert (B2 : v (lit "[1-,2-+,0+]=[f2_1270_0[0,2]pi-]") 0%Z = (2, -1)%R) by reflexivity.
    rewrite A1, A2, A3, B2. change (frNormNmbEvents demoResult) with 1%Z. clear.
    generalize (v (lit "[1-,2-+,0+]=[f2_1270_0[0,2]pi-]") (-1)%Z), (v (lit "[1-,2-+,0+]=[f2_1270_0[0,2]pi-]") 1%Z). intros [p q] [r t].
    unfold RtoC, Cmult, Cconj, Cplus. apply injective_projections; cbn; ring. }
  split; [apply (C28_block_diagonal _ _ demo_regular 0 2 (lit "[1-,1++,0+]=[rho_770_0[0,1]pi-]") (lit "[1-,1++,1-]=[rho_770_0[0,1]pi-]")); [reflexivity|reflexivity|vm_compute; discriminate]|reflexivity].
Qed.

(* ---- wave names that contain each other ---- *)
(* two old-style names, the second a prefix of the first *)
Definition clashA := lit "1-1++0+rho_01_pip". Definition clashB := lit "1-1++0+rho_01_pi".
Definition clashResult : fitResult :=
  fill frNew (FA 100 1 [] 0 1 [RtoC 1; Ci] [ampName 0 clashA; ampName 0 clashB] None [] None None None true false).
(* C32: the look-up of the second wave also returns the amplitude of the first *)
Theorem C32_other_wave_selected : waveNameAt clashResult 1 = Some clashB /\ prodAmpIndicesForWave clashResult 1 = Some [0; 1] /\
  map waveNameForProdAmp (frAmpNames clashResult) = [clashA; clashB].
Proof. repeat split; reflexivity. Qed.
(* C28 fails for such a result: the diagonal element is not real *)
Theorem C32_spin_density_diagonal_not_real : exists x, spinDensityMatrixElem clashResult 1 1 = Some x /\ Im x = 1%R.
Proof.
  eexists. split; [vm_compute; reflexivity|]. unfold Im. cbn. ring.
Qed.
