(** Properties C13, C14 continued: square roots, equality, factorial constants, defects. *)
From Coq Require Import ZArith Znumtheory Reals List Bool Lia Lra Factorial.
From Verif Require Import PrimeSpec PrimeProofs FracModel FracSpec FracProofs FracProps.
Import ListNotations.
Open Scope Z_scope.

(** ** square root *)
Lemma nz_halve : forall v i, nz i (map (fun e => Z.quot e 2) v) = Z.quot (nz i v) 2.
Proof. intros. change 0 with ((fun e => Z.quot e 2) 0) at 1. apply map_nth. Qed.

Lemma allEven_nth : forall v, allEven v = true -> forall i, Z.rem (nz i v) 2 = 0.
Proof.
  intros v H i. unfold allEven in H. rewrite forallb_forall in H.
  destruct (Nat.lt_ge_cases i (length v)) as [L|L].
  - apply Z.eqb_eq, H, nth_In, L.
  - rewrite nth_overflow by assumption. reflexivity.
Qed.

Lemma halve_ok : forall ps v, vec_ok ps v -> allEven v = true ->
  vec_ok ps (map (fun e => Z.quot e 2) v) /\
  powProd ps v = powProd ps (map (fun e => Z.quot e 2) v) * powProd ps (map (fun e => Z.quot e 2) v).
Proof.
  intros ps v H E. apply vec_ok_iff in H. destruct H as [Hn Hc].
  assert (nonneg (map (fun e => Z.quot e 2) v)) as Hh.
  { intros i. rewrite nz_halve. apply Z.quot_pos; [apply Hn|lia]. }
  split.
  - apply vec_ok_iff. split; [assumption|]. intros i Hi. rewrite nz_halve, Hc by assumption. reflexivity.
  - apply powProd_add; auto. intros i _. rewrite nz_halve.
    pose proof (Z.quot_rem' (nz i v) 2). rewrite (allEven_nth v E i) in *. lia.
Qed.

Lemma ssqrt_sq : forall s x, (s = 1 \/ s = -1) -> (0 <= x)%R -> ssqrt (IZR s * (x * x)) = (IZR s * x)%R.
Proof.
  intros s x [->| ->] Hx; unfold ssqrt; destruct (Rlt_dec _ 0) as [L|L].
  - nra.
  - rewrite !Rmult_1_l. now apply sqrt_square.
  - replace (- (-1 * (x * x)))%R with (x * x)%R by ring. rewrite sqrt_square by assumption. ring.
  - assert (x = 0)%R by nra. subst. replace (-1 * (0 * 0))%R with 0%R by ring. rewrite sqrt_0. ring.
Qed.

(** If Sqrt() reports success the number has become the signed square root of the old one. *)
Theorem C13_square_root : forall ps f g, prime_list ps -> finite ps f -> honest ps f -> fracSqrt ps f = Some (g, true) ->
  finite ps g /\ honest ps g /\ fval ps g = ssqrt (fval ps f).
Proof.
  intros ps f g PL F Hh H. pose proof (prime_list_ge2 ps PL) as Hp. unfold fracSqrt in H.
  pose proof (fin_nom _ _ F) as N. pose proof (fin_den _ _ F) as D. pose proof (fin_sgn _ _ F) as S.
  destruct (Z.eqb_spec (sgn f) 0) as [Z0|Z0].
  - injection H as <-. split; [assumption|]. split; [assumption|].
    unfold fval. rewrite Z0, Rmult_0_l. unfold ssqrt. destruct (Rlt_dec 0 0); [lra|]. now rewrite sqrt_0.
  - rewrite getNumerator_finite, (proj2 (Z.eqb_neq _ _) Z0) in H by assumption.
    assert (0 < powProd ps (nom f)) as Pn by (apply powProd_pos; auto; apply vec_ok_iff in N; tauto).
    assert (0 < powProd ps (den f)) as Pd by (apply powProd_pos; auto; apply vec_ok_iff in D; tauto).
    rewrite (proj2 (Z.eqb_neq (powProd ps (nom f)) 0)) in H by lia.
    cbn [fillNum nom den sgn] in H.
    destruct (allEven (nom f)) eqn:En; cbn [negb] in H; [|discriminate].
    destruct (allEven (den f)) eqn:Ed; cbn [negb] in H; [|discriminate].
    injection H as <-.
    destruct (halve_ok ps (nom f) N En) as [Vn Qn]. destruct (halve_ok ps (den f) D Ed) as [Vd Qd].
    assert (sgn f = 1 \/ sgn f = -1) as S' by tauto.
    split; [apply finite_raw; auto|]. split; [intros v Hv; discriminate|].
    unfold fval. cbn [fracRaw sgn nom den]. rewrite Qn, Qd, !mult_IZR.
    assert (0 < IZR (powProd ps (map (fun e => Z.quot e 2) (nom f))))%R by (apply IZR_pow_pos; auto; apply vec_ok_iff in Vn; tauto).
    assert (0 < IZR (powProd ps (map (fun e => Z.quot e 2) (den f))))%R by (apply IZR_pow_pos; auto; apply vec_ok_iff in Vd; tauto).
    set (x := IZR (powProd ps (map (fun e => Z.quot e 2) (nom f)))) in *.
    set (y := IZR (powProd ps (map (fun e => Z.quot e 2) (den f)))) in *.
    replace (x * x / (y * y))%R with (x / y * (x / y))%R by (field; lra).
    rewrite ssqrt_sq; auto. apply Rlt_le, Rdiv_lt_0_compat; assumption.
Qed.

Lemma prime_val : forall p n, prime p -> n <> 0 -> exists k m, 0 <= k /\ n = p ^ k * m /\ ~ (p | m).
Proof.
  intros p n Pp. assert (forall b n, (Z.to_nat (Z.abs n) <= b)%nat -> n <> 0 -> exists k m, 0 <= k /\ n = p ^ k * m /\ ~ (p | m)) as G.
  { pose proof (prime_ge_2 p Pp). induction b; intros m Hb Hm; [lia|].
    destruct (Zdivide_dec p m) as [[q Hq]|ND].
    - destruct (IHb q) as (k & r & A & B & C); [nia|nia|]. exists (k + 1), r. split; [lia|]. split; [|assumption].
      rewrite Z.pow_add_r, Z.pow_1_r by lia. rewrite Hq, B. ring.
    - exists 0, m. split; [lia|]. split; [cbn [Z.pow]; ring|assumption]. }
  intros Hn. apply (G _ n (le_n _) Hn).
Qed.

Lemma powProd_split : forall ps v i, prime_list ps -> nonneg v -> (i < length ps)%nat ->
  exists m, powProd ps v = (nth i ps 1) ^ (nz i v) * m /\ ~ (nth i ps 1 | m).
Proof.
  induction ps as [|p ps IH]; intros v i [ND PP] Hv Hi; [cbn in Hi; lia|].
  inversion ND as [|? ? Nin ND']; subst.
  assert (forall q, In q ps -> prime q) as PP' by (intros q Hq; apply PP; now right).
  rewrite powProd_cons. destruct i as [|i]; cbn [nth].
  - exists (powProd ps (tl v)). split; [reflexivity|].
    apply not_divides_powProd; auto using nonneg_tl. apply PP; now left.
  - cbn [length] in Hi. destruct (IH (tl v) i) as [m [E Nm]]; [split; auto|now apply nonneg_tl|lia|].
    rewrite nz_tl in E. exists (p ^ nz 0 v * m). split; [rewrite E; ring|].
    assert (In (nth i ps 1) ps) as Hin by (apply nth_In; lia).
    intros D. apply prime_mult in D; [|now apply PP']. destruct D as [D|D]; [|contradiction].
    apply prime_divides_power in D; auto; [|apply PP; now left]. congruence.
Qed.

(** If Sqrt() reports failure the number is unchanged and, if it was reduced (as every constructed, added or
    multiplied number is), no rational number squares to it. *)
Theorem C13_square_root_failure : forall ps f g, prime_list ps -> finite ps f -> reduced f ->
  fracSqrt ps f = Some (g, false) ->
  nom g = nom f /\ den g = den f /\ sgn g = sgn f /\
  ~ exists p q, q <> 0 /\ Rabs (fval ps f) = ((IZR p / IZR q) * (IZR p / IZR q))%R.
Proof.
  intros ps f g PL F Red H. pose proof (prime_list_ge2 ps PL) as Hp. unfold fracSqrt in H.
  pose proof (fin_nom _ _ F) as N. pose proof (fin_den _ _ F) as D. pose proof (fin_sgn _ _ F) as S.
  destruct (Z.eqb_spec (sgn f) 0) as [Z0|Z0]; [discriminate|].
  rewrite getNumerator_finite, (proj2 (Z.eqb_neq _ _) Z0) in H by assumption.
  assert (0 < powProd ps (nom f)) as Pn by (apply powProd_pos; auto; apply vec_ok_iff in N; tauto).
  assert (0 < powProd ps (den f)) as Pd by (apply powProd_pos; auto; apply vec_ok_iff in D; tauto).
  rewrite (proj2 (Z.eqb_neq (powProd ps (nom f)) 0)) in H by lia.
  apply vec_ok_iff in N, D. destruct N as [Nn Nc], D as [Dn Dc].
  assert (exists i, (i < length ps)%nat /\ (Z.rem (nz i (nom f)) 2 <> 0 \/ Z.rem (nz i (den f)) 2 <> 0) /\
          nom g = nom f /\ den g = den f /\ sgn g = sgn f) as [i [Li [Odd (G1 & G2 & G3)]]].
  { assert (forall v, covers ps v -> allEven v = false -> exists i, (i < length ps)%nat /\ Z.rem (nz i v) 2 <> 0) as A.
    { intros v Hc E. unfold allEven in E.
      assert (exists x, In x v /\ (Z.rem x 2 =? 0) = false) as [x [Hin Hx]].
      { clear - E. induction v as [|x v IH]; [discriminate|]. cbn [forallb] in E.
        destruct (Z.rem x 2 =? 0) eqn:Ex.
        - destruct (IH E) as [y [A B]]. exists y. split; [now right|assumption].
        - exists x. split; [now left|assumption]. }
      apply In_nth with (d := 0) in Hin. destruct Hin as [i [Hi <-]]. apply Z.eqb_neq in Hx. exists i. split; [|assumption].
      destruct (Nat.lt_ge_cases i (length ps)); auto. exfalso. apply Hx. rewrite Hc by assumption. reflexivity. }
    cbn [fillNum nom den sgn] in H.
    destruct (allEven (nom f)) eqn:En; cbn [negb] in H.
    - destruct (allEven (den f)) eqn:Ed; cbn [negb] in H; [discriminate|]. injection H as <-.
      destruct (A (den f) Dc Ed) as [i [L O]]. exists i. cbn. auto.
    - injection H as <-. destruct (A (nom f) Nc En) as [i [L O]]. exists i. cbn. auto. }
  split; [assumption|]. split; [assumption|]. split; [assumption|].
  intros (p & q & Hq & E).
  assert (powProd ps (nom f) * (q * q) = powProd ps (den f) * (p * p)) as EZ.
  { apply eq_IZR. rewrite !mult_IZR.
    assert (0 < IZR (powProd ps (nom f)))%R by (apply (IZR_lt 0); assumption).
    assert (0 < IZR (powProd ps (den f)))%R by (apply (IZR_lt 0); assumption).
    assert (IZR q <> 0)%R by now apply not_0_IZR.
    assert (Rabs (fval ps f) = IZR (powProd ps (nom f)) / IZR (powProd ps (den f)))%R as E'.
    { assert (0 < IZR (powProd ps (nom f)) / IZR (powProd ps (den f)))%R by (apply Rdiv_lt_0_compat; assumption).
      unfold fval. destruct S as [->|[->|]]; [| |contradiction]; rewrite Rabs_mult, (Rabs_right (_ / _)) by lra.
      - rewrite Rabs_R1. ring.
      - rewrite Rabs_left by lra. ring. }
    rewrite E' in E. apply (f_equal (fun t => t * (IZR (powProd ps (den f)) * (IZR q * IZR q)))%R) in E.
    field_simplify in E; lra. }
  assert (p <> 0) as Hp0 by (intros ->; nia).
  set (P := nth i ps 1). assert (prime P) as PP by (apply PL, nth_In; assumption).
  destruct (powProd_split ps (nom f) i PL Nn Li) as [mn [En Ndn]].
  destruct (powProd_split ps (den f) i PL Dn Li) as [md [Ed Ndd]]. fold P in En, Ed, Ndn, Ndd.
  destruct (prime_val P p PP Hp0) as (kp & mp & Kp & Ep & Np).
  destruct (prime_val P q PP Hq) as (kq & mq & Kq & Eq & Nq).
  rewrite En, Ed, Ep, Eq in EZ.
  assert (P ^ (nz i (nom f) + (kq + kq)) * (mn * (mq * mq)) = P ^ (nz i (den f) + (kp + kp)) * (md * (mp * mp))) as E2.
  { pose proof (Nn i). pose proof (Dn i). rewrite !Z.pow_add_r by lia.
    transitivity (P ^ nz i (nom f) * mn * (P ^ kq * mq * (P ^ kq * mq))); [ring|rewrite EZ; ring]. }
  assert (forall a b, ~ (P | a) -> ~ (P | b) -> ~ (P | a * b)) as ND.
  { intros a b Ha Hb Hab. apply prime_mult in Hab; tauto. }
  assert (nz i (nom f) + (kq + kq) = nz i (den f) + (kp + kp)) as E3.
  { assert (~ (P | mn * (mq * mq))) as N1 by (apply ND; [assumption|apply ND; assumption]).
    assert (~ (P | md * (mp * mp))) as N2 by (apply ND; [assumption|apply ND; assumption]).
    assert (0 <= nz i (nom f) + (kq + kq)) as L1 by (clear - Nn Kq; specialize (Nn i); lia).
    assert (0 <= nz i (den f) + (kp + kp)) as L2 by (clear - Dn Kp; specialize (Dn i); lia).
    exact (proj1 (prime_power_cancel P _ _ _ _ PP L1 L2 N1 N2 E2)). }
  clear E2 EZ. pose proof (Z.quot_rem' (nz i (nom f)) 2). pose proof (Z.quot_rem' (nz i (den f)) 2).
  pose proof (Z.rem_bound_pos (nz i (nom f)) 2 (Nn i) ltac:(lia)). pose proof (Z.rem_bound_pos (nz i (den f)) 2 (Dn i) ltac:(lia)).
  destruct (Red i) as [R|R]; rewrite R in *; change (Z.rem 0 2) with 0 in *; change (Z.quot 0 2) with 0 in *; lia.
Qed.

(** Adding signed square roots. *)
Theorem C13_sum_of_signed_roots : forall ps a b f, prime_list ps ->
  finite ps a -> honest ps a -> finite ps b -> honest ps b -> sumSignedRoots ps a b = Some f ->
  finite ps f /\ ssqrt (fval ps f) = (ssqrt (fval ps a) + ssqrt (fval ps b))%R.
Proof.
  intros ps a b f PL Fa Ha Fb Hb H. unfold sumSignedRoots in H.
  destruct (C13_product ps a b PL Fa Fb) as (Fm & Hm & _ & Vm).
  destruct (fracSqrt ps (fracMul a b)) as [[mixed []]|] eqn:Es; try discriminate.
  destruct (C13_square_root ps _ _ PL Fm Hm Es) as (Fx & Hx & Vx).
  destruct (C13_double_value ps a PL Fa Ha) as (x & a' & Ex & Wx & X1 & X2 & Fa' & Ha' & Va').
  destruct (C13_double_value ps b PL Fb Hb) as (y & b' & Ey & Wy & Y1 & Y2 & Fb' & Hb' & Vb').
  rewrite Ex, Ey in H.
  destruct (fracInt ps 2 1) as [two|] eqn:E2; [|discriminate].
  apply C13_from_integers in E2; [|assumption|lia]. destruct E2 as (F2 & H2 & _ & V2).
  destruct (C13_absolute_value ps a' PL Fa' Ha') as (Fa'' & Ha'' & Va'').
  destruct (C13_absolute_value ps b' PL Fb' Hb') as (Fb'' & Hb'' & Vb'').
  destruct (fracAdd ps (fracAbs a') (fracAbs b')) as [ab|] eqn:Eab; [|discriminate].
  destruct (C13_sum ps _ _ _ PL Fa'' Fb'' Eab) as (Fab & Hab & _ & Vab).
  destruct (C13_product ps two mixed PL F2 Fx) as (F2m & H2m & _ & V2m).
  destruct (fracAdd ps ab (fracMul two mixed)) as [res|] eqn:Er; [|discriminate].
  destruct (C13_sum ps _ _ _ PL Fab F2m Er) as (Fr & Hr & _ & Vr).
  injection H as <-.
  assert (fval ps res = (ssqrt (fval ps a) + ssqrt (fval ps b)) * (ssqrt (fval ps a) + ssqrt (fval ps b)))%R as Vsq.
  { rewrite Vr, Vab, Va'', Vb'', V2m, V2, Vx, Vm, Va', Vb'. clear.
    generalize (fval ps a) as s, (fval ps b) as t. intros s t. unfold ssqrt.
    replace (2 / 1)%R with 2%R by field.
    destruct (Rlt_dec s 0) as [Ls|Ls], (Rlt_dec t 0) as [Lt|Lt].
    - rewrite !Rabs_left by lra. destruct (Rlt_dec (s * t) 0); [nra|].
      replace (s * t)%R with (- s * - t)%R by ring. rewrite sqrt_mult by lra.
      rewrite <- (sqrt_sqrt (- s)) at 1 by lra. rewrite <- (sqrt_sqrt (- t)) at 1 by lra. ring.
    - rewrite (Rabs_left s), (Rabs_right t) by lra. destruct (Rlt_dec (s * t) 0).
      + replace (- (s * t))%R with (- s * t)%R by ring. rewrite sqrt_mult by lra.
        rewrite <- (sqrt_sqrt (- s)) at 1 by lra. rewrite <- (sqrt_sqrt t) at 1 by lra. ring.
      + assert (t = 0)%R by nra. subst. rewrite Rmult_0_r, sqrt_0.
        rewrite <- (sqrt_sqrt (- s)) at 1 by lra. ring.
    - rewrite (Rabs_left t), (Rabs_right s) by lra. destruct (Rlt_dec (s * t) 0).
      + replace (- (s * t))%R with (s * - t)%R by ring. rewrite sqrt_mult by lra.
        rewrite <- (sqrt_sqrt (- t)) at 1 by lra. rewrite <- (sqrt_sqrt s) at 1 by lra. ring.
      + assert (s = 0)%R by nra. subst. rewrite Rmult_0_l, sqrt_0.
        rewrite <- (sqrt_sqrt (- t)) at 1 by lra. ring.
    - rewrite !Rabs_right by lra. destruct (Rlt_dec (s * t) 0); [nra|]. rewrite sqrt_mult by lra.
      rewrite <- (sqrt_sqrt s) at 1 by lra. rewrite <- (sqrt_sqrt t) at 1 by lra. ring. }
  set (u := (ssqrt (fval ps a) + ssqrt (fval ps b))%R) in *.
  assert (dlt x (dneg y) = true <-> (u < 0)%R) as Hflip.
  { rewrite dlt_spec by (auto; cbn [dneg dn dd]; assumption).
    assert (dvR (dneg y) = - dvR y)%R as -> by (unfold dvR, dneg; cbn; rewrite opp_IZR; ring).
    rewrite Wx, Wy. unfold u. clear. generalize (fval ps a) as s, (fval ps b) as t. intros s t.
    assert (forall r, ssqrt r * Rabs (ssqrt r) = r)%R as SS.
    { intros r. unfold ssqrt. destruct (Rlt_dec r 0).
      - rewrite Rabs_Ropp, (Rabs_right (sqrt _)) by (apply Rle_ge, sqrt_pos).
        transitivity (- (sqrt (- r) * sqrt (- r)))%R; [ring|]. rewrite sqrt_sqrt by lra. ring.
      - rewrite (Rabs_right (sqrt _)) by (apply Rle_ge, sqrt_pos). apply sqrt_sqrt. lra. }
    transitivity (ssqrt s < - ssqrt t)%R; [|split; lra].
    rewrite (ss_lt (ssqrt s)), Rabs_Ropp, SS. replace (- ssqrt t * Rabs (ssqrt t))%R with (- (ssqrt t * Rabs (ssqrt t)))%R by ring.
    rewrite SS. reflexivity. }
  destruct (dlt x (dneg y)).
  - destruct (C13_flip_sign ps res Fr Hr) as (F' & _ & V'). split; [assumption|]. rewrite V', Vsq.
    assert (u < 0)%R as Lu by now apply Hflip.
    replace (- (u * u))%R with (IZR (-1) * ((- u) * (- u)))%R by ring. rewrite ssqrt_sq by (auto; lra). ring.
  - split; [assumption|]. rewrite Vsq.
    assert (~ (u < 0)%R) as Lu by (intros L; apply Hflip in L; discriminate).
    replace (u * u)%R with (IZR 1 * (u * u))%R by ring. rewrite ssqrt_sq by (auto; lra). ring.
Qed.

(** ** factorial constants *)
Lemma factLoop_spec : forall ps c fac v r, primes_ge2 ps -> 0 < fac -> vec_ok ps v -> factLoop ps fac c v = Some r ->
  vec_ok ps r /\ powProd ps r * Z.of_nat (fact (Z.to_nat (fac - 1))) =
                 powProd ps v * Z.of_nat (fact (Z.to_nat (fac - 1) + c)).
Proof.
  induction c; intros fac v r Hp Hf Hv H; cbn [factLoop] in H.
  - injection H as <-. split; [assumption|]. rewrite Nat.add_0_r. reflexivity.
  - destruct (factorLoop ps 0 fac v) as [v'|] eqn:E; [|discriminate].
    apply vec_ok_iff in Hv. apply (factorLoop_spec ps []) in E; auto; try tauto. cbn [app] in E.
    destruct E as (A & B & C).
    apply IHc in H; [|assumption|lia|now apply vec_ok_iff]. destruct H as [V W]. split; [assumption|].
    replace (Z.to_nat (fac + 1 - 1)) with (S (Z.to_nat (fac - 1))) in W by lia.
    rewrite C in W.
    assert (Z.of_nat (fact (S (Z.to_nat (fac - 1)))) = fac * Z.of_nat (fact (Z.to_nat (fac - 1)))) as Ef.
    { change (fact (S (Z.to_nat (fac - 1)))) with (S (Z.to_nat (fac - 1)) * fact (Z.to_nat (fac - 1)))%nat.
      rewrite Nat2Z.inj_mul. f_equal. lia. }
    rewrite Ef in W.
    replace (S (Z.to_nat (fac - 1)) + c)%nat with (Z.to_nat (fac - 1) + S c)%nat in W by lia. nia.
Qed.

(** N!/D! *)
Theorem C13_factorial_quotient : forall ps N D f, prime_list ps -> 0 <= N -> 0 <= D ->
  fracFactorial ps true N D = Some f ->
  finite ps f /\ honest ps f /\ fval ps f = (INR (fact (Z.to_nat N)) / INR (fact (Z.to_nat D)))%R.
Proof.
  intros ps N D f PL HN HD H. pose proof (prime_list_ge2 ps PL) as Hp. unfold fracFactorial in H.
  assert (forall n, 0 < INR (fact n))%R as FP by apply INR_fact_lt_0.
  destruct (Z.eqb_spec N D) as [->|ND].
  - injection H as <-. split; [apply finite_raw; auto using vec_ok_nil|]. split; [intros v Hv; discriminate|].
    unfold fval. cbn [fracRaw sgn nom den]. rewrite powProd_nil. specialize (FP (Z.to_nat D)). field. lra.
  - destruct (factLoop ps _ _ []) as [v|] eqn:E; [|discriminate]. injection H as <-.
    apply factLoop_spec in E; auto using vec_ok_nil; [|destruct (Z.gtb_spec N D); lia].
    destruct E as [V E]. rewrite powProd_nil, Z.mul_1_l in E.
    assert (0 < powProd ps v) as Pv by (apply powProd_pos; auto; apply vec_ok_iff in V; tauto).
    assert (0 < IZR (powProd ps v))%R as Pv' by (apply (IZR_lt 0); assumption).
    apply (f_equal IZR) in E. rewrite mult_IZR, <- !INR_IZR_INZ in E.
    destruct (Z.gtb_spec N D) as [G|G].
    + replace (Z.to_nat (D + 1 - 1)) with (Z.to_nat D) in E by lia.
      replace (Z.to_nat D + Z.to_nat (N - D))%nat with (Z.to_nat N) in E by lia.
      rewrite (proj2 (Z.ltb_ge N D)) by lia.
      split; [apply finite_raw; auto using vec_ok_nil|]. split; [intros w Hw; discriminate|].
      unfold fval. cbn [fracRaw sgn nom den]. rewrite powProd_nil.
      pose proof (FP (Z.to_nat D)). rewrite <- E. field. lra.
    + replace (Z.to_nat (N + 1 - 1)) with (Z.to_nat N) in E by lia.
      replace (Z.to_nat N + Z.to_nat (D - N))%nat with (Z.to_nat D) in E by lia.
      rewrite (proj2 (Z.ltb_lt N D)) by lia.
      split; [apply finite_raw; auto using vec_ok_nil|]. split; [intros w Hw; discriminate|].
      unfold fval. cbn [fracRaw sgn nom den]. rewrite powProd_nil.
      pose proof (FP (Z.to_nat N)). rewrite <- E. field. split; lra.
Qed.

Lemma two_power : forall ps e, 0 <= e ->
  finite (2 :: ps) (fracRaw [e] [] 1) /\ fval (2 :: ps) (fracRaw [e] [] 1) = IZR (2 ^ e).
Proof.
  intros ps e He. split.
  - apply finite_raw; auto using vec_ok_nil. split.
    + intros x [<-|[]]. assumption.
    + intros [|i] Hi; cbn [length] in Hi; [lia|]. destruct i; reflexivity.
  - unfold fval. cbn [fracRaw sgn nom den powProd]. rewrite !powProd_nil. replace (2 ^ e * 1) with (2 ^ e) by ring. field.
Qed.

(** The normalisation constants of the covariant amplitudes. *)
Theorem C13_c_sub_ell : forall ps ell f, prime_list (2 :: ps) -> 0 <= ell -> c_sub_ell (2 :: ps) ell = Some f ->
  finite (2 :: ps) f /\
  fval (2 :: ps) f = (IZR (2 ^ ell) * INR (fact (Z.to_nat ell)) * INR (fact (Z.to_nat ell)) / INR (fact (Z.to_nat (2 * ell))))%R.
Proof.
  intros ps ell f PL He H. unfold c_sub_ell in H. destruct (Z.eqb_spec ell 0) as [->|].
  - apply C13_from_integers in H; [|assumption|lia]. destruct H as (F & _ & _ & V). split; [assumption|]. rewrite V.
    cbn. field.
  - destruct (fracFactorial (2 :: ps) true ell 1) as [f1|] eqn:E1; [|discriminate].
    destruct (fracFactorial (2 :: ps) true ell (2 * ell)) as [f2|] eqn:E2; [|discriminate]. injection H as <-.
    apply C13_factorial_quotient in E1, E2; auto; try lia.
    destruct E1 as (F1 & _ & V1), E2 as (F2 & _ & V2). destruct (two_power ps ell He) as [F0 V0].
    destruct (C13_product _ _ _ PL F0 F1) as (F01 & _ & _ & V01).
    destruct (C13_product _ _ _ PL F01 F2) as (F & _ & _ & V). split; [assumption|].
    rewrite V, V01, V0, V1, V2. change (INR (fact (Z.to_nat 1))) with 1%R.
    field. apply not_eq_sym, Rlt_not_eq, INR_fact_lt_0.
Qed.

Theorem C13_cm0_sub_ell : forall ps ell m0 f, prime_list (2 :: ps) -> 0 < ell -> 0 <= ell + m0 ->
  cm0_sub_ell (2 :: ps) ell m0 = Some f ->
  finite (2 :: ps) f /\
  fval (2 :: ps) f = (IZR (2 ^ ((ell + m0) / 2)) * INR (fact (Z.to_nat ell)) * INR (fact (Z.to_nat ell)) / INR (fact (Z.to_nat (2 * ell))))%R.
Proof.
  intros ps ell m0 f PL He Hm H. unfold cm0_sub_ell in H. rewrite (proj2 (Z.eqb_neq ell 0)) in H by lia.
  destruct (fracFactorial (2 :: ps) true ell 1) as [f1|] eqn:E1; [|discriminate].
  destruct (fracFactorial (2 :: ps) true ell (2 * ell)) as [f2|] eqn:E2; [|discriminate]. injection H as <-.
  apply C13_factorial_quotient in E1, E2; auto; try lia.
  destruct E1 as (F1 & _ & V1), E2 as (F2 & _ & V2).
  rewrite Z.quot_div_nonneg by lia.
  destruct (two_power ps ((ell + m0) / 2)) as [F0 V0]; [apply Z.div_pos; lia|].
  destruct (C13_product _ _ _ PL F0 F1) as (F01 & _ & _ & V01).
  destruct (C13_product _ _ _ PL F01 F2) as (F & _ & _ & V). split; [assumption|].
  rewrite V, V01, V0, V1, V2. change (INR (fact (Z.to_nat 1))) with 1%R.
  field. apply not_eq_sym, Rlt_not_eq, INR_fact_lt_0.
Qed.

Theorem C13_cm0_sub_ell_2 : forall ps ell m0 f, prime_list (2 :: ps) -> 0 < ell -> 0 <= ell + m0 ->
  cm0_sub_ell_2 (2 :: ps) ell m0 = Some f ->
  finite (2 :: ps) f /\
  fval (2 :: ps) f = (IZR (2 ^ (ell + m0)) * (INR (fact (Z.to_nat ell)) * INR (fact (Z.to_nat ell)) / INR (fact (Z.to_nat (2 * ell)))) ^ 2)%R.
Proof.
  intros ps ell m0 f PL He Hm H. unfold cm0_sub_ell_2 in H. rewrite (proj2 (Z.eqb_neq ell 0)) in H by lia.
  destruct (fracFactorial (2 :: ps) true ell 1) as [f1|] eqn:E1; [|discriminate].
  destruct (fracFactorial (2 :: ps) true ell (2 * ell)) as [f2|] eqn:E2; [|discriminate]. injection H as <-.
  apply C13_factorial_quotient in E1, E2; auto; try lia.
  destruct E1 as (F1 & _ & V1), E2 as (F2 & _ & V2).
  destruct (two_power ps (ell + m0) Hm) as [F0 V0].
  destruct (C13_product _ _ _ PL F0 F1) as (F01 & _ & _ & V01).
  destruct (C13_product _ _ _ PL F01 F1) as (F02 & _ & _ & V02).
  destruct (C13_product _ _ _ PL F02 F2) as (F03 & _ & _ & V03).
  destruct (C13_product _ _ _ PL F03 F2) as (F & _ & _ & V). split; [assumption|].
  rewrite V, V03, V02, V01, V0, V1, V2. change (INR (fact (Z.to_nat 1))) with 1%R.
  field. apply not_eq_sym, Rlt_not_eq, INR_fact_lt_0.
Qed.

Theorem C13_am0_to_J : forall ps J m m0 f, prime_list (2 :: ps) -> - J <= m <= J -> 0 <= m0 ->
  am0_to_J (2 :: ps) J m m0 = Some f ->
  finite (2 :: ps) f /\
  fval (2 :: ps) f = (IZR (2 ^ m0) * INR (fact (Z.to_nat (J + m))) * INR (fact (Z.to_nat (J - m))) / INR (fact (Z.to_nat (2 * J))))%R.
Proof.
  intros ps J m m0 f PL Hm H0 H. unfold am0_to_J in H.
  destruct (fracFactorial (2 :: ps) true (J + m) (2 * J)) as [f1|] eqn:E1; [|discriminate].
  destruct (fracFactorial (2 :: ps) true (J - m) 1) as [f2|] eqn:E2; [|discriminate]. injection H as <-.
  apply C13_factorial_quotient in E1, E2; auto; try lia.
  destruct E1 as (F1 & _ & V1), E2 as (F2 & _ & V2). destruct (two_power ps m0 H0) as [F0 V0].
  destruct (C13_product _ _ _ PL F0 F1) as (F01 & _ & _ & V01).
  destruct (C13_product _ _ _ PL F01 F2) as (F & _ & _ & V). split; [assumption|].
  rewrite V, V01, V0, V1, V2. change (INR (fact (Z.to_nat 1))) with 1%R.
  field. apply not_eq_sym, Rlt_not_eq, INR_fact_lt_0.
Qed.

(** Instances: the cache {2,3,5,7}. *)
Example C13_ex_primes : prime_list [2; 3; 5; 7].
Proof.
  split; [repeat constructor; cbn; intuition discriminate|].
  intros p [<-|[<-|[<-|[<-|[]]]]]; apply isPrime_spec; try lia; reflexivity.
Qed.
Example C13_ex_computation :
  option_map (fun f => (nom f, den f, sgn f)) (evalCode [2; 3; 5; 7] (EAdd (EMul (EInt 3 4) (EInv (EInt (-5) 6))) (EInt 9 20)))
  = Some ([0; 2], [2; 0; 1], -1).
Proof. vm_compute. reflexivity. Qed.
Example C13_ex_roots : exists f, sumSignedRoots [2; 3; 5; 7] (fracRaw [1] [] 1) (fracRaw [3] [] (-1)) = Some f /\ sgn f = -1 /\ nom f = [1].
Proof. eexists. split; [vm_compute; reflexivity|]. split; reflexivity. Qed.
Example C13_ex_c_sub_ell : exists f, c_sub_ell [2; 3; 5; 7] 3 = Some f /\ nom f = [1; 0] /\ den f = [0; 0; 1].
Proof. eexists. split; [vm_compute; reflexivity|]. split; reflexivity. Qed.

(* ------------------------------------------------------------------ C14 *)

Lemma listEqb_eq : forall a b, listEqb a b = true <-> a = b.
Proof.
  induction a; intros [|y b]; cbn [listEqb]; split; intros H; try discriminate; auto.
  - apply andb_true_iff in H. destruct H as [E H]. apply Z.eqb_eq in E. apply IHa in H. congruence.
  - injection H as -> ->. rewrite Z.eqb_refl. now apply IHa.
Qed.

Lemma fracEqb_iff : forall a b, fracEqb a b = true <->
  (sgn a = 0 /\ sgn b = 0) \/ (sgn a = sgn b /\ nom a = nom b /\ den a = den b).
Proof.
  intros a b. unfold fracEqb. destruct (Z.eqb_spec (sgn a) 0), (Z.eqb_spec (sgn b) 0); cbn [andb];
    try tauto;
    (destruct (Z.eqb_spec (sgn a) (sgn b)); cbn [negb]; [|split; [discriminate|intros [?|?]; lia]]);
    (destruct (Nat.eqb_spec (length (nom a)) (length (nom b))); cbn [negb];
      [|split; [discriminate|intros [?|(_ & ? & _)]; [lia|congruence]]]);
    (destruct (Nat.eqb_spec (length (den a)) (length (den b))); cbn [negb];
      [|split; [discriminate|intros [?|(_ & _ & ?)]; [lia|congruence]]]);
    rewrite andb_true_iff, !listEqb_eq; tauto.
Qed.

(** Equal representations have equal values. *)
Theorem C14_equal_means_equal_value : forall ps a b, fracEqb a b = true -> fval ps a = fval ps b.
Proof.
  intros ps a b H. apply fracEqb_iff in H. unfold fval. destruct H as [[-> ->]|(-> & -> & ->)]; [ring|reflexivity].
Qed.

(** It is an equivalence relation. *)
Theorem C14_equality_is_equivalence :
  (forall a, fracEqb a a = true) /\ (forall a b, fracEqb a b = fracEqb b a) /\
  (forall a b c, fracEqb a b = true -> fracEqb b c = true -> fracEqb a c = true).
Proof.
  split; [|split].
  - intros a. apply fracEqb_iff. right. auto.
  - intros a b. apply eq_true_iff_eq. rewrite !fracEqb_iff. intuition congruence.
  - intros a b c. rewrite !fracEqb_iff. intuition congruence.
Qed.

Definition trimmed (v : list Z) : Prop := v = [] \/ nz (length v - 1) v <> 0.

Lemma trimmed_ext : forall u v, trimmed u -> trimmed v -> (forall i, nz i u = nz i v) -> u = v.
Proof.
  assert (forall u v, trimmed u -> (forall i, nz i u = nz i v) -> (length u <= length v)%nat) as H.
  { intros u v [->|T] E; [cbn; lia|]. destruct (Nat.le_gt_cases (length u) (length v)) as [|G]; auto.
    exfalso. apply T. rewrite E. apply nth_overflow. lia. }
  intros u v Tu Tv E. apply nth_ext with (d := 0) (d' := 0); [|auto].
  apply Nat.le_antisymm; [now apply H|apply H; auto].
Qed.

(** For numbers as the integer constructor (and addition, which ends in it) delivers them, comparison is
    equality of the rational numbers. *)
Theorem C14_equality_exact_for_integer_quotients : forall ps a b c d f g, prime_list ps -> b <> 0 -> d <> 0 ->
  fracInt ps a b = Some f -> fracInt ps c d = Some g -> (fracEqb f g = true <-> a * d = c * b).
Proof.
  intros ps a b c d f g PL Hb Hd Hf Hg.
  destruct (C13_from_integers ps a b f PL Hb Hf) as (Ff & _ & Rf & Vf).
  destruct (C13_from_integers ps c d g PL Hd Hg) as (Fg & _ & Rg & Vg).
  assert (IZR b <> 0)%R as Nb by now apply not_0_IZR. assert (IZR d <> 0)%R as Nd by now apply not_0_IZR.
  assert (a * d = c * b <-> fval ps f = fval ps g) as ->.
  { rewrite Vf, Vg. split; intros E.
    - apply (f_equal IZR) in E. rewrite !mult_IZR in E.
      apply (Rmult_eq_reg_r (IZR b * IZR d)); [|apply Rmult_integral_contrapositive; split; assumption].
      field_simplify; auto. lra.
    - apply eq_IZR. rewrite !mult_IZR. apply (f_equal (fun t => t * (IZR b * IZR d))%R) in E.
      field_simplify in E; auto. lra. }
  split; [apply C14_equal_means_equal_value|]. intros E.
  assert (forall x y h, fracInt ps x y = Some h -> y <> 0 -> (sgn h = 0 \/ (trimmed (nom h) /\ trimmed (den h)))) as T.
  { clear. intros x y h H Hy. unfold fracInt in H. destruct (x =? 0).
    - rewrite (proj2 (Z.eqb_neq _ _) Hy) in H. injection H as <-. now left.
    - rewrite (proj2 (Z.eqb_neq _ _) Hy) in H. destruct (factorLoop ps 0 (Z.abs x) []); [|discriminate].
      destruct (factorLoop ps 0 (Z.abs y) []); [|discriminate]. destruct (cancel l l0). injection H as <-. right.
      split; apply removeZeros_last. }
  pose proof (prime_list_ge2 ps PL) as Hp.
  assert (forall h, finite ps h -> 0 < IZR (powProd ps (nom h)) /\ 0 < IZR (powProd ps (den h)))%R as P.
  { intros h Fh. split; apply IZR_pow_pos; auto; [pose proof (fin_nom _ _ Fh) as V|pose proof (fin_den _ _ Fh) as V];
      apply vec_ok_iff in V; tauto. }
  destruct (P f Ff) as [P1 P2], (P g Fg) as [P3 P4].
  assert (0 < IZR (powProd ps (nom f)) / IZR (powProd ps (den f)))%R as Q1 by (apply Rdiv_lt_0_compat; assumption).
  assert (0 < IZR (powProd ps (nom g)) / IZR (powProd ps (den g)))%R as Q2 by (apply Rdiv_lt_0_compat; assumption).
  assert (sgn f = sgn g) as ES.
  { unfold fval in E. destruct (fin_sgn _ _ Ff) as [S1|[S1|S1]], (fin_sgn _ _ Fg) as [S2|[S2|S2]];
      rewrite S1, S2 in *; try reflexivity; exfalso; nra. }
  apply fracEqb_iff. destruct (Z.eq_dec (sgn f) 0) as [Z0|Z0]; [left; lia|right].
  destruct (T _ _ _ Hf Hb) as [?|[T1 T2]]; [contradiction|]. destruct (T _ _ _ Hg Hd) as [?|[T3 T4]]; [lia|].
  split; [assumption|].
  pose proof (proj1 (vec_ok_iff _ _) (fin_nom _ _ Ff)) as [A1 A2]. pose proof (proj1 (vec_ok_iff _ _) (fin_den _ _ Ff)) as [B1 B2].
  pose proof (proj1 (vec_ok_iff _ _) (fin_nom _ _ Fg)) as [C1 C2]. pose proof (proj1 (vec_ok_iff _ _) (fin_den _ _ Fg)) as [D1 D2].
  assert (powProd ps (addVec (nom f) (den g)) = powProd ps (addVec (nom g) (den f))) as EP.
  { rewrite (powProd_add ps (addVec (nom f) (den g)) (nom f) (den g)), (powProd_add ps (addVec (nom g) (den f)) (nom g) (den f)); auto; try (intros; apply nz_addVec).
    apply eq_IZR. rewrite !mult_IZR. unfold fval in E. rewrite ES in E.
    apply Rmult_eq_reg_l in E; [|apply not_0_IZR; lia].
    apply (f_equal (fun t => t * (IZR (powProd ps (den f)) * IZR (powProd ps (den g))))%R) in E.
    transitivity (IZR (powProd ps (nom f)) / IZR (powProd ps (den f)) * (IZR (powProd ps (den f)) * IZR (powProd ps (den g))))%R;
      [field; lra|rewrite E; field; lra]. }
  assert (forall i, nz i (nom f) + nz i (den g) = nz i (nom g) + nz i (den f)) as EI.
  { intros i. destruct (Nat.lt_ge_cases i (length ps)) as [L|L].
    - rewrite <- !nz_addVec. apply (unique_factorisation ps); auto.
      + intros j. rewrite nz_addVec. specialize (A1 j). specialize (D1 j). lia.
      + intros j. rewrite nz_addVec. specialize (C1 j). specialize (B1 j). lia.
    - rewrite A2, B2, C2, D2 by assumption. reflexivity. }
  split; apply trimmed_ext; auto; intros i; specialize (EI i); specialize (A1 i); specialize (B1 i); specialize (C1 i); specialize (D1 i);
    destruct (Rf i), (Rg i); lia.
Qed.

(** Defect: products keep trailing zero exponents, so equal values compare as different: 2 * 1/2 is not 1. *)
Theorem C14_equality_misses_equal_values_defect :
  exists two half one, fracInt [2; 3] 2 1 = Some two /\ fracInt [2; 3] 1 2 = Some half /\ fracInt [2; 3] 1 1 = Some one /\
    fval [2; 3] (fracMul two half) = fval [2; 3] one /\ fracEqb (fracMul two half) one = false.
Proof.
  eexists _, _, _. split; [reflexivity|]. split; [reflexivity|]. split; [reflexivity|]. split; [|reflexivity].
  unfold fval. cbn. reflexivity.
Qed.

(** Defect: the flag of Dval is ignored once a value is cached.  Whatever was asked first is what every later
    request returns. *)
Theorem C14_value_cache_ignores_flag_defect : forall ps f v f' r, getDval ps r f = Some (v, f') ->
  forall r', getDval ps r' f' = Some (v, f').
Proof.
  intros ps f v f' r H r'. unfold getDval in H |- *. destruct (valC f) as [w|] eqn:W.
  - injection H as <- <-. now rewrite W.
  - destruct (sgn f =? 0).
    + injection H as <- <-. reflexivity.
    + destruct (getNumerator ps f), (getDenominator ps f); try discriminate. injection H as <- <-. reflexivity.
Qed.
Example C14_ex_value_cache :
  exists f f1 v1 f2 v2, fracInt [2; 3] 1 4 = Some f /\ getDval [2; 3] true f = Some (v1, f1) /\
    getDval [2; 3] false f1 = Some (v2, f2) /\ dvR v2 = (/ 2)%R /\ fval [2; 3] f1 = (/ 4)%R.
Proof.
  eexists _, _, _, _, _. split; [reflexivity|]. split; [reflexivity|]. split; [reflexivity|].
  unfold dvR, fval. cbn. split; [|field].
  replace (1 / 4)%R with (/ 2 * / 2)%R by field. rewrite sqrt_square by lra. ring.
Qed.

(** ... so a comparison made earlier decides what a later request for the square root returns, and a square root
    asked for earlier falsifies SumSignedRoots: sqrt(1/16) - sqrt(1/9) gets the wrong sign. *)
Theorem C14_cached_root_breaks_sum_defect :
  let ps := [2; 3; 5; 7] in
  exists a b a' v f, fracInt ps 1 16 = Some a /\ fracInt ps (-1) 9 = Some b /\
    getDval ps true a = Some (v, a') /\ sumSignedRoots ps a' b = Some f /\
    (ssqrt (fval ps f) > 0)%R /\ (ssqrt (fval ps a) + ssqrt (fval ps b) < 0)%R.
Proof.
  cbv zeta. eexists _, _, _, _, _. split; [reflexivity|]. split; [reflexivity|]. split; [reflexivity|]. split; [vm_compute; reflexivity|].
  split.
  - unfold fval. cbn. replace (1 * (1 / 144))%R with (IZR 1 * (/ 12 * / 12))%R by field.
    rewrite ssqrt_sq by (auto; lra). lra.
  - unfold fval. cbn. replace (1 * (1 / 16))%R with (IZR 1 * (/ 4 * / 4))%R by field.
    replace (-1 * (1 / 9))%R with (IZR (-1) * (/ 3 * / 3))%R by field.
    rewrite !ssqrt_sq by (auto; lra). lra.
Qed.

(** Defect: infinity plus one is the finite number -7776. *)
Theorem C14_infinity_plus_finite_defect :
  exists inf one f, fracInt [2; 3] 1 0 = Some inf /\ sgn inf = infSign /\ fracInt [2; 3] 1 1 = Some one /\
    fracAdd [2; 3] inf one = Some f /\ finite [2; 3] f /\ fval [2; 3] f = (-7776)%R.
Proof.
  eexists _, _, _. split; [reflexivity|]. split; [reflexivity|]. split; [reflexivity|]. split; [vm_compute; reflexivity|].
  split.
  - apply finite_raw; auto using vec_ok_nil. split.
    + intros e [<-|[<-|[]]]; lia.
    + intros [|[|i]] Hi; cbn [length] in Hi; try lia. destruct i; reflexivity.
  - unfold fval. cbn. field.
Qed.

(** Special values in products follow the documented rules, for all operands. *)
Theorem C14_special_products : forall a b,
  (sgn a = undefSign \/ sgn b = undefSign -> sgn (fracMul a b) = undefSign) /\
  (sgn a = infSign -> sgn b = 0 -> sgn (fracMul a b) = undefSign) /\
  (sgn a = infSign -> sgn b <> 0 -> sgn b <> undefSign -> sgn (fracMul a b) = infSign).
Proof.
  intros a b. unfold fracMul, undefSign, infSign. split; [|split].
  - intros [->| ->]; [reflexivity|]. rewrite orb_true_r. reflexivity.
  - intros -> ->. reflexivity.
  - intros -> Z0 Zu. rewrite (proj2 (Z.eqb_neq _ _) Z0), (proj2 (Z.eqb_neq _ _) Zu). reflexivity.
Qed.
