(** Properties C13, C14: rational numbers as prime exponents. *)
From Coq Require Import ZArith Znumtheory Reals List Bool Lia Lra Factorial.
From Verif Require Import PrimeSpec PrimeProofs FracModel FracSpec FracProofs.
Import ListNotations.
Open Scope Z_scope.

Definition primes_ge2 (ps : list Z) : Prop := forall p, In p ps -> 2 <= p.

Lemma nz_map_seq : forall (f : nat -> Z) n i, (i < n)%nat -> nz i (map f (seq 0 n)) = f i.
Proof.
  intros f n i L. rewrite (nth_indep _ 0 (f 0%nat)) by (rewrite map_length, seq_length; assumption).
  rewrite map_nth, seq_nth by assumption. reflexivity.
Qed.

Lemma prime_list_ge2 : forall ps, prime_list ps -> primes_ge2 ps.
Proof. intros ps [_ H] p Hp. apply prime_ge_2, H, Hp. Qed.

Lemma first_primes_prime_list : forall ps, first_primes ps -> prime_list ps.
Proof. intros ps (S & P & _). split; [now apply sorted_NoDup|assumption]. Qed.

Lemma IZR_pow_pos : forall ps v, primes_ge2 ps -> nonneg v -> (0 < IZR (powProd ps v))%R.
Proof. intros. apply (IZR_lt 0). now apply powProd_pos. Qed.

Lemma finite_raw : forall ps n d s, (s = 1 \/ s = -1) -> vec_ok ps n -> vec_ok ps d -> finite ps (fracRaw n d s).
Proof. intros ps n d s [-> | ->] Hn Hd; constructor; cbn; auto; discriminate. Qed.

Lemma vec_ok_nil : forall ps, vec_ok ps [].
Proof. intros. split; [intros e []|]. intros [|i] _; reflexivity. Qed.

Lemma getNumerator_finite : forall ps f, finite ps f ->
  getNumerator ps f = Some (if sgn f =? 0 then 0 else powProd ps (nom f)).
Proof.
  intros ps f F. unfold getNumerator. destruct (numC f) eqn:E.
  - now rewrite (fin_numC _ _ F _ E).
  - destruct (sgn f =? 0); [reflexivity|]. destruct (proj1 (vec_ok_iff _ _) (fin_nom _ _ F)).
    now apply numberOf_spec.
Qed.
Lemma getDenominator_finite : forall ps f, finite ps f ->
  getDenominator ps f = Some (if sgn f =? 0 then 1 else powProd ps (den f)).
Proof.
  intros ps f F. unfold getDenominator. destruct (denC f) eqn:E.
  - now rewrite (fin_denC _ _ F _ E).
  - destruct (sgn f =? 0); [reflexivity|]. destruct (proj1 (vec_ok_iff _ _) (fin_den _ _ F)).
    now apply numberOf_spec.
Qed.

Lemma cancel_vecs : forall ps n d n' d', primes_ge2 ps -> vec_ok ps n -> vec_ok ps d -> cancel n d = (n', d') ->
  vec_ok ps n' /\ vec_ok ps d' /\ powProd ps n' * powProd ps d = powProd ps n * powProd ps d' /\
  (forall i, nz i n' = 0 \/ nz i d' = 0).
Proof.
  intros ps n d n' d' Hp Hn Hd C. apply vec_ok_iff in Hn, Hd. destruct Hn as [Hn Cn], Hd as [Hd Cd].
  assert (forall i, nz i n' - nz i d' = nz i n - nz i d /\ 0 <= nz i n' /\ 0 <= nz i d' /\ (nz i n' = 0 \/ nz i d' = 0)) as K
    by (intros i; now apply (cancel_nth n d)).
  assert (nonneg n') as Hn' by (intros i; apply K). assert (nonneg d') as Hd' by (intros i; apply K).
  split; [|split; [|split]].
  - apply vec_ok_iff. split; [assumption|]. intros i Hi. specialize (K i). rewrite (Cn i Hi), (Cd i Hi) in K. lia.
  - apply vec_ok_iff. split; [assumption|]. intros i Hi. specialize (K i). rewrite (Cn i Hi), (Cd i Hi) in K. lia.
  - rewrite <- (powProd_add ps (addVec n' d) n' d), <- (powProd_add ps (addVec n d') n d'); auto;
      try (intros i _; now rewrite nz_addVec).
    apply powProd_ext. intros i _. rewrite !nz_addVec. specialize (K i). lia.
  - apply K.
Qed.

Lemma vec_ok_removeZeros : forall ps v, vec_ok ps v -> vec_ok ps (removeZeros v).
Proof.
  intros ps v H. apply vec_ok_iff in H. destruct H as [A B]. apply vec_ok_iff. split.
  - intros i. rewrite nz_removeZeros. apply A.
  - intros i Hi. rewrite nz_removeZeros. now apply B.
Qed.
Lemma powProd_removeZeros : forall ps v, powProd ps (removeZeros v) = powProd ps v.
Proof. intros. apply powProd_ext. intros. apply nz_removeZeros. Qed.

Lemma vec_ok_addVec : forall ps a b, vec_ok ps a -> vec_ok ps b -> vec_ok ps (addVec a b).
Proof.
  intros ps a b Ha Hb. apply vec_ok_iff in Ha, Hb. destruct Ha as [A B], Hb as [C D]. apply vec_ok_iff. split.
  - intros i. rewrite nz_addVec. specialize (A i). specialize (C i). lia.
  - intros i Hi. rewrite nz_addVec, B, D by assumption. reflexivity.
Qed.
Lemma powProd_addVec : forall ps a b, vec_ok ps a -> vec_ok ps b -> powProd ps (addVec a b) = powProd ps a * powProd ps b.
Proof.
  intros ps a b Ha Hb. apply vec_ok_iff in Ha, Hb. apply powProd_add; try tauto. intros. apply nz_addVec.
Qed.

Lemma factor0 : forall ps n v, primes_ge2 ps -> 0 < n -> factorLoop ps 0 n [] = Some v ->
  vec_ok ps v /\ powProd ps v = n.
Proof.
  intros ps n v Hp Hn H. apply (factorLoop_spec ps []) in H; auto.
  - cbn [app] in H. destruct H as (A & B & C). rewrite powProd_nil in C. split; [now apply vec_ok_iff|lia].
  - intros [|i]; cbn; lia.
  - intros [|i] _; reflexivity.
Qed.

(* ------------------------------------------------------------------ C13 *)

(** A number built from integers, denominator not zero, is finite and stands for inom/iden; it is reduced. *)
Theorem C13_from_integers : forall ps inom iden f, prime_list ps -> iden <> 0 -> fracInt ps inom iden = Some f ->
  finite ps f /\ honest ps f /\ reduced f /\ fval ps f = (IZR inom / IZR iden)%R.
Proof.
  intros ps inom iden f PL Hd H. pose proof (prime_list_ge2 ps PL) as Hp. unfold fracInt in H.
  destruct (Z.eqb_spec inom 0) as [->|Hn].
  - rewrite (proj2 (Z.eqb_neq _ _) Hd) in H. injection H as <-.
    assert (fval ps (Frac [] [] 0 None None (Some (DV 0 0 1 false))) = 0%R) as E.
    { unfold fval. cbn [sgn]. lra. }
    split; [|split; [|split]].
    + constructor; cbn; auto using vec_ok_nil; discriminate.
    + intros v Hv. injection Hv as <-. rewrite E. unfold dvR. cbn. repeat split; try lia. lra.
    + intros i. left. destruct i; reflexivity.
    + rewrite E. unfold Rdiv. lra.
  - rewrite (proj2 (Z.eqb_neq _ _) Hd) in H.
    destruct (factorLoop ps 0 (Z.abs inom) []) as [n|] eqn:En; [|discriminate].
    destruct (factorLoop ps 0 (Z.abs iden) []) as [d|] eqn:Ed; [|discriminate].
    apply factor0 in En, Ed; auto; try lia. destruct En as [Vn En], Ed as [Vd Ed].
    destruct (cancel n d) as [n' d'] eqn:C. injection H as <-.
    destruct (cancel_vecs ps n d n' d' Hp Vn Vd C) as (Vn' & Vd' & E & R).
    split; [|split; [|split]].
    + apply finite_raw; auto using vec_ok_removeZeros. destruct (inom <? 0), (iden <? 0); cbn; auto.
    + intros v Hv. discriminate.
    + intros i. cbn [fracRaw nom den]. rewrite !nz_removeZeros. apply R.
    + unfold fval. cbn [fracRaw nom den sgn]. rewrite !powProd_removeZeros.
      assert (0 < IZR (powProd ps d'))%R as P1 by (apply IZR_pow_pos; auto; now apply vec_ok_iff in Vd').
      assert (IZR iden <> 0)%R as P2 by now apply not_0_IZR.
      rewrite En, Ed in E. apply (f_equal IZR) in E. rewrite !mult_IZR in E.
      apply (Rmult_eq_reg_r (IZR (powProd ps d') * IZR iden)); [|apply Rmult_integral_contrapositive; split; lra].
      transitivity (IZR ((if inom <? 0 then -1 else 1) * (if iden <? 0 then -1 else 1)) * (IZR (powProd ps n') * IZR iden))%R;
        [field; lra|transitivity (IZR inom * IZR (powProd ps d'))%R; [|field; lra]].
      destruct (Z.ltb_spec inom 0) as [Ln|Ln], (Z.ltb_spec iden 0) as [Ld|Ld];
        cbn [Z.mul Z.opp Pos.mul];
        [rewrite !Z.abs_neq, !opp_IZR in E by lia | rewrite (Z.abs_neq inom), (Z.abs_eq iden), !opp_IZR in E by lia
        | rewrite (Z.abs_eq inom), (Z.abs_neq iden), !opp_IZR in E by lia | rewrite !Z.abs_eq in E by lia]; lra.
Qed.

(** Construction succeeds if the cache holds all prime factors of both integers, in particular if it holds
    all primes up to the larger of the two. *)
Theorem C13_from_integers_total : forall ps inom iden, prime_list ps -> inom <> 0 -> iden <> 0 ->
  (forall q, prime q -> (q | inom) \/ (q | iden) -> In q ps) -> exists f, fracInt ps inom iden = Some f.
Proof.
  intros ps inom iden [_ PP] Hn Hd H. unfold fracInt.
  rewrite (proj2 (Z.eqb_neq _ _) Hn), (proj2 (Z.eqb_neq _ _) Hd).
  destruct (factorLoop_total ps 0 (Z.abs inom) []) as [n ->]; auto; try lia.
  { intros q Pq D. apply H; auto. left. apply (proj1 (Z.divide_abs_r _ _)); exact D. }
  destruct (factorLoop_total ps 0 (Z.abs iden) []) as [d ->]; auto; try lia.
  { intros q Pq D. apply H; auto. right. apply (proj1 (Z.divide_abs_r _ _)); exact D. }
  destruct (cancel n d). eauto.
Qed.

(** Product. *)
Theorem C13_product : forall ps a b, prime_list ps -> finite ps a -> finite ps b ->
  finite ps (fracMul a b) /\ honest ps (fracMul a b) /\ reduced (fracMul a b) /\
  fval ps (fracMul a b) = (fval ps a * fval ps b)%R.
Proof.
  intros ps a b PL Fa Fb. pose proof (prime_list_ge2 ps PL) as Hp. unfold fracMul, undefSign, infSign.
  pose proof (fin_sgn _ _ Fa) as Sa. pose proof (fin_sgn _ _ Fb) as Sb.
  assert (forall s, s = 1 \/ s = -1 \/ s = 0 -> (s =? -6666) = false /\ (s =? -7777) = false) as NS.
  { intros s [->|[->| ->]]; split; reflexivity. }
  destruct (NS _ Sa) as [-> ->], (NS _ Sb) as [-> ->]. cbn [andb orb]. rewrite andb_false_r. cbn [orb].
  destruct (Z.eqb_spec (sgn a * sgn b) 0) as [E0|E0].
  - split; [|split; [|split]].
    + constructor; cbn; auto using vec_ok_nil; discriminate.
    + intros v Hv. cbn [fracZero valC] in Hv. injection Hv as <-. unfold dvR, fval. cbn. repeat split; try lia. lra.
    + intros i. left. destruct i; reflexivity.
    + unfold fval at 1. cbn [fracZero sgn]. unfold fval.
      assert (IZR (sgn a) * IZR (sgn b) = 0)%R as E by (rewrite <- mult_IZR, E0; reflexivity).
      rewrite Rmult_0_l. symmetry.
      replace (IZR (sgn a) * (IZR (powProd ps (nom a)) / IZR (powProd ps (den a))) *
               (IZR (sgn b) * (IZR (powProd ps (nom b)) / IZR (powProd ps (den b)))))%R
        with (IZR (sgn a) * IZR (sgn b) * ((IZR (powProd ps (nom a)) / IZR (powProd ps (den a))) *
               (IZR (powProd ps (nom b)) / IZR (powProd ps (den b)))))%R by ring.
      rewrite E. ring.
  - destruct (cancel _ _) as [n d] eqn:C.
    pose proof (fin_nom _ _ Fa) as Na. pose proof (fin_nom _ _ Fb) as Nb.
    pose proof (fin_den _ _ Fa) as Da. pose proof (fin_den _ _ Fb) as Db.
    apply (cancel_vecs ps) in C; auto using vec_ok_addVec.
    destruct C as (Vn & Vd & E & R). rewrite !powProd_addVec in E by assumption.
    split; [|split; [|split]].
    + apply finite_raw; auto. destruct Sa as [->|[->|Z1]], Sb as [->|[->|Z2]]; cbn; auto; exfalso; apply E0; rewrite ?Z1, ?Z2; ring.
    + intros v Hv. discriminate.
    + exact R.
    + unfold fval. cbn [fracRaw sgn nom den]. apply (f_equal IZR) in E. rewrite !mult_IZR in E. rewrite mult_IZR.
      assert (forall v, vec_ok ps v -> 0 < IZR (powProd ps v))%R as P
        by (intros v Hv; apply IZR_pow_pos; auto; now apply vec_ok_iff in Hv).
      pose proof (P _ Vd). pose proof (P _ Da). pose proof (P _ Db).
      assert (IZR (powProd ps n) / IZR (powProd ps d) =
              (IZR (powProd ps (nom a)) / IZR (powProd ps (den a))) * (IZR (powProd ps (nom b)) / IZR (powProd ps (den b))))%R as ->.
      { apply (Rmult_eq_reg_r (IZR (powProd ps d) * IZR (powProd ps (den a)) * IZR (powProd ps (den b)))).
        - field_simplify; lra.
        - apply Rmult_integral_contrapositive; split; [apply Rmult_integral_contrapositive; split|]; lra. }
      ring.
Qed.

(** Sum. *)
Theorem C13_sum : forall ps a b f, prime_list ps -> finite ps a -> finite ps b -> fracAdd ps a b = Some f ->
  finite ps f /\ honest ps f /\ reduced f /\ fval ps f = (fval ps a + fval ps b)%R.
Proof.
  intros ps a b f PL Fa Fb H. pose proof (prime_list_ge2 ps PL) as Hp. unfold fracAdd in H.
  pose proof (fin_den _ _ Fa) as Da. pose proof (fin_den _ _ Fb) as Db.
  assert (forall v, vec_ok ps v -> 0 < powProd ps v) as P
    by (intros v Hv; apply powProd_pos; auto; now apply vec_ok_iff in Hv).
  apply vec_ok_iff in Da, Db. destruct Da as [Na Ca], Db as [Nb Cb].
  assert (vec_ok ps (minVec (den a) (den b))) as Vm.
  { apply vec_ok_iff. split.
    - intros i. rewrite nz_minVec by assumption. specialize (Na i). specialize (Nb i). lia.
    - intros i Hi. rewrite nz_minVec by assumption. rewrite Ca, Cb by assumption. reflexivity. }
  unfold denomCommonDivisor in H. apply vec_ok_iff in Vm. rewrite numberOf_spec in H by tauto.
  rewrite !getNumerator_finite, !getDenominator_finite in H by assumption.
  apply vec_ok_iff in Vm. set (c := powProd ps (minVec (den a) (den b))) in *.
  assert (0 < c) as Pc by now apply P.
  assert (forall v, nonneg v -> (forall i, nz i (minVec (den a) (den b)) <= nz i v) -> (c | powProd ps v)) as DV.
  { intros v Hv Hle. exists (powProd ps (map (fun i => nz i v - nz i (minVec (den a) (den b))) (seq 0 (length ps)))).
    apply powProd_add.
    - intros i. destruct (Nat.lt_ge_cases i (length ps)) as [L|L].
      + rewrite (nz_map_seq (fun i => nz i v - nz i (minVec (den a) (den b)))) by assumption. specialize (Hle i). lia.
      + rewrite nth_overflow; [lia|rewrite map_length, seq_length; assumption].
    - apply vec_ok_iff in Vm; tauto.
    - intros i L. rewrite (nz_map_seq (fun i => nz i v - nz i (minVec (den a) (den b)))) by assumption. lia. }
  assert (c | powProd ps (den a)) as [qa Ea].
  { apply DV; auto. intros i. rewrite nz_minVec by assumption. lia. }
  assert (c | powProd ps (den b)) as [qb Eb].
  { apply DV; auto. intros i. rewrite nz_minVec by assumption. lia. }
  assert (0 < powProd ps (den a)) as Pa by (apply P; now apply vec_ok_iff).
  assert (0 < powProd ps (den b)) as Pb by (apply P; now apply vec_ok_iff).
  pose proof (fin_sgn _ _ Fa) as Sa. pose proof (fin_sgn _ _ Fb) as Sb.
  assert (0 < qa) by nia. assert (0 < qb) by nia.
  assert (forall z, z * c ÷ c = z) as QM by (intros; apply Z.quot_mul; lia).
  assert (0 < IZR c)%R by (apply (IZR_lt 0); assumption).
  assert (0 < IZR qa)%R by (apply (IZR_lt 0); assumption).
  assert (0 < IZR qb)%R by (apply (IZR_lt 0); assumption).
  assert (sgn a = 0 -> c = 1) as Ca1.
  { intros Z. destruct (fin_zero _ _ Fa Z) as [_ D]. unfold c. rewrite D. cbn [minVec]. apply powProd_nil. }
  assert (sgn b = 0 -> c = 1) as Cb1.
  { intros Z. destruct (fin_zero _ _ Fb Z) as [_ D]. unfold c. rewrite D. destruct (den a); cbn [minVec]; apply powProd_nil. }
  assert (fval ps a = IZR (sgn a * (if sgn a =? 0 then 0 else powProd ps (nom a))) / IZR (if sgn a =? 0 then 1 else powProd ps (den a)))%R as Va.
  { unfold fval. destruct (Z.eqb_spec (sgn a) 0) as [Z|Z]; [rewrite Z; cbn [Z.mul]; unfold Rdiv; ring|].
    rewrite mult_IZR. unfold Rdiv. ring. }
  assert (fval ps b = IZR (sgn b * (if sgn b =? 0 then 0 else powProd ps (nom b))) / IZR (if sgn b =? 0 then 1 else powProd ps (den b)))%R as Vb.
  { unfold fval. destruct (Z.eqb_spec (sgn b) 0) as [Z|Z]; [rewrite Z; cbn [Z.mul]; unfold Rdiv; ring|].
    rewrite mult_IZR. unfold Rdiv. ring. }
  assert (exists q, (if sgn a =? 0 then 1 else powProd ps (den a)) = q * c /\ 0 < q) as [ra [Ra Pra]].
  { destruct (Z.eqb_spec (sgn a) 0) as [Z|Z]; [exists 1; rewrite Ca1 by assumption; lia|exists qa; auto]. }
  assert (exists q, (if sgn b =? 0 then 1 else powProd ps (den b)) = q * c /\ 0 < q) as [rb [Rb Prb]].
  { destruct (Z.eqb_spec (sgn b) 0) as [Z|Z]; [exists 1; rewrite Cb1 by assumption; lia|exists qb; auto]. }
  rewrite Ra, Rb, !QM in H. rewrite Ra in Va. rewrite Rb in Vb.
  apply C13_from_integers in H; [|assumption|nia].
  destruct H as (A & B & C & D). split; [assumption|]. split; [assumption|]. split; [assumption|].
  rewrite D, Va, Vb.
  assert (0 < IZR ra)%R by (apply (IZR_lt 0); assumption).
  assert (0 < IZR rb)%R by (apply (IZR_lt 0); assumption).
  rewrite plus_IZR, !mult_IZR. field. lra.
Qed.

(** Sign flip and absolute value. *)
Theorem C13_flip_sign : forall ps f, finite ps f -> honest ps f ->
  finite ps (flipSign f) /\ honest ps (flipSign f) /\ fval ps (flipSign f) = (- fval ps f)%R.
Proof.
  intros ps f F H.
  assert (fval ps (flipSign f) = - fval ps f)%R as E.
  { unfold fval, flipSign. cbn [sgn nom den]. rewrite opp_IZR. ring. }
  split; [|split; [|assumption]].
  - destruct F as [S N D Z C1 C2]. unfold flipSign. constructor; cbn [sgn nom den numC denC]; auto.
    + lia.
    + intros E0. apply Z. lia.
    + intros z Hz. rewrite (C1 z Hz). destruct (Z.eqb_spec (sgn f) 0), (Z.eqb_spec (- sgn f) 0); lia.
    + intros z Hz. rewrite (C2 z Hz). destruct (Z.eqb_spec (sgn f) 0), (Z.eqb_spec (- sgn f) 0); lia.
  - intros v Hv. cbn [flipSign valC] in Hv. destruct (valC f) as [w|] eqn:W; [|discriminate].
    injection Hv as <-. destruct (H w W) as (A & B & C & D). rewrite E, <- D.
    unfold dneg, dvR. cbn [dn dd dc droot]. split; [assumption|]. split; [assumption|]. split; [assumption|].
    rewrite opp_IZR. ring.
Qed.

Theorem C13_absolute_value : forall ps f, prime_list ps -> finite ps f -> honest ps f ->
  finite ps (fracAbs f) /\ honest ps (fracAbs f) /\ fval ps (fracAbs f) = Rabs (fval ps f).
Proof.
  intros ps f PL F H. pose proof (prime_list_ge2 ps PL) as Hp. unfold fracAbs. destruct (Z.eqb_spec (sgn f) 0) as [Z0|Z0].
  - split; [assumption|]. split; [assumption|]. unfold fval. rewrite Z0, Rmult_0_l, Rabs_R0. reflexivity.
  - destruct F as [S N D Z C1 C2].
    assert (0 < IZR (powProd ps (nom f)) / IZR (powProd ps (den f)))%R as P.
    { apply Rdiv_lt_0_compat; apply IZR_pow_pos; auto; [apply vec_ok_iff in N; tauto|apply vec_ok_iff in D; tauto]. }
    assert (0 < powProd ps (nom f)) as Pn by (apply powProd_pos; auto; apply vec_ok_iff in N; tauto).
    assert (Rabs (fval ps f) = IZR (powProd ps (nom f)) / IZR (powProd ps (den f)))%R as E.
    { unfold fval. destruct S as [->|[->|]]; [| |lia]; rewrite Rabs_mult, (Rabs_right (_ / _)) by lra.
      - rewrite Rabs_R1. ring.
      - rewrite Rabs_left by lra. ring. }
    split; [|split].
    + constructor; cbn [sgn nom den numC denC]; auto.
      * discriminate.
      * intros z Hz. destruct (numC f) as [w|] eqn:W; [|discriminate]. injection Hz as <-.
        rewrite (C1 w eq_refl), (proj2 (Z.eqb_neq _ _) Z0). cbn [Z.eqb]. lia.
      * intros z Hz. rewrite (C2 z Hz), (proj2 (Z.eqb_neq _ _) Z0). reflexivity.
    + intros v Hv. cbn [valC] in Hv. destruct (valC f) as [w|] eqn:W; [|discriminate]. injection Hv as <-.
      destruct (H w W) as (A & B & C & G). cbn [dn dd droot].
      split; [assumption|]. split; [assumption|]. split; [assumption|].
      unfold dvR in *. cbn [dn dd dc droot]. rewrite C in *.
      transitivity (Rabs (fval ps f)).
      * rewrite <- G, Rabs_mult, abs_IZR. f_equal. symmetry. apply Rabs_right, Rle_ge.
        unfold Rdiv. apply Rmult_le_pos; [apply (IZR_le 0); assumption|].
        apply Rlt_le, Rinv_0_lt_compat, (IZR_lt 0). assumption.
      * rewrite E. unfold fval. cbn [sgn nom den]. ring.
    + rewrite E. unfold fval. cbn [sgn nom den]. ring.
Qed.

(** Inversion: exact for non-zero numbers; zero becomes "infinity" and false is returned. *)
Theorem C13_inverse : forall ps f, prime_list ps -> finite ps f ->
  (fval ps f <> 0%R -> exists g, fracInvert ps f = Some (g, true) /\ finite ps g /\ honest ps g /\
                                 fval ps g = (/ fval ps f)%R) /\
  (fval ps f = 0%R -> fracInvert ps f = Some (fracRaw [] [] infSign, false)).
Proof.
  intros ps f PL F. pose proof (prime_list_ge2 ps PL) as Hp. pose proof (fin_sgn _ _ F) as S.
  pose proof (fin_nom _ _ F) as N. pose proof (fin_den _ _ F) as D.
  assert (0 < powProd ps (nom f)) as Pn by (apply powProd_pos; auto; apply vec_ok_iff in N; tauto).
  assert (0 < powProd ps (den f)) as Pd by (apply powProd_pos; auto; apply vec_ok_iff in D; tauto).
  assert (0 < IZR (powProd ps (nom f)))%R as Pn' by (apply (IZR_lt 0); assumption).
  assert (0 < IZR (powProd ps (den f)))%R as Pd' by (apply (IZR_lt 0); assumption).
  unfold fracInvert, infSign. assert ((sgn f =? -7777) = false) as -> by (destruct S as [->|[->| ->]]; reflexivity).
  rewrite getNumerator_finite by assumption.
  destruct (Z.eqb_spec (sgn f) 0) as [Z0|Z0].
  - split; [intros C; exfalso; apply C; unfold fval; rewrite Z0; ring|]. intros _. reflexivity.
  - rewrite (proj2 (Z.eqb_neq (powProd ps (nom f)) 0)) by lia. split.
    + intros _. eexists. split; [reflexivity|]. split; [|split].
      * apply finite_raw; auto. destruct S as [S|[S|S]]; auto. contradiction.
      * intros v Hv. discriminate.
      * unfold fval. cbn [fracRaw nom den sgn]. destruct S as [->|[->|S]]; [| |contradiction]; field; lra.
    + intros C. exfalso. unfold fval in C. apply Rmult_integral in C. destruct C as [C|C].
      * apply eq_IZR in C. contradiction.
      * assert (0 < IZR (powProd ps (nom f)) / IZR (powProd ps (den f)))%R by (apply Rdiv_lt_0_compat; assumption). lra.
Qed.

(** ** expressions: every computation with finite numbers *)
Inductive fexp :=
| EInt (a b : Z) | EMul (x y : fexp) | EAdd (x y : fexp) | ENeg (x : fexp) | EAbs (x : fexp) | EInv (x : fexp).

Fixpoint evalCode (ps : list Z) (e : fexp) : option frac :=
  match e with
  | EInt a b => fracInt ps a b
  | EMul x y => match evalCode ps x, evalCode ps y with Some a, Some b => Some (fracMul a b) | _, _ => None end
  | EAdd x y => match evalCode ps x, evalCode ps y with Some a, Some b => fracAdd ps a b | _, _ => None end
  | ENeg x => option_map flipSign (evalCode ps x)
  | EAbs x => option_map fracAbs (evalCode ps x)
  | EInv x => match evalCode ps x with
              | Some a => match fracInvert ps a with Some (g, true) => Some g | _ => None end
              | None => None
              end
  end.

Fixpoint evalReal (e : fexp) : R :=
  match e with
  | EInt a b => (IZR a / IZR b)%R
  | EMul x y => (evalReal x * evalReal y)%R
  | EAdd x y => (evalReal x + evalReal y)%R
  | ENeg x => (- evalReal x)%R
  | EAbs x => Rabs (evalReal x)
  | EInv x => (/ evalReal x)%R
  end.

Fixpoint literals_ok (e : fexp) : Prop :=
  match e with
  | EInt _ b => b <> 0
  | EMul x y | EAdd x y => literals_ok x /\ literals_ok y
  | ENeg x | EAbs x | EInv x => literals_ok x
  end.

Theorem C13_every_computation : forall ps e f, prime_list ps -> literals_ok e -> evalCode ps e = Some f ->
  finite ps f /\ honest ps f /\ fval ps f = evalReal e.
Proof.
  intros ps e f PL. revert f. induction e as [a b|x IHx y IHy|x IHx y IHy|x IHx|x IHx|x IHx];
    intros f L H; cbn [evalCode literals_ok evalReal] in *.
  - apply C13_from_integers in H; auto. tauto.
  - destruct (evalCode ps x) as [a|]; [|discriminate]. destruct (evalCode ps y) as [b|]; [|discriminate].
    injection H as <-. destruct (IHx a) as (A & B & C); [tauto|reflexivity|]. destruct (IHy b) as (D & E & F); [tauto|reflexivity|].
    destruct (C13_product ps a b PL A D) as (P & Q & _ & R). rewrite <- C, <- F. auto.
  - destruct (evalCode ps x) as [a|]; [|discriminate]. destruct (evalCode ps y) as [b|]; [|discriminate].
    destruct (IHx a) as (A & B & C); [tauto|reflexivity|]. destruct (IHy b) as (D & E & F); [tauto|reflexivity|].
    destruct (C13_sum ps a b f PL A D H) as (P & Q & _ & R). rewrite <- C, <- F. auto.
  - destruct (evalCode ps x) as [a|]; [|discriminate]. injection H as <-.
    destruct (IHx a) as (A & B & C); [tauto|reflexivity|]. rewrite <- C. now apply C13_flip_sign.
  - destruct (evalCode ps x) as [a|]; [|discriminate]. injection H as <-.
    destruct (IHx a) as (A & B & C); [tauto|reflexivity|]. rewrite <- C. now apply C13_absolute_value.
  - destruct (evalCode ps x) as [a|]; [|discriminate].
    destruct (IHx a) as (A & B & C); [tauto|reflexivity|]. rewrite <- C.
    destruct (C13_inverse ps a PL A) as [NZ Z].
    destruct (Req_EM_T (fval ps a) 0) as [E|E].
    + rewrite (Z E) in H. discriminate.
    + destruct (NZ E) as [g [G (P & Q & R)]]. rewrite G in H. injection H as <-. auto.
Qed.

(** ** double values *)
Lemma dvR_ss : forall x, 0 <= dn x -> 0 < dd x -> (dvR x * Rabs (dvR x) = IZR (dsqn x) / IZR (dsqd x))%R.
Proof.
  intros x Hn Hd. unfold dvR, dsqn, dsqd.
  assert (0 < IZR (dd x))%R as Pd by (apply (IZR_lt 0); assumption).
  assert (0 <= IZR (dn x))%R as Pn by (apply (IZR_le 0); assumption).
  assert (0 <= IZR (dn x) / IZR (dd x))%R as Pq.
  { unfold Rdiv. apply Rmult_le_pos; [assumption|]. apply Rlt_le, Rinv_0_lt_compat; assumption. }
  rewrite !mult_IZR, abs_IZR, Rabs_mult.
  destruct (droot x).
  - rewrite (Rabs_right (sqrt _)) by (apply Rle_ge, sqrt_pos).
    transitivity (IZR (dc x) * Rabs (IZR (dc x)) * (sqrt (IZR (dn x) / IZR (dd x)) * sqrt (IZR (dn x) / IZR (dd x))))%R; [ring|].
    rewrite sqrt_sqrt by assumption. rewrite mult_IZR. field. lra.
  - rewrite (Rabs_right (_ / _)) by (apply Rle_ge; assumption). rewrite mult_IZR. field. lra.
Qed.

Lemma ss_lt : forall a b : R, (a < b <-> a * Rabs a < b * Rabs b)%R.
Proof.
  assert (forall a b : R, a < b -> a * Rabs a < b * Rabs b)%R as H.
  { intros a b L. destruct (Rle_dec 0 a), (Rle_dec 0 b).
    - rewrite !Rabs_right by lra. nra.
    - lra.
    - rewrite (Rabs_left a), (Rabs_right b) by lra. nra.
    - rewrite !Rabs_left by lra. nra. }
  intros a b. split; [apply H|]. intros L. destruct (Rtotal_order a b) as [|[->|G]]; auto; [lra|].
  apply H in G. lra.
Qed.

Lemma dlt_spec : forall x y, 0 <= dn x -> 0 < dd x -> 0 <= dn y -> 0 < dd y ->
  (dlt x y = true <-> (dvR x < dvR y)%R).
Proof.
  intros x y A B C D. rewrite ss_lt, !dvR_ss by assumption. unfold dlt.
  assert (0 < dsqd x) by (unfold dsqd; nia). assert (0 < dsqd y) by (unfold dsqd; nia).
  assert (0 < IZR (dsqd x))%R by (apply (IZR_lt 0); assumption).
  assert (0 < IZR (dsqd y))%R by (apply (IZR_lt 0); assumption).
  assert (IZR (dsqn x) / IZR (dsqd x) < IZR (dsqn y) / IZR (dsqd y) <->
          IZR (dsqn x * dsqd y) < IZR (dsqn y * dsqd x))%R as ->.
  { rewrite !mult_IZR. split; intros L.
    - apply (Rmult_lt_compat_r (IZR (dsqd x) * IZR (dsqd y))) in L; [|now apply Rmult_lt_0_compat].
      field_simplify in L; lra.
    - apply (Rmult_lt_reg_r (IZR (dsqd x) * IZR (dsqd y))); [now apply Rmult_lt_0_compat|]. field_simplify; lra. }
  rewrite Z.ltb_lt. split; [apply IZR_lt|apply lt_IZR].
Qed.

(** Dval() of a finite number whose cache is honest is the value of the number; asking for it keeps the number. *)
Theorem C13_double_value : forall ps f, prime_list ps -> finite ps f -> honest ps f ->
  exists v f', getDval ps false f = Some (v, f') /\ dvR v = fval ps f /\ 0 <= dn v /\ 0 < dd v /\
               finite ps f' /\ honest ps f' /\ fval ps f' = fval ps f.
Proof.
  intros ps f PL F H. pose proof (prime_list_ge2 ps PL) as Hp. unfold getDval. destruct (valC f) as [w|] eqn:W.
  - destruct (H w W) as (A & B & C & D). exists w, f. tauto.
  - pose proof (fin_nom _ _ F) as N. pose proof (fin_den _ _ F) as Dn.
    assert (0 < powProd ps (nom f)) as Pn by (apply powProd_pos; auto; apply vec_ok_iff in N; tauto).
    assert (0 < powProd ps (den f)) as Pd by (apply powProd_pos; auto; apply vec_ok_iff in Dn; tauto).
    destruct (Z.eqb_spec (sgn f) 0) as [Z0|Z0].
    + eexists _, _. split; [reflexivity|].
      assert (fval ps f = 0%R) as E0 by (unfold fval; rewrite Z0; ring).
      assert (dvR (DV 0 0 1 false) = 0%R) as E1 by (unfold dvR; cbn; ring).
      split; [congruence|]. split; [cbn; lia|]. split; [cbn; lia|]. split; [|split; [|reflexivity]].
      * destruct F. constructor; cbn; auto.
      * intros v Hv. injection Hv as <-. cbn [dn dd droot]. split; [lia|]. split; [lia|]. split; [reflexivity|].
        rewrite E1. symmetry. exact E0.
    + rewrite getNumerator_finite, getDenominator_finite by assumption. rewrite (proj2 (Z.eqb_neq _ _) Z0).
      eexists _, _. split; [reflexivity|]. split; [reflexivity|]. split; [cbn; lia|]. split; [cbn; lia|].
      split; [|split; [|reflexivity]].
      * destruct F as [S N' D' Z C1 C2]. constructor; cbn [sgn nom den numC denC]; auto; rewrite (proj2 (Z.eqb_neq _ _) Z0); congruence.
      * intros v Hv. injection Hv as <-. cbn [dn dd droot]. split; [lia|]. split; [lia|]. split; reflexivity.
Qed.

(** The comparison operator agrees with the order of the values. *)
Theorem C13_greater : forall ps a b, prime_list ps -> finite ps a -> honest ps a -> finite ps b -> honest ps b ->
  exists r a' b', fracGt ps a b = Some (r, a', b') /\ (r = true <-> (fval ps a > fval ps b)%R).
Proof.
  intros ps a b PL Fa Ha Fb Hb.
  destruct (C13_double_value ps a PL Fa Ha) as (x & a' & Ex & Vx & X1 & X2 & _).
  destruct (C13_double_value ps b PL Fb Hb) as (y & b' & Ey & Vy & Y1 & Y2 & _).
  unfold fracGt. rewrite Ex, Ey. exists (dlt y x), a', b'. split; [reflexivity|].
  rewrite dlt_spec by assumption. rewrite Vx, Vy. reflexivity.
Qed.
