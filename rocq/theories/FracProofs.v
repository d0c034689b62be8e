(** Lemmas on exponent vectors behind C13/C14. *)
From Coq Require Import ZArith Znumtheory List Bool Lia.
From Verif Require Import PrimeProofs FracModel FracSpec.
Import ListNotations.
Open Scope Z_scope.

Notation nz i v := (nth i v 0).
Definition nonneg (v : list Z) : Prop := forall i, 0 <= nz i v.

Lemma nonneg_of_In : forall v, (forall e, In e v -> 0 <= e) -> nonneg v.
Proof.
  intros v H i. destruct (Nat.lt_ge_cases i (length v)).
  - apply H, nth_In; assumption.
  - rewrite nth_overflow by assumption. lia.
Qed.
Lemma In_of_nonneg : forall v, nonneg v -> forall e, In e v -> 0 <= e.
Proof. intros v H e He. apply In_nth with (d := 0) in He. destruct He as [i [_ <-]]. apply H. Qed.

Lemma vec_ok_iff : forall ps v, vec_ok ps v <-> nonneg v /\ covers ps v.
Proof.
  intros. split; intros [A B]; split; auto.
  - now apply nonneg_of_In.
  - now apply In_of_nonneg.
Qed.

Lemma powProd_nil : forall ps, powProd ps [] = 1.
Proof. destruct ps; reflexivity. Qed.

Lemma powProd_cons : forall p ps v, powProd (p :: ps) v = p ^ (nz 0 v) * powProd ps (tl v).
Proof. intros p ps [|e v]; cbn [powProd nth tl]; [rewrite powProd_nil|]; ring. Qed.

Lemma nz_tl : forall (v : list Z) i, nz i (tl v) = nz (S i) v.
Proof. intros [|e v] [|i]; reflexivity. Qed.

Lemma nonneg_tl : forall v, nonneg v -> nonneg (tl v).
Proof. intros v H i. rewrite nz_tl. apply H. Qed.

Lemma powProd_ext : forall ps u v, (forall i, (i < length ps)%nat -> nz i u = nz i v) -> powProd ps u = powProd ps v.
Proof.
  induction ps as [|p ps IH]; intros u v H; [reflexivity|].
  rewrite !powProd_cons. rewrite (H 0%nat) by (cbn; lia). f_equal.
  apply IH. intros i Hi. rewrite !nz_tl. apply H. cbn; lia.
Qed.

Lemma powProd_add : forall ps w u v, nonneg u -> nonneg v ->
  (forall i, (i < length ps)%nat -> nz i w = nz i u + nz i v) -> powProd ps w = powProd ps u * powProd ps v.
Proof.
  induction ps as [|p ps IH]; intros w u v Hu Hv H; [reflexivity|].
  rewrite !powProd_cons. rewrite (H 0%nat) by (cbn; lia). rewrite Z.pow_add_r by (apply Hu || apply Hv).
  rewrite (IH (tl w) (tl u) (tl v)); [ring|now apply nonneg_tl..|].
  intros i Hi. rewrite !nz_tl. apply H. cbn; lia.
Qed.

Lemma powProd_pos : forall ps v, (forall p, In p ps -> 2 <= p) -> nonneg v -> 0 < powProd ps v.
Proof.
  induction ps as [|p ps IH]; intros v Hp Hv; [reflexivity|].
  rewrite powProd_cons. apply Z.mul_pos_pos.
  - apply Z.pow_pos_nonneg; [specialize (Hp p (or_introl eq_refl)); lia|apply Hv].
  - apply IH; [intros q Hq; apply Hp; now right|now apply nonneg_tl].
Qed.

(** ** the vector operations, pointwise *)
Lemma nz_bump : forall j v i, nz i (bump j v) = nz i v + (if Nat.eqb i j then 1 else 0).
Proof.
  induction j; intros [|x v] [|i]; cbn [bump nth Nat.eqb]; try lia.
  - destruct i; lia.
  - rewrite IHj. destruct i; cbn [nth]; lia.
  - rewrite IHj. lia.
Qed.

Lemma nz_addVec : forall a b i, nz i (addVec a b) = nz i a + nz i b.
Proof.
  induction a; intros [|y b] [|i]; cbn [addVec nth]; try lia. apply IHa.
Qed.

Lemma nz_removeZeros : forall v i, nz i (removeZeros v) = nz i v.
Proof.
  induction v as [|x v IH]; intros i; [reflexivity|]. cbn [removeZeros].
  destruct (removeZeros v) eqn:E.
  - destruct (Z.eqb_spec x 0) as [->|].
    + destruct i; cbn [nth]; [reflexivity|]. rewrite <- IH. destruct i; reflexivity.
    + destruct i; cbn [nth]; [reflexivity|]. rewrite <- IH. destruct i; reflexivity.
  - destruct i; cbn [nth]; [reflexivity|]. rewrite <- IH. reflexivity.
Qed.

Lemma removeZeros_last : forall v, removeZeros v = [] \/ nz (length (removeZeros v) - 1) (removeZeros v) <> 0.
Proof.
  induction v as [|x v IH]; [now left|]. cbn [removeZeros]. destruct (removeZeros v) as [|y w] eqn:E.
  - destruct (Z.eqb_spec x 0); [now left|right]. cbn. assumption.
  - right. destruct IH as [IH|IH]; [discriminate|]. cbn [length] in *.
    replace (S (S (length w)) - 1)%nat with (S (S (length w) - 1))%nat by lia. cbn [nth]. exact IH.
Qed.

Lemma cancel_nth : forall n d n' d' i, nonneg n -> nonneg d -> cancel n d = (n', d') ->
  nz i n' - nz i d' = nz i n - nz i d /\ 0 <= nz i n' /\ 0 <= nz i d' /\ (nz i n' = 0 \/ nz i d' = 0).
Proof.
  induction n as [|a n IH]; intros d n' d' i Hn Hd H.
  - cbn [cancel] in H. injection H as <- <-.
    pose proof (Hd i). destruct i; cbn [nth]; lia.
  - destruct d as [|b d].
    + cbn [cancel] in H. injection H as <- <-. pose proof (Hn i). destruct i; cbn [nth] in *; lia.
    + cbn [cancel] in H. destruct (cancel n d) as [n'' d''] eqn:E.
      pose proof (Hn 0%nat) as H0. pose proof (Hd 0%nat) as H1. cbn [nth] in H0, H1.
      assert (forall i, nz i n'' - nz i d'' = nz i n - nz i d /\ 0 <= nz i n'' /\ 0 <= nz i d''
                        /\ (nz i n'' = 0 \/ nz i d'' = 0)) as IH'.
      { intros j. apply (IH d n'' d'' j); auto.
        - intros k. apply (Hn (S k)).
        - intros k. apply (Hd (S k)). }
      destruct i as [|i].
      * destruct (Z.eqb_spec a 0) as [Ea|Ea], (Z.eqb_spec b 0) as [Eb|Eb]; cbn [negb andb] in H;
          [..|destruct (Z.gtb_spec b a)]; injection H as <- <-; cbn [nth]; lia.
      * specialize (IH' i).
        destruct (negb (a =? 0) && negb (b =? 0)); [destruct (b >? a)|]; injection H as <- <-; cbn [nth]; exact IH'.
Qed.

Lemma nz_minVec : forall a b i, nonneg a -> nonneg b -> nz i (minVec a b) = Z.min (nz i a) (nz i b).
Proof.
  induction a as [|x a IH]; intros [|y b] i Ha Hb.
  - cbn [minVec]. destruct i; reflexivity.
  - cbn [minVec]. pose proof (Hb i). destruct i; cbn [nth] in *; lia.
  - cbn [minVec]. pose proof (Ha i). destruct i; cbn [nth] in *; lia.
  - cbn [minVec]. destruct i; cbn [nth].
    + destruct (Z.ltb_spec y x); lia.
    + apply IH; intros k; [apply (Ha (S k))|apply (Hb (S k))].
Qed.

Lemma numberOf_spec : forall v ps, nonneg v -> covers ps v -> numberOf ps v = Some (powProd ps v).
Proof.
  induction v as [|e v IH]; intros ps Hn Hc.
  - cbn [numberOf]. now rewrite powProd_nil.
  - assert (nonneg v) as Hn' by (intros i; apply (Hn (S i))).
    pose proof (Hn 0%nat) as H0. cbn [nth] in H0.
    destruct ps as [|p ps].
    + cbn [numberOf]. pose proof (Hc 0%nat ltac:(cbn; lia)) as E. cbn [nth] in E. subst e. cbn [Z.leb Z.compare].
      rewrite IH; [reflexivity|assumption|]. intros i _. apply (Hc (S i)). cbn; lia.
    + cbn [numberOf powProd]. rewrite IH; [|assumption|].
      * destruct (Z.leb_spec e 0); [|reflexivity]. replace e with 0 by lia. f_equal. cbn [Z.pow]. ring.
      * intros i Hi. apply (Hc (S i)). cbn; lia.
Qed.

(** ** factorisation *)
Lemma powProd_bump : forall ps j v, nonneg v -> (j < length ps)%nat ->
  powProd ps (bump j v) = nth j ps 1 * powProd ps v.
Proof.
  intros ps j v Hv Hj.
  assert (powProd ps (bump j []) = nth j ps 1) as E.
  { clear v Hv. revert ps Hj. induction j; intros [|p ps] Hj; cbn [length] in Hj; try lia.
    - cbn [bump powProd nth]. rewrite powProd_nil. ring.
    - cbn [bump powProd nth]. rewrite IHj by lia. ring. }
  rewrite <- E. apply powProd_add; auto.
  - intros i. rewrite nz_bump. destruct (Nat.eqb i j); destruct i; cbn [nth]; lia.
  - intros i Hi. rewrite !nz_bump. replace (nz i []) with 0 by (destruct i; reflexivity). lia.
Qed.

Lemma nonneg_bump : forall j v, nonneg v -> nonneg (bump j v).
Proof. intros j v H i. rewrite nz_bump. specialize (H i). destruct (Nat.eqb i j); lia. Qed.

Lemma covers_bump : forall ps j v, covers ps v -> (j < length ps)%nat -> covers ps (bump j v).
Proof.
  intros ps j v H Hj i Hi. rewrite nz_bump, H by assumption.
  destruct (Nat.eqb_spec i j); lia.
Qed.

Lemma divOut_spec : forall fuel ps j p rest v rest' v',
  nth_error ps j = Some p -> 2 <= p -> 0 < rest -> nonneg v -> covers ps v ->
  divOut fuel j p rest v = (rest', v') ->
  0 < rest' /\ nonneg v' /\ covers ps v' /\ powProd ps v' * rest' = powProd ps v * rest /\
  (exists k, 0 <= k /\ rest = p ^ k * rest') /\
  (Z.log2 rest < Z.of_nat fuel -> rest' mod p <> 0).
Proof.
  induction fuel; intros ps j p rest v rest' v' Hj Hp Hr Hn Hc H; cbn [divOut] in H.
  - injection H as <- <-. split; [assumption|]. split; [assumption|]. split; [assumption|]. split; [reflexivity|].
    split; [exists 0; split; [lia|cbn [Z.pow]; ring]|]. pose proof (Z.log2_nonneg rest). lia.
  - assert (j < length ps)%nat as Lj by (apply nth_error_Some; congruence).
    destruct (Z.eqb_spec (rest mod p) 0) as [E|E].
    + pose proof (Z.div_mod rest p ltac:(lia)) as D. rewrite E, Z.add_0_r in D.
      assert (0 < rest / p) as P by nia.
      destruct (IHfuel ps j p (rest / p) (bump j v) rest' v') as (A & B & C & F & [k [Kp K]] & G); auto.
      * now apply nonneg_bump.
      * now apply covers_bump.
      * split; [assumption|]. split; [assumption|]. split; [assumption|]. split; [|split].
        -- rewrite F, powProd_bump by assumption.
           rewrite (nth_error_nth _ _ 1 Hj). rewrite D at 2. ring.
        -- exists (k + 1). split; [lia|]. rewrite D, K, Z.pow_add_r, Z.pow_1_r by lia. ring.
        -- intros L. apply G.
           assert (rest / p <= rest / 2) as Hle by (apply Z.div_le_compat_l; lia).
           assert (2 <= rest) by nia.
           apply Z.log2_le_mono in Hle. rewrite <- Z.div2_div in Hle.
           assert (Z.log2 (Z.div2 rest) = Z.log2 rest - 1) as E2.
           { rewrite Z.div2_spec, Z.log2_shiftr by lia.
             pose proof (Z.log2_le_mono 2 rest ltac:(lia)). change (Z.log2 2) with 1 in *. lia. }
           lia.
    + injection H as <- <-. split; [assumption|]. split; [assumption|]. split; [assumption|]. split; [reflexivity|].
      split; [exists 0; split; [lia|cbn [Z.pow]; ring]|]. auto.
Qed.

Lemma factorLoop_spec : forall ps' pre rest v r, (forall p, In p ps' -> 2 <= p) ->
  0 < rest -> nonneg v -> covers (pre ++ ps') v ->
  factorLoop ps' (length pre) rest v = Some r ->
  nonneg r /\ covers (pre ++ ps') r /\ powProd (pre ++ ps') r = powProd (pre ++ ps') v * rest.
Proof.
  induction ps' as [|p ps' IH]; intros pre rest v r Hp Hr Hn Hc H.
  - cbn [factorLoop] in H. destruct (Z.eqb_spec rest 1) as [->|]; [|discriminate].
    injection H as <-. split; [assumption|]. split; [assumption|]. ring.
  - cbn [factorLoop] in H. destruct (Z.eqb_spec rest 1) as [->|].
    + injection H as <-. split; [assumption|]. split; [assumption|]. ring.
    + destruct (divOut (S (Z.to_nat (Z.log2 rest))) (length pre) p rest v) as [rest' v'] eqn:E.
      assert (nth_error (pre ++ p :: ps') (length pre) = Some p) as Hj.
      { rewrite nth_error_app2, Nat.sub_diag by lia. reflexivity. }
      eapply divOut_spec in E; eauto; [|apply Hp; now left].
      destruct E as (A & B & C & F & _).
      replace (pre ++ p :: ps') with ((pre ++ [p]) ++ ps') in * by (rewrite <- app_assoc; reflexivity).
      replace (S (length pre)) with (length (pre ++ [p])) in H by (rewrite app_length; cbn; lia).
      apply IH in H; auto; [|intros q Hq; apply Hp; now right].
      destruct H as (X & Y & Z). split; [assumption|]. split; [assumption|]. now rewrite Z, F.
Qed.

Lemma factorLoop_total : forall ps' j rest v, (forall p, In p ps' -> prime p) -> 0 < rest ->
  (forall q, prime q -> (q | rest) -> In q ps') -> exists r, factorLoop ps' j rest v = Some r.
Proof.
  induction ps' as [|p ps' IH]; intros j rest v Hp Hr Hq.
  - cbn [factorLoop]. destruct (Z.eqb_spec rest 1); [eauto|]. exfalso.
    destruct (has_prime_divisor_nat (Z.to_nat rest) rest) as [q [P D]]; [lia|lia|]. exact (Hq q P D).
  - cbn [factorLoop]. destruct (Z.eqb_spec rest 1); [eauto|].
    destruct (divOut (S (Z.to_nat (Z.log2 rest))) j p rest v) as [rest' v'] eqn:E.
    assert (0 < rest' /\ (exists k, 0 <= k /\ rest = p ^ k * rest') /\ rest' mod p <> 0) as (A & [k [Kp K]] & M).
    { clear IH. pose proof (prime_ge_2 p (Hp p (or_introl eq_refl))) as P2.
      assert (forall fuel rest v rest' v', 0 < rest -> divOut fuel j p rest v = (rest', v') ->
              0 < rest' /\ (exists k, 0 <= k /\ rest = p ^ k * rest') /\ (Z.log2 rest < Z.of_nat fuel -> rest' mod p <> 0)) as G.
      { clear - P2. induction fuel; intros rest v rest' v' Hr H; cbn [divOut] in H.
        - injection H as <- <-. split; [assumption|]. split; [exists 0; split; [lia|cbn [Z.pow]; ring]|].
          pose proof (Z.log2_nonneg rest). lia.
        - destruct (Z.eqb_spec (rest mod p) 0) as [E|E].
          + pose proof (Z.div_mod rest p ltac:(lia)) as D. rewrite E, Z.add_0_r in D.
            assert (0 < rest / p) as P by nia.
            apply IHfuel in H; [|assumption]. destruct H as (A & [k [Kp K]] & M). split; [assumption|]. split.
            * exists (k + 1). split; [lia|]. rewrite D, K, Z.pow_add_r, Z.pow_1_r by lia. ring.
            * intros L. apply M.
              assert (rest / p <= rest / 2) as Hle by (apply Z.div_le_compat_l; lia).
              assert (2 <= rest) by nia.
              apply Z.log2_le_mono in Hle. rewrite <- Z.div2_div in Hle.
              assert (Z.log2 (Z.div2 rest) = Z.log2 rest - 1) as E2.
              { rewrite Z.div2_spec, Z.log2_shiftr by lia.
                pose proof (Z.log2_le_mono 2 rest ltac:(lia)). change (Z.log2 2) with 1 in *. lia. }
              lia.
          + injection H as <- <-. split; [assumption|]. split; [exists 0; split; [lia|cbn [Z.pow]; ring]|]. auto. }
      apply G in E; [|assumption]. destruct E as (A & B & C). split; [assumption|]. split; [assumption|]. apply C. lia. }
    apply IH; auto.
    + intros q Hin. apply Hp. now right.
    + intros q Pq Dq.
      assert (In q (p :: ps')) as [<-|]; [|exfalso|assumption].
      * apply Hq; auto. rewrite K. now apply Z.divide_mul_r.
      * apply M. apply Z.mod_divide; [|assumption]. pose proof (prime_ge_2 p Pq). lia.
Qed.

(** ** unique factorisation *)
Lemma prime_divides_power : forall p q n, prime p -> prime q -> 0 <= n -> (p | q ^ n) -> p = q.
Proof.
  intros p q n Pp Pq Hn. pattern n. apply natlike_ind; [| |assumption].
  - intros D. cbn [Z.pow] in D. apply Z.divide_1_r_nonneg in D; pose proof (prime_ge_2 p Pp); lia.
  - intros m Hm IH D. rewrite Z.pow_succ_r in D by assumption. apply prime_mult in D; auto.
    destruct D as [D|D]; [|auto]. now apply prime_div_prime.
Qed.

Lemma not_divides_powProd : forall ps v p, prime p -> (forall q, In q ps -> prime q) -> ~ In p ps -> nonneg v ->
  ~ (p | powProd ps v).
Proof.
  induction ps as [|q ps IH]; intros v p Pp Hps Hni Hv D.
  - cbn [powProd] in D. apply Z.divide_1_r_nonneg in D; pose proof (prime_ge_2 p Pp); lia.
  - rewrite powProd_cons in D. apply prime_mult in D; auto. destruct D as [D|D].
    + assert (p = q).
      { apply (prime_divides_power p q (nz 0 v)); auto. apply Hps; now left. }
      subst. apply Hni. now left.
    + revert D. apply IH; auto.
      * intros r Hr. apply Hps. now right.
      * intros Hr. apply Hni. now right.
      * now apply nonneg_tl.
Qed.

Lemma prime_power_cancel : forall p a b A B, prime p -> 0 <= a -> 0 <= b -> ~ (p | A) -> ~ (p | B) ->
  p ^ a * A = p ^ b * B -> a = b /\ A = B.
Proof.
  assert (forall p a b A B, prime p -> 0 <= a -> 0 <= b -> ~ (p | B) -> p ^ a * A = p ^ b * B -> a <= b) as W.
  { intros p a b A B Pp Ha Hb NB E. destruct (Z_le_gt_dec a b); auto. exfalso. apply NB.
    pose proof (prime_ge_2 p Pp).
    exists (p ^ (a - b - 1) * A).
    apply (Z.mul_cancel_l _ _ (p ^ b)); [apply Z.pow_nonzero; lia|].
    rewrite <- E. replace a with (b + (a - b - 1) + 1) at 1 by lia.
    rewrite !Z.pow_add_r, Z.pow_1_r by lia. ring. }
  intros p a b A B Pp Ha Hb NA NB E.
  assert (a = b) as <-.
  { apply Z.le_antisymm; [apply (W p a b A B)|apply (W p b a B A)]; auto. }
  split; [reflexivity|]. apply (Z.mul_cancel_l _ _ (p ^ a)); auto.
  apply Z.pow_nonzero; pose proof (prime_ge_2 p Pp); lia.
Qed.

Lemma unique_factorisation : forall ps u v, prime_list ps -> nonneg u -> nonneg v ->
  powProd ps u = powProd ps v -> forall i, (i < length ps)%nat -> nz i u = nz i v.
Proof.
  induction ps as [|p ps IH]; intros u v [ND PP] Hu Hv E i Hi; [cbn in Hi; lia|].
  rewrite !powProd_cons in E. inversion ND as [|? ? Nin ND']; subst.
  assert (forall q, In q ps -> prime q) as PP' by (intros q Hq; apply PP; now right).
  apply prime_power_cancel in E; auto.
  - destruct E as [E0 E1]. destruct i as [|i]; [assumption|].
    rewrite <- !nz_tl. apply (IH (tl u) (tl v)); auto using nonneg_tl; [split; auto|cbn in Hi; lia].
  - apply PP; now left.
  - apply not_divides_powProd; auto using nonneg_tl. apply PP; now left.
  - apply not_divides_powProd; auto using nonneg_tl. apply PP; now left.
Qed.
