(** Lemmas behind C15. *)
From Coq Require Import ZArith Znumtheory List Bool Lia Factorial.
From Verif Require Import PrimeModel PrimeSpec.
Import ListNotations.
Open Scope Z_scope.

Lemma upto_In : forall lo hi x, In x (upto lo hi) <-> lo <= x <= hi.
Proof.
  intros. unfold upto. rewrite in_map_iff. split.
  - intros [k [E H]]. apply in_seq in H. lia.
  - intros H. exists (Z.to_nat (x - lo)). split; [lia|]. apply in_seq. lia.
Qed.

Lemma isPrime_spec : forall n, 2 <= n -> (isPrimeNumber n = true <-> prime n).
Proof.
  intros n Hn. unfold isPrimeNumber. destruct (Z.eqb_spec n 2) as [->|N2].
  - split; auto using prime_2.
  - rewrite forallb_forall. split.
    + intros H. apply prime_alt. split; [lia|]. intros d Hd [q Hq].
      assert (exists e, 2 <= e <= Z.sqrt n /\ n mod e = 0) as [e [He Hm]].
      { assert (0 < q) by nia.
        destruct (Z_le_gt_dec d q) as [L|L].
        - exists d. split.
          + split; [lia|]. apply Z.sqrt_le_square; nia.
          + rewrite Hq. apply Z.mod_mul. lia.
        - exists q. assert (q <> 1) by (intros ->; lia). split.
          + split; [lia|]. apply Z.sqrt_le_square; nia.
          + rewrite Hq, Z.mul_comm. apply Z.mod_mul. lia. }
      specialize (H e). rewrite upto_In in H.
      assert (negb (n mod e =? 0) = true) as H' by (apply H; lia).
      rewrite Hm in H'. discriminate.
    + intros Hp x Hx. apply upto_In in Hx. apply negb_true_iff, Z.eqb_neq. intros Hm.
      apply prime_alt in Hp. destruct Hp as [_ Hp].
      assert (Z.sqrt n < n) by (apply Z.sqrt_lt_lin; lia).
      apply (Hp x); [lia|]. apply Z.mod_divide; [lia|assumption].
Qed.

(** ** Euclid: there is a prime above every bound. *)

Lemma has_prime_divisor_nat : forall m n, (Z.to_nat n <= m)%nat -> 2 <= n -> exists p, prime p /\ (p | n).
Proof.
  induction m; intros n Hm Hn; [lia|].
  destruct (prime_dec n) as [P|P].
  - exists n. split; auto. exists 1; lia.
  - apply not_prime_divide in P; [|lia]. destruct P as [d [Hd D]].
    destruct (IHm d) as [p [Pp Dp]]; [lia|lia|]. exists p. split; auto. eapply Z.divide_trans; eauto.
Qed.

Lemma fact_divide : forall n k, (1 <= k <= n)%nat -> (Z.of_nat k | Z.of_nat (fact n)).
Proof.
  induction n; intros k H; [lia|].
  cbn [fact]. destruct (Nat.eq_dec k (S n)) as [->|].
  - exists (Z.of_nat (fact n)). rewrite <- Nat2Z.inj_mul. f_equal. cbn [Nat.mul]. lia.
  - destruct (IHn k) as [q Hq]; [lia|]. exists (Z.of_nat (S n) * q).
    replace (fact n + n * fact n)%nat with (S n * fact n)%nat by (cbn [Nat.mul]; lia).
    rewrite Nat2Z.inj_mul, Hq. ring.
Qed.

Lemma prime_above : forall N : Z, exists p, prime p /\ N <= p.
Proof.
  intros N. set (n := Z.to_nat N).
  destruct (has_prime_divisor_nat (Z.to_nat (Z.of_nat (fact n) + 1)) (Z.of_nat (fact n) + 1)) as [p [Pp D]].
  - lia.
  - pose proof (lt_O_fact n). lia.
  - exists p. split; auto. destruct (Z_le_gt_dec N p) as [|G]; [assumption|].
    exfalso. pose proof (prime_ge_2 p Pp).
    assert (p | Z.of_nat (fact n)) as Df.
    { replace p with (Z.of_nat (Z.to_nat p)) by lia. apply fact_divide. lia. }
    assert (p | 1) as D1.
    { replace 1 with (Z.of_nat (fact n) + 1 - Z.of_nat (fact n)) by ring. apply Z.divide_sub_r; assumption. }
    apply Z.divide_1_r_nonneg in D1; lia.
Qed.

(** ** The search loop *)
Definition sinv (entry : Z) (found : list Z) : Prop :=
  3 <= entry /\ Z.odd entry = true /\
  (forall i j : nat, (i < j < length found)%nat -> nth i found 0 < nth j found 0) /\
  (forall q, In q found <-> prime q /\ q < entry).

Lemma sinv_start : sinv 3 [2].
Proof.
  split; [lia|]. split; [reflexivity|]. split.
  - cbn [length]; intros; lia.
  - intros q. cbn [In]. split.
    + intros [<-|[]]. split; [apply prime_2|lia].
    + intros [P L]. pose proof (prime_ge_2 q P). lia.
Qed.

Lemma even_not_prime : forall n, 2 < n -> Z.even n = true -> ~ prime n.
Proof.
  intros n Hn He P. apply Z.even_spec in He. destruct He as [k Hk].
  apply prime_alt in P. destruct P as [_ P]. apply (P 2); [lia|]. exists k. lia.
Qed.

Lemma sinv_step : forall entry found, sinv entry found ->
  sinv (entry + 2) (if isPrimeNumber entry then found ++ [entry] else found).
Proof.
  intros entry found (G & O & S & I).
  assert (isPrimeNumber entry = true <-> prime entry) as PS by (apply isPrime_spec; lia).
  split; [lia|]. split.
  { rewrite Z.odd_add. rewrite O. reflexivity. }
  assert (~ prime (entry + 1)) as NE.
  { apply even_not_prime; [lia|]. rewrite Z.even_add. rewrite <- Z.negb_odd, O. reflexivity. }
  destruct (isPrimeNumber entry) eqn:E.
  - split.
    + intros i j H. rewrite app_length in H. cbn [length] in H.
      destruct (Nat.eq_dec j (length found)) as [->|].
      * rewrite app_nth1 by lia. rewrite app_nth2, Nat.sub_diag by lia. cbn [nth].
        apply (I (nth i found 0)). apply nth_In. lia.
      * rewrite !app_nth1 by lia. apply S. lia.
    + intros q. rewrite in_app_iff, I. cbn [In]. split.
      * intros [[P L]|[<-|[]]]; split; auto; try lia. now apply PS.
      * intros [P L]. destruct (Z.eq_dec q entry); [auto|].
        destruct (Z.eq_dec q (entry + 1)) as [->|]; [contradiction|]. left. split; [auto|lia].
  - split; [assumption|].
    intros q. rewrite I. split.
    + intros [P L]; split; auto; lia.
    + intros [P L]. split; auto.
      destruct (Z.eq_dec q entry) as [->|]; [apply PS in P; discriminate|].
      destruct (Z.eq_dec q (entry + 1)) as [->|]; [contradiction|]. lia.
Qed.

Lemma searchLoop_correct : forall fuel size entry found r,
  sinv entry found -> searchLoop fuel size entry found = Some r ->
  (exists e, sinv e r) /\ (length found <= size -> length r = size)%nat /\ (size <= length found -> r = found)%nat.
Proof.
  induction fuel; intros size entry found r I H; [discriminate|].
  cbn [searchLoop] in H. destruct (Nat.ltb_spec (length found) size) as [L|L].
  - apply IHfuel in H; [|now apply sinv_step]. destruct H as (A & B & C). split; [assumption|].
    split; [intros _; apply B|lia].
    destruct (isPrimeNumber entry); [rewrite app_length; cbn [length]|]; lia.
  - injection H as <-. split; [eauto|]. split; [lia|auto].
Qed.

Lemma searchLoop_ends_aux : forall need k entry found size,
  sinv entry found -> (size <= length found + need)%nat -> (need = O \/ prime (entry + 2 * Z.of_nat k)) ->
  exists fuel r, searchLoop fuel size entry found = Some r.
Proof.
  induction need as [|need IHn].
  - intros k entry found size I L _. exists 1%nat, found. cbn [searchLoop].
    destruct (Nat.ltb_spec (length found) size); [lia|reflexivity].
  - assert (forall entry found size, sinv entry found -> (size <= length found + need)%nat ->
              exists fuel r, searchLoop fuel size entry found = Some r) as IH.
    { intros entry found size I L. destruct (prime_above entry) as [p [P G]].
      assert (Z.odd p = true) as Op.
      { rewrite <- Z.negb_even. apply negb_true_iff. destruct (Z.even p) eqn:E; auto. exfalso.
        destruct I as (G3 & _). apply (even_not_prime p); auto; lia. }
      destruct I as (G3 & Oe & I).
      assert (exists m, p = entry + 2 * m) as [m Hm].
      { apply Z.odd_spec in Op, Oe. destruct Op as [a Ha], Oe as [b Hb]. exists (a - b). lia. }
      apply (IHn (Z.to_nat m)); [split; auto|assumption|]. right. rewrite Z2Nat.id by lia. now rewrite <- Hm. }
    induction k as [|k IHk]; intros entry found size I L HP.
    + destruct HP as [HP|HP]; [lia|].
      replace (entry + 2 * Z.of_nat 0) with entry in HP by lia.
      destruct (IH (entry + 2) (found ++ [entry]) size) as [f [r Hr]].
      * pose proof (sinv_step _ _ I) as S. assert (isPrimeNumber entry = true) as E.
        { apply isPrime_spec; [destruct I; lia|assumption]. }
        now rewrite E in S.
      * rewrite app_length; cbn [length]; lia.
      * destruct (Nat.ltb_spec (length found) size) as [L'|L'].
        -- exists (S f), r. cbn [searchLoop]. rewrite (proj2 (Nat.ltb_lt _ _) L').
           assert (isPrimeNumber entry = true) as -> by (apply isPrime_spec; [destruct I; lia|assumption]). exact Hr.
        -- exists 1%nat, found. cbn [searchLoop]. now rewrite (proj2 (Nat.ltb_ge _ _) L').
    + destruct HP as [HP|HP]; [lia|].
      destruct (Nat.ltb_spec (length found) size) as [L'|L'].
      * destruct (isPrimeNumber entry) eqn:E.
        -- destruct (IH (entry + 2) (found ++ [entry]) size) as [f [r Hr]].
           ++ pose proof (sinv_step _ _ I) as S. now rewrite E in S.
           ++ rewrite app_length; cbn [length]; lia.
           ++ exists (S f), r. cbn [searchLoop]. rewrite (proj2 (Nat.ltb_lt _ _) L'), E. exact Hr.
        -- destruct (IHk (entry + 2) found size) as [f [r Hr]].
           ++ pose proof (sinv_step _ _ I) as S. now rewrite E in S.
           ++ assumption.
           ++ right. replace (entry + 2 + 2 * Z.of_nat k) with (entry + 2 * Z.of_nat (S k)) by lia. assumption.
           ++ exists (S f), r. cbn [searchLoop]. rewrite (proj2 (Nat.ltb_lt _ _) L'), E. exact Hr.
      * exists 1%nat, found. cbn [searchLoop]. now rewrite (proj2 (Nat.ltb_ge _ _) L').
Qed.

Lemma odd_prime_shift : forall entry, 3 <= entry -> Z.odd entry = true ->
  exists k, prime (entry + 2 * Z.of_nat k).
Proof.
  intros entry G Oe. destruct (prime_above entry) as [p [P L]].
  assert (Z.odd p = true) as Op.
  { rewrite <- Z.negb_even. apply negb_true_iff. destruct (Z.even p) eqn:E; auto. exfalso.
    apply (even_not_prime p); auto; lia. }
  apply Z.odd_spec in Op, Oe. destruct Op as [a Ha], Oe as [b Hb]. exists (Z.to_nat (a - b)).
  rewrite Z2Nat.id by lia. replace (entry + 2 * (a - b)) with p by lia. assumption.
Qed.

Lemma searchLoop_ends : forall entry found size, sinv entry found ->
  exists fuel r, searchLoop fuel size entry found = Some r.
Proof.
  intros entry found size I.
  destruct (odd_prime_shift entry) as [k Hk]; [destruct I as (A & B & _); auto..|].
  apply (searchLoop_ends_aux size k entry found size I); [lia|auto].
Qed.

Lemma sinv_first_primes : forall e l, sinv e l -> first_primes l.
Proof.
  intros e l (_ & _ & S & I). split; [exact S|]. split.
  - intros q H. now apply I.
  - intros p q H P L. apply I. split; auto. apply I in H. lia.
Qed.

(** ** first_primes and is_nth_prime *)
Lemma sorted_NoDup : forall l : list Z,
  (forall i j : nat, (i < j < length l)%nat -> nth i l 0 < nth j l 0) -> NoDup l.
Proof.
  intros l S. apply (NoDup_nth l 0). intros i j Hi Hj E.
  destruct (Nat.lt_trichotomy i j) as [L|[L|L]]; auto.
  - specialize (S i j). lia.
  - specialize (S j i). lia.
Qed.

Lemma firstn_nth_lt : forall (l : list Z) i j d, (j < i)%nat -> nth j (firstn i l) d = nth j l d.
Proof.
  induction l; intros [|i] [|j] d H; cbn [firstn nth]; try reflexivity; try lia. apply IHl. lia.
Qed.

Lemma first_primes_nth : forall l i, first_primes l -> (i < length l)%nat -> is_nth_prime i (nth i l 0).
Proof.
  intros l i (S & P & C) Hi. split.
  - apply P. now apply nth_In.
  - exists (firstn i l).
    assert (NoDup l) as ND by now apply sorted_NoDup.
    split; [|split].
    + apply (NoDup_nth _ 0). rewrite firstn_length_le by lia. intros a b Ha Hb.
      rewrite !firstn_nth_lt by assumption. apply (NoDup_nth l 0); auto; lia.
    + apply firstn_length_le. lia.
    + intros q. split.
      * intros H. apply In_nth with (d := 0) in H. destruct H as [j [Hj E]].
        rewrite firstn_length_le in Hj by lia. rewrite firstn_nth_lt in E by assumption. subst q.
        split; [apply P, nth_In; lia|]. apply S. lia.
      * intros [Pq L]. assert (In q l) as H by (apply (C q (nth i l 0)); auto; now apply nth_In).
        apply In_nth with (d := 0) in H. destruct H as [j [Hj E]].
        assert (j < i)%nat.
        { destruct (Nat.lt_trichotomy j i) as [|[->|G]]; auto; [lia|].
          specialize (S i j). lia. }
        rewrite <- E, <- (firstn_nth_lt l i j 0) by assumption.
        apply nth_In. rewrite firstn_length_le; lia.
Qed.

Lemma is_nth_prime_unique : forall i p q, is_nth_prime i p -> is_nth_prime i q -> p = q.
Proof.
  assert (forall i p q, is_nth_prime i p -> is_nth_prime i q -> ~ p < q) as H.
  { intros i p q [Pp [b1 [N1 [L1 I1]]]] [Pq [b2 [N2 [L2 I2]]]] L.
    assert (incl (p :: b1) b2) as Inc.
    { intros x [<-|Hx]; apply I2; [auto|]. apply I1 in Hx. split; [tauto|lia]. }
    apply NoDup_incl_length in Inc.
    - cbn [length] in Inc. lia.
    - constructor; auto. intros Hp. apply I1 in Hp. lia. }
  intros i p q A B. pose proof (H i p q A B). pose proof (H i q p B A). lia.
Qed.

(** ** The cache state *)
Definition tree_ok (t : tree) : Prop := branchOk t = true /\ first_primes (entries t).

Definition file_ok (f : fileContent) : Prop :=
  match f with Some (Some t) => tree_ok t | _ => True end.

Definition prefix_of_primes (l : list Z) : Prop := forall i, (i < length l)%nat -> is_nth_prime i (nth i l 0).

Definition pst_ok (s : pstate) : Prop :=
  prefix_of_primes (cache s) /\ match cacheTree s with Some t => tree_ok t | None => True end.

Lemma prefix_firstn : forall t n, tree_ok t -> (n <= length (entries t))%nat ->
  prefix_of_primes (map (getEntry t) (seq 0 n)).
Proof.
  intros t n [B F] L i Hi. rewrite map_length, seq_length in Hi.
  rewrite (nth_indep _ 0 (getEntry t 0)) by (rewrite map_length, seq_length; lia).
  rewrite map_nth, seq_nth by lia. unfold getEntry. rewrite B. apply first_primes_nth; [assumption|cbn; lia].
Qed.

Lemma prefix_extend : forall c t n, prefix_of_primes c -> tree_ok t -> (n <= length (entries t))%nat ->
  prefix_of_primes (c ++ map (getEntry t) (seq (length c) (n - length c))).
Proof.
  intros c t n P [B F] L i Hi. rewrite app_length, map_length, seq_length in Hi.
  destruct (Nat.lt_ge_cases i (length c)).
  - rewrite app_nth1 by assumption. now apply P.
  - rewrite app_nth2 by assumption.
    rewrite (nth_indep _ 0 (getEntry t 0)) by (rewrite map_length, seq_length; lia).
    rewrite map_nth, seq_nth by lia. unfold getEntry. rewrite B.
    replace (length c + (i - length c))%nat with i by lia. apply first_primes_nth; [assumption|lia].
Qed.

Lemma readCacheFile_ok : forall bs f s, file_ok f -> pst_ok s -> pst_ok (fst (readCacheFile bs f s)).
Proof.
  intros bs f s Hf Hs. unfold readCacheFile.
  destruct (cacheFile s || _ || _); [assumption|].
  destruct f as [[t|]|]; cbn [fst]; [|destruct Hs; split; [assumption|exact I]|assumption].
  destruct (Nat.eqb_spec (length (entries t)) 0); cbn [fst]; [destruct Hs; split; assumption|].
  destruct (branchOk t) eqn:B; cbn [negb fst]; [|destruct Hs; split; assumption].
  split; cbn [cache cacheTree]; [|assumption]. apply prefix_firstn; [assumption|lia].
Qed.

Lemma primeNumber_ok : forall bs i s s' v, (0 < bs)%nat -> pst_ok s -> primeNumber bs i s = Some (s', v) ->
  pst_ok s' /\ is_nth_prime i v.
Proof.
  intros bs i s s' v Hb [Hp Ht] H. unfold primeNumber in H.
  destruct (Nat.leb_spec (length (cache s)) i) as [L|L].
  - destruct (cacheTree s) as [t|] eqn:T; [|discriminate].
    destruct (Nat.leb_spec (length (entries t)) ((i / bs + 1) * bs)) as [L1|L1].
    + destruct (Nat.leb_spec (length (entries t)) i) as [L2|L2]; [discriminate|].
      injection H as <- <-. pose proof (prefix_extend (cache s) t (length (entries t)) Hp Ht (le_n _)) as P.
      split; [split; [exact P|cbn [cacheTree]; assumption]|].
      apply P. rewrite app_length, map_length, seq_length. lia.
    + injection H as <- <-.
      pose proof (prefix_extend (cache s) t ((i / bs + 1) * bs) Hp Ht ltac:(lia)) as P.
      split; [split; [exact P|cbn [cacheTree]; assumption]|].
      apply P. rewrite app_length, map_length, seq_length.
      pose proof (Nat.div_mod i bs ltac:(lia)). pose proof (Nat.mod_upper_bound i bs ltac:(lia)). nia.
  - injection H as <- <-. split; [split; assumption|]. now apply Hp.
Qed.

Lemma primeNumber_abort : forall bs i s, (0 < bs)%nat ->
  (primeNumber bs i s = None <->
   (length (cache s) <= i)%nat /\
   match cacheTree s with None => True | Some t => (length (entries t) <= i)%nat end).
Proof.
  intros bs i s Hb. unfold primeNumber.
  destruct (Nat.leb_spec (length (cache s)) i) as [L|L].
  - destruct (cacheTree s) as [t|]; [|tauto].
    destruct (Nat.leb_spec (length (entries t)) ((i / bs + 1) * bs)) as [L1|L1].
    + destruct (Nat.leb_spec (length (entries t)) i) as [L2|L2]; [tauto|].
      split; [discriminate|]. intros [_ ?]. lia.
    + split; [discriminate|]. intros [_ ?].
      pose proof (Nat.div_mod i bs ltac:(lia)). pose proof (Nat.mod_upper_bound i bs ltac:(lia)). nia.
  - split; [discriminate|]. intros [? _]. lia.
Qed.
