(** Property C15: the prime-number cache. *)
From Coq Require Import ZArith Znumtheory List Bool Lia.
From Verif Require Import PrimeModel PrimeSpec PrimeProofs.
Import ListNotations.
Open Scope Z_scope.

(** The primality test is exact for every number from 2 on. *)
Theorem C15_primality_test : forall n, 2 <= n -> (isPrimeNumber n = true <-> prime n).
Proof. exact isPrime_spec. Qed.

(** ... and accepts 1, which is not prime, while it rejects 0. *)
Theorem C15_primality_test_one_defect : isPrimeNumber 1 = true /\ ~ prime 1 /\ isPrimeNumber 0 = false.
Proof. split; [reflexivity|]. split; [exact not_prime_1|reflexivity]. Qed.

(** The generator always terminates, whatever cache size is requested. *)
Theorem C15_generation_terminates : forall n, exists fuel r, generateCache fuel n = Some r.
Proof. intros n. apply searchLoop_ends, sinv_start. Qed.

(** Whatever it writes is the list of the first n primes, in order, nothing else
    (for n = 0 the one entry 2 is still written). *)
Theorem C15_generated_cache : forall fuel n r, generateCache fuel n = Some r ->
  first_primes r /\ length r = Nat.max 1 n /\
  (forall i, (i < length r)%nat -> is_nth_prime i (nth i r 0)).
Proof.
  intros fuel n r H. apply searchLoop_correct in H; [|apply sinv_start].
  destruct H as ([e I] & A & B). cbn [length] in A, B.
  pose proof (sinv_first_primes _ _ I) as F. split; [assumption|]. split.
  - destruct n; [rewrite B; [reflexivity|lia]|rewrite A; lia].
  - intros i Hi. now apply first_primes_nth.
Qed.

(** The result does not depend on how long the search was allowed to run. *)
Theorem C15_generated_cache_unique : forall f1 f2 n r1 r2,
  generateCache f1 n = Some r1 -> generateCache f2 n = Some r2 -> r1 = r2.
Proof.
  intros f1 f2 n r1 r2 H1 H2. apply C15_generated_cache in H1, H2.
  destruct H1 as (_ & L1 & N1), H2 as (_ & L2 & N2).
  apply nth_ext with (d := 0) (d' := 0); [congruence|].
  intros i Hi. apply (is_nth_prime_unique i); [apply N1|apply N2]; lia.
Qed.

(** Reading: start from the emergency cache of the constructor; for every history of readCacheFile and
    primeNumber calls in which every file that can be read holds a generated cache, every value
    primeNumber(i) returns is the prime with index i. *)
Theorem C15_every_history_returns_the_right_prime :
  forall fuel0 c0, emergencyCache fuel0 = Some c0 ->
  forall bs calls, (0 < bs)%nat ->
  (forall t, In (CallRead (Some (Some t))) calls ->
             branchOk t = true /\ exists fuel n, generateCache fuel n = Some (entries t)) ->
  forall i v, In (RPrime i v) (runCalls bs calls (PState false None c0)) -> is_nth_prime i v.
Proof.
  intros fuel0 c0 H0 bs calls Hb Hfiles.
  assert (pst_ok (PState false None c0)) as Hs.
  { split; cbn [cache cacheTree]; [|exact I].
    apply searchLoop_correct in H0; [|apply sinv_start]. destruct H0 as ([e I] & _).
    intros j Hj. apply first_primes_nth; [now apply (sinv_first_primes e)|assumption]. }
  assert (forall f, In (CallRead f) calls -> file_ok f) as Hf.
  { intros [[t|]|] Hin; try exact I. destruct (Hfiles t Hin) as [B [fuel [n G]]].
    split; [assumption|]. now apply C15_generated_cache in G. }
  clear Hfiles H0. revert Hs Hf. generalize (PState false None c0) as s.
  induction calls as [|c calls IH]; intros s Hs Hf i v Hin; [contradiction|].
  destruct c as [f|j]; cbn [runCalls] in Hin.
  - pose proof (readCacheFile_ok bs f s (Hf f (or_introl eq_refl)) Hs) as Hs'.
    destruct (readCacheFile bs f s) as [s' ok]. cbn [In fst] in *. destruct Hin as [E|Hin]; [discriminate|].
    apply (IH s' Hs'); [intros g Hg; apply Hf; right; exact Hg|exact Hin].
  - destruct (primeNumber bs j s) as [[s' w]|] eqn:E.
    + destruct (primeNumber_ok _ _ _ _ _ Hb Hs E) as [Hs' Hw]. cbn [In] in Hin.
      destruct Hin as [Ei|Hin]; [injection Ei as <- <-; assumption|]. apply (IH s' Hs'); [intros g Hg; apply Hf; right; exact Hg|exact Hin].
    + cbn [In] in Hin. destruct Hin as [Ei|[]]; discriminate.
Qed.

(** Aborting happens exactly when the index is neither in the cache nor in the tree. *)
Theorem C15_abort_condition : forall bs i s, (0 < bs)%nat ->
  (primeNumber bs i s = None <->
   (length (cache s) <= i)%nat /\
   match cacheTree s with None => True | Some t => (length (entries t) <= i)%nat end).
Proof. exact primeNumber_abort. Qed.

(** A successful read makes primes below the number of entries available; a second read is refused and
    changes nothing. *)
Theorem C15_read_then_available : forall bs s t i, (0 < bs)%nat ->
  snd (readCacheFile bs (Some (Some t)) s) = true -> (i < length (entries t))%nat ->
  primeNumber bs i (fst (readCacheFile bs (Some (Some t)) s)) <> None.
Proof.
  intros bs s t i Hb H Hi C. apply primeNumber_abort in C; [|assumption].
  unfold readCacheFile in *. destruct (cacheFile s || _ || _); [discriminate|].
  destruct (Nat.eqb_spec (length (entries t)) 0); [discriminate|].
  destruct (branchOk t); cbn [negb fst snd cacheTree] in *; [lia|discriminate].
Qed.

Theorem C15_second_read_refused : forall bs s f g, snd (readCacheFile bs f s) = true ->
  readCacheFile bs g (fst (readCacheFile bs f s)) = (fst (readCacheFile bs f s), false).
Proof.
  intros bs s f g H. unfold readCacheFile in H |- *.
  destruct (cacheFile s || _ || _) eqn:E; [discriminate|].
  destruct f as [[t|]|]; try discriminate.
  destruct (Nat.eqb_spec (length (entries t)) 0); [discriminate|].
  destruct (branchOk t); [reflexivity|discriminate].
Qed.

(** Defect: after a read that failed because the branch could not be attached, the tree stays registered
    and primeNumber returns 0 for indices above the emergency cache. *)
Theorem C15_failed_read_poisons_cache_defect :
  exists c0 t, emergencyCache 20 = Some c0 /\
    snd (readCacheFile 100 (Some (Some t)) (PState false None c0)) = false /\
    exists s', primeNumber 100 10 (fst (readCacheFile 100 (Some (Some t)) (PState false None c0))) = Some (s', 0).
Proof.
  exists [2;3;5;7;11;13;17;19;23;29], (Tree [2;3;5;7;11;13;17;19;23;29;31] false).
  split; [reflexivity|]. split; [reflexivity|]. eexists. reflexivity.
Qed.

(** Instances. *)
Example C15_ex_generate : generateCache 30 12 = Some [2;3;5;7;11;13;17;19;23;29;31;37].
Proof. reflexivity. Qed.
Example C15_ex_history :
  runCalls 4 [CallPrime 3; CallRead (Some (Some (Tree [2;3;5;7;11;13;17;19;23;29;31;37] true))); CallPrime 11; CallPrime 12]
           (PState false None [2;3;5;7;11;13;17;19;23;29])
  = [RPrime 3 7; RRead true; RPrime 11 37; RAbort 12].
Proof. reflexivity. Qed.
