(** Property C69: the numbers returned by clebschGordanCoeff are the Clebsch-Gordan coefficients: they satisfy
    the ladder relations of angular momentum, are orthonormal and complete, and follow the Condon-Shortley
    sign convention; and these relations admit no other numbers.  All spins in units of hbar/2.
    [CG j1 m1 j2 m2 J M] (CGValProofs) is the real number a call without the cache returns. *)
From Coq Require Import ZArith QArith Reals Lra Lia Bool List.
From Verif Require Import SpinModel SpinSpec SpinProofs CGModel CGSpec CGProofs SpinProps WignerProofs CGValProofs.
Import ListNotations.
Open Scope R_scope.

(** sum over the projections -j, -j+2, ..., j of the spin j *)
Definition sumProj (j : Z) (f : Z -> R) : R := sumR (S (Z.to_nat j)) (fun k => f (2 * k - j)%Z).
(** sum over the spins |j1-j2|, |j1-j2|+2, ..., j1+j2 *)
Definition sumSpins (j1 j2 : Z) (f : Z -> R) : R :=
  sumR (S (Z.to_nat (Z.min j1 j2))) (fun k => f (Z.abs (j1 - j2) + 2 * k)%Z).

(** Whatever was asked before, with or without the cache, an answer is this number. *)
Theorem C69_every_answer_is_CG : forall ops,
  (forall j1 m1 j2 m2 J M, In (OpCall j1 m1 j2 m2 J M) ops -> (j1 < 18 /\ j2 < 18 /\ J < 18)%Z) ->
  Forall2 (fun call o => exists v, o = CGVal v /\
             let '(j1,m1,j2,m2,J,M) := call in cgReal v = CG j1 m1 j2 m2 J M)
          (opCalls ops) (cgRun cgInit ops).
Proof.
  intros ops H. rewrite cgRun_complete.
  - induction (opCalls ops) as [|[[[[[j1 m1] j2] m2] J] M] l IH]; constructor; [|exact IH].
    destruct (CG_reference j1 m1 j2 m2 J M) as (v & E & ->). exists v. split; [exact E|reflexivity].
  - apply cgInv_init.
  - intros j1 m1 j2 m2 J M Hin. apply (H j1 m1 j2 m2 J M).
    unfold opCalls in Hin. apply in_flat_map in Hin. destruct Hin as (op & Hop & Hin).
    destruct op; [|destruct Hin]. destruct Hin as [[= <- <- <- <- <- <-]|[]]. exact Hop.
Qed.

Lemma couples_abn j1 j2 J : couples j1 j2 J ->
  exists a b n, (0 <= a /\ 0 <= b /\ 0 <= n /\ j1 = a + n /\ j2 = b + n /\ J = a + b)%Z.
Proof.
  intros (H1 & H2 & k & Hk & E & L).
  destruct (Z.le_ge_cases j1 j2).
  - exists k, (k + j2 - j1)%Z, (j1 - k)%Z. lia.
  - exists (k + j1 - j2)%Z, k, (j2 - k)%Z. lia.
Qed.
Lemma couples_dec j1 j2 J : {couples j1 j2 J} + {~ couples j1 j2 J}.
Proof.
  destruct (spinsCanCouple j1 j2 J) eqn:E.
  - left. now apply spinsCanCouple_correct.
  - right. intros H. apply spinsCanCouple_correct in H. congruence.
Qed.
Lemma CG_sum j1 m1 j2 m2 J M : (m1 + m2 <> M)%Z -> CG j1 m1 j2 m2 J M = 0.
Proof. intros H. apply CG_not. intros (_ & _ & _ & _ & E). lia. Qed.
Lemma CG_couples j1 m1 j2 m2 J M : ~ couples j1 j2 J -> CG j1 m1 j2 m2 J M = 0.
Proof. intros H. apply CG_not. intros (_ & _ & _ & E & _). contradiction. Qed.
Lemma CG_odd1 j1 m1 j2 m2 J M : Z.odd (j1 - m1) = true -> CG j1 m1 j2 m2 J M = 0.
Proof.
  intros H. apply CG_not. intros ((_ & k & Hk & E) & _).
  replace (j1 - m1)%Z with (2 * (j1 - k))%Z in H by lia. rewrite Z.odd_mul in H. discriminate.
Qed.
Lemma CG_odd2 j1 m1 j2 m2 J M : Z.odd (j2 - m2) = true -> CG j1 m1 j2 m2 J M = 0.
Proof.
  intros H. apply CG_not. intros (_ & (_ & k & Hk & E) & _).
  replace (j2 - m2)%Z with (2 * (j2 - k))%Z in H by lia. rewrite Z.odd_mul in H. discriminate.
Qed.
Lemma CG_out1 j1 m1 j2 m2 J M : (m1 < - j1 \/ j1 < m1)%Z -> CG j1 m1 j2 m2 J M = 0.
Proof. intros H. apply CG_not. intros ((_ & k & Hk & E) & _). lia. Qed.
Lemma CG_out2 j1 m1 j2 m2 J M : (m2 < - j2 \/ j2 < m2)%Z -> CG j1 m1 j2 m2 J M = 0.
Proof. intros H. apply CG_not. intros (_ & (_ & k & Hk & E) & _). lia. Qed.
Lemma CG_out J M j1 m1 j2 m2 : (M < - J \/ J < M)%Z -> CG j1 m1 j2 m2 J M = 0.
Proof. intros H. apply CG_not. intros (_ & _ & (_ & k & Hk & E) & _). lia. Qed.
Lemma half_of x : Z.odd x = false -> exists k, x = (2 * k)%Z.
Proof. intros H. exists (x / 2)%Z. pose proof (Z.div_mod x 2 ltac:(lia)). rewrite Zmod_odd, H in H0. lia. Qed.

Lemma sqrt4 x : sqrt (IZR (4 * x)) = 2 * sqrt (IZR x).
Proof.
  rewrite mult_IZR. destruct (Rle_dec 0 (IZR x)).
  - rewrite sqrt_mult by lra. f_equal. replace 4 with (2 * 2) by lra. apply sqrt_square. lra.
  - rewrite !sqrt_neg_0 by lra. ring.
Qed.

(** J- |J M+1> expanded in the product states *)
Theorem C69_lowering_ladder : forall j1 m1 j2 m2 J M,
  sqrt (IZR ((J - M) * (J + M + 2))) * CG j1 m1 j2 m2 J M
  = sqrt (IZR ((j1 - m1) * (j1 + m1 + 2))) * CG j1 (m1 + 2) j2 m2 J (M + 2)
    + sqrt (IZR ((j2 - m2) * (j2 + m2 + 2))) * CG j1 m1 j2 (m2 + 2) J (M + 2).
Proof.
  intros j1 m1 j2 m2 J M.
  destruct (Z.eq_dec (m1 + m2) M) as [<-|N]; [|rewrite !CG_sum by lia; ring].
  destruct (couples_dec j1 j2 J) as [Hc|Hc]; [|rewrite !CG_couples by exact Hc; ring].
  destruct (couples_abn _ _ _ Hc) as (a & b & n & Ha & Hb & Hn & -> & -> & ->).
  destruct (Z.odd (a + n - m1)) eqn:O1.
  { rewrite !(CG_odd1 _ m1) by exact O1.
    rewrite (CG_odd1 _ (m1 + 2)); [ring|]. replace (a + n - (m1 + 2))%Z with (a + n - m1 - 2)%Z by lia. rewrite Z.odd_sub, O1. reflexivity. }
  destruct (Z.odd (b + n - m2)) eqn:O2.
  { rewrite !(CG_odd2 _ _ _ m2) by exact O2.
    rewrite (CG_odd2 _ _ _ (m2 + 2)); [ring|]. replace (b + n - (m2 + 2))%Z with (b + n - m2 - 2)%Z by lia. rewrite Z.odd_sub, O2. reflexivity. }
  apply half_of in O1, O2. destruct O1 as (i & E1), O2 as (k & E2).
  assert (m1 = a + n - 2 * i)%Z as -> by lia. assert (m2 = b + n - 2 * k)%Z as -> by lia.
  pose proof (Cf_lower a b n Ha Hb Hn i (i + k - n)) as L.
  rewrite <- (CG_Cf a b n i k) in L by assumption.
  replace (i + k - n - 1)%Z with (i - 1 + k - n)%Z in L at 1 by lia.
  rewrite <- (CG_Cf a b n (i - 1) k) in L by assumption.
  replace (i + k - n - 1)%Z with (i + (k - 1) - n)%Z in L by lia.
  rewrite <- (CG_Cf a b n i (k - 1)) in L by assumption.
  replace (a + b - (a + n - 2 * i + (b + n - 2 * k)))%Z with (2 * (i + k - n))%Z by lia.
  replace (a + b + (a + n - 2 * i + (b + n - 2 * k)) + 2)%Z with (2 * (a + b - (i + k - n) + 1))%Z by lia.
  replace (a + n - (a + n - 2 * i))%Z with (2 * i)%Z by lia.
  replace (a + n + (a + n - 2 * i) + 2)%Z with (2 * (a + n - i + 1))%Z by lia.
  replace (b + n - (b + n - 2 * k))%Z with (2 * k)%Z by lia.
  replace (b + n + (b + n - 2 * k) + 2)%Z with (2 * (b + n - k + 1))%Z by lia.
  assert (Q : forall x y, (2 * x * (2 * y) = 4 * (x * y))%Z) by (intros; ring).
  rewrite !Q, !sqrt4.
  replace (i + k - n + n - i)%Z with k in L by lia. replace (b + i - (i + k - n) + 1)%Z with (b + n - k + 1)%Z in L by lia.
  replace (a + n - 2 * i + (b + n - 2 * k))%Z with (a + b - 2 * (i + k - n))%Z by lia.
  replace (a + n - 2 * i + 2)%Z with (a + n - 2 * (i - 1))%Z by lia.
  replace (b + n - 2 * k + 2)%Z with (b + n - 2 * (k - 1))%Z by lia.
  replace (a + b - 2 * (i - 1 + k - n))%Z with (a + b - 2 * (i + k - n) + 2)%Z in L by lia.
  replace (a + b - 2 * (i + (k - 1) - n))%Z with (a + b - 2 * (i + k - n) + 2)%Z in L by lia.
  rewrite !Rmult_assoc, <- Rmult_plus_distr_l. f_equal. exact L.
Qed.

(** J+ |J M-1> expanded in the product states *)
Theorem C69_raising_ladder : forall j1 m1 j2 m2 J M,
  sqrt (IZR ((J + M) * (J - M + 2))) * CG j1 m1 j2 m2 J M
  = sqrt (IZR ((j1 + m1) * (j1 - m1 + 2))) * CG j1 (m1 - 2) j2 m2 J (M - 2)
    + sqrt (IZR ((j2 + m2) * (j2 - m2 + 2))) * CG j1 m1 j2 (m2 - 2) J (M - 2).
Proof.
  intros j1 m1 j2 m2 J M.
  destruct (Z.eq_dec (m1 + m2) M) as [<-|N]; [|rewrite !CG_sum by lia; ring].
  destruct (couples_dec j1 j2 J) as [Hc|Hc]; [|rewrite !CG_couples by exact Hc; ring].
  destruct (couples_abn _ _ _ Hc) as (a & b & n & Ha & Hb & Hn & -> & -> & ->).
  destruct (Z.odd (a + n - m1)) eqn:O1.
  { rewrite !(CG_odd1 _ m1) by exact O1.
    rewrite (CG_odd1 _ (m1 - 2)); [ring|]. replace (a + n - (m1 - 2))%Z with (a + n - m1 + 2)%Z by lia. rewrite Z.odd_add, O1. reflexivity. }
  destruct (Z.odd (b + n - m2)) eqn:O2.
  { rewrite !(CG_odd2 _ _ _ m2) by exact O2.
    rewrite (CG_odd2 _ _ _ (m2 - 2)); [ring|]. replace (b + n - (m2 - 2))%Z with (b + n - m2 + 2)%Z by lia. rewrite Z.odd_add, O2. reflexivity. }
  apply half_of in O1, O2. destruct O1 as (i & E1), O2 as (k & E2).
  assert (m1 = a + n - 2 * i)%Z as -> by lia. assert (m2 = b + n - 2 * k)%Z as -> by lia.
  pose proof (Cf_raise a b n Ha Hb Hn i (i + k - n)) as L.
  rewrite <- (CG_Cf a b n i k) in L by assumption.
  replace (i + k - n + 1)%Z with (i + 1 + k - n)%Z in L at 2 by lia.
  rewrite <- (CG_Cf a b n (i + 1) k) in L by assumption.
  replace (Cf a b n i (i + k - n + 1)) with (Cf a b n i (i + (k + 1) - n)) in L by (f_equal; lia).
  rewrite <- (CG_Cf a b n i (k + 1)) in L by assumption.
  replace (a + b - (a + n - 2 * i + (b + n - 2 * k)) + 2)%Z with (2 * (i + k - n + 1))%Z by lia.
  replace (a + b + (a + n - 2 * i + (b + n - 2 * k)))%Z with (2 * (a + b - (i + k - n)))%Z by lia.
  replace (a + n - (a + n - 2 * i) + 2)%Z with (2 * (i + 1))%Z by lia.
  replace (a + n + (a + n - 2 * i))%Z with (2 * (a + n - i))%Z by lia.
  replace (b + n - (b + n - 2 * k) + 2)%Z with (2 * (k + 1))%Z by lia.
  replace (b + n + (b + n - 2 * k))%Z with (2 * (b + n - k))%Z by lia.
  assert (Q : forall x y, (2 * x * (2 * y) = 4 * (y * x))%Z) by (intros; ring).
  rewrite !Q, !sqrt4.
  replace (i + k - n + n - i + 1)%Z with (k + 1)%Z in L by lia. replace (b + i - (i + k - n))%Z with (b + n - k)%Z in L by lia.
  replace (a + n - 2 * i + (b + n - 2 * k))%Z with (a + b - 2 * (i + k - n))%Z by lia.
  replace (a + n - 2 * i - 2)%Z with (a + n - 2 * (i + 1))%Z by lia.
  replace (b + n - 2 * k - 2)%Z with (b + n - 2 * (k + 1))%Z by lia.
  replace (a + b - 2 * (i + 1 + k - n))%Z with (a + b - 2 * (i + k - n) - 2)%Z in L by lia.
  replace (a + b - 2 * (i + (k + 1) - n))%Z with (a + b - 2 * (i + k - n) - 2)%Z in L by lia.
  rewrite !Rmult_assoc, <- Rmult_plus_distr_l. f_equal. exact L.
Qed.

(** The sign convention of Condon and Shortley *)
Theorem C69_condon_shortley : forall j1 j2 J, couples j1 j2 J -> 0 < CG j1 j1 j2 (J - j1) J J.
Proof.
  intros j1 j2 J H. destruct (couples_abn _ _ _ H) as (a & b & n & Ha & Hb & Hn & -> & -> & ->).
  pose proof (CG_Cf a b n 0 n Ha Hb Hn) as E.
  replace (a + n - 2 * 0)%Z with (a + n)%Z in E by lia. replace (a + b - 2 * (0 + n - n))%Z with (a + b)%Z in E by lia.
  replace (b + n - 2 * n)%Z with (a + b - (a + n))%Z in E by lia. rewrite E.
  replace (0 + n - n)%Z with 0%Z by lia. now apply Cf_top_pos.
Qed.

Definition scalarProduct (j1 j2 J J' M : Z) : R :=
  sumProj j1 (fun m1 => CG j1 m1 j2 (M - m1) J M * CG j1 m1 j2 (M - m1) J' M).

Lemma adjoint j1 j2 J J' M : (0 <= j1)%Z ->
  sqrt (IZR ((J - M) * (J + M + 2))) * scalarProduct j1 j2 J J' M
  = sqrt (IZR ((J' - M) * (J' + M + 2))) * scalarProduct j1 j2 J J' (M + 2).
Proof.
  intros Hj. unfold scalarProduct, sumProj. rewrite <- !sumR_scal. set (N := S (Z.to_nat j1)).
  pose (g := fun k => sqrt (IZR ((j1 - (2 * k - j1 - 2)) * (j1 + (2 * k - j1 - 2) + 2)))
     * CG j1 (2 * k - j1) j2 (M + 2 - (2 * k - j1)) J (M + 2) * CG j1 (2 * k - j1 - 2) j2 (M + 2 - (2 * k - j1)) J' M).
  pose (h := fun k => sqrt (IZR ((j2 - (M - (2 * k - j1))) * (j2 + (M - (2 * k - j1)) + 2)))
     * CG j1 (2 * k - j1) j2 (M + 2 - (2 * k - j1)) J (M + 2) * CG j1 (2 * k - j1) j2 (M - (2 * k - j1)) J' M).
  transitivity (sumR N (fun k => g (k + 1)%Z) + sumR N h).
  - rewrite <- sumR_plus. apply sumR_ext. intros k Hk. rewrite <- Rmult_assoc. rewrite C69_lowering_ladder. unfold g, h.
    replace (2 * (k + 1) - j1 - 2)%Z with (2 * k - j1)%Z by lia. replace (2 * (k + 1) - j1)%Z with (2 * k - j1 + 2)%Z by lia.
    replace (M + 2 - (2 * k - j1 + 2))%Z with (M - (2 * k - j1))%Z by lia.
    replace (M + 2 - (2 * k - j1))%Z with (M - (2 * k - j1) + 2)%Z by lia. ring.
  - rewrite sumR_shift.
    + rewrite <- sumR_plus. apply sumR_ext. intros k Hk.
      match goal with |- _ = ?c * (?x * ?y) => transitivity (x * (c * y)); [|ring] end.
      replace ((J' - M) * (J' + M + 2))%Z with ((J' + (M + 2)) * (J' - (M + 2) + 2))%Z by ring.
      rewrite C69_raising_ladder. unfold g, h.
      replace (M + 2 - 2)%Z with M by lia.
      replace (M + 2 - (2 * k - j1) - 2)%Z with (M - (2 * k - j1))%Z by lia.
      replace ((j1 - (2 * k - j1 - 2)) * (j1 + (2 * k - j1 - 2) + 2))%Z with ((j1 + (2 * k - j1)) * (j1 - (2 * k - j1) + 2))%Z by ring.
      replace ((j2 - (M - (2 * k - j1))) * (j2 + (M - (2 * k - j1)) + 2))%Z
        with ((j2 + (M + 2 - (2 * k - j1))) * (j2 - (M + 2 - (2 * k - j1)) + 2))%Z by ring.
      ring.
    + unfold g. rewrite (CG_out1 _ (2 * 0 - j1 - 2)) by lia. ring.
    + unfold g. rewrite (CG_out1 _ (2 * Z.of_nat N - j1)) by lia. ring.
Qed.

Lemma norm_top j1 j2 J : couples j1 j2 J -> scalarProduct j1 j2 J J J = 1.
Proof.
  intros H. destruct (couples_abn _ _ _ H) as (a & b & n & Ha & Hb & Hn & -> & -> & ->).
  unfold scalarProduct, sumProj. rewrite <- sumR_rev.
  rewrite <- (Cf_top_norm a b n Ha Hb Hn).
  rewrite (sumR_trim (S (Z.to_nat n))).
  - apply sumR_ext. intros i Hi.
    pose proof (CG_Cf a b n i (n - i) Ha Hb Hn) as E.
    replace (i + (n - i) - n)%Z with 0%Z in E by lia. replace (a + b - 2 * 0)%Z with (a + b)%Z in E by lia.
    replace (2 * (Z.of_nat (S (Z.to_nat (a + n))) - 1 - i) - (a + n))%Z with (a + n - 2 * i)%Z by lia.
    replace (a + b - (a + n - 2 * i))%Z with (b + n - 2 * (n - i))%Z by lia. rewrite E. reflexivity.
  - lia.
  - intros i Hi. rewrite CG_out2 by lia. ring.
Qed.

Lemma scalar_sym j1 j2 J J' M : scalarProduct j1 j2 J J' M = scalarProduct j1 j2 J' J M.
Proof. unfold scalarProduct, sumProj. apply sumR_ext. intros. ring. Qed.

(** The states |J M> are orthonormal. *)
Theorem C69_orthonormal : forall j1 j2 J J' M,
  couples j1 j2 J -> couples j1 j2 J' -> isProjOf J M -> isProjOf J' M ->
  sumProj j1 (fun m1 => CG j1 m1 j2 (M - m1) J M * CG j1 m1 j2 (M - m1) J' M) = if (J =? J')%Z then 1 else 0.
Proof.
  intros j1 j2 J J' M HC HC' (HJ & k & Hk & EM) (HJ' & k' & Hk' & EM'). fold (scalarProduct j1 j2 J J' M).
  assert (Hj1 : (0 <= j1)%Z) by apply HC.
  destruct (Z.eqb_spec J J') as [<-|N].
  - subst M. clear EM' Hk' k'. remember (Z.to_nat (J - k)) as d eqn:Ed. revert k Hk Ed.
    induction d as [|d IH]; intros k Hk Ed.
    + replace (- J + 2 * k)%Z with J by lia. now apply norm_top.
    + pose proof (adjoint j1 j2 J J (- J + 2 * k) Hj1) as A.
      replace (- J + 2 * k + 2)%Z with (- J + 2 * (k + 1))%Z in A by lia.
      rewrite (IH (k + 1)%Z) in A by lia.
      apply (Rmult_eq_reg_l (sqrt (IZR ((J - (- J + 2 * k)) * (J + (- J + 2 * k) + 2))))).
      * etransitivity; [exact A|]. ring.
      * apply Rgt_not_eq, sqrt_lt_R0. apply IZR_lt. nia.
  - pose proof (adjoint j1 j2 J J' M Hj1) as A. pose proof (adjoint j1 j2 J' J M Hj1) as A'.
    rewrite (scalar_sym j1 j2 J' J M), (scalar_sym j1 j2 J' J (M + 2)) in A'.
    set (x := ((J - M) * (J + M + 2))%Z) in *. set (x' := ((J' - M) * (J' + M + 2))%Z) in *.
    assert (0 <= IZR x) by (apply IZR_le; unfold x; nia). assert (0 <= IZR x') by (apply IZR_le; unfold x'; nia).
    pose proof (sqrt_sqrt (IZR x) H) as S1. pose proof (sqrt_sqrt (IZR x') H0) as S2.
    assert ((IZR x - IZR x') * scalarProduct j1 j2 J J' M = 0) as Z0.
    { rewrite <- S1, <- S2. set (s := sqrt (IZR x)) in *. set (s' := sqrt (IZR x')) in *.
      transitivity (s * (s * scalarProduct j1 j2 J J' M) - s' * (s' * scalarProduct j1 j2 J J' M)); [ring|]. rewrite A, A'. ring. }
    apply Rmult_integral in Z0. destruct Z0 as [Z0|Z0]; [|exact Z0].
    exfalso. assert (IZR x = IZR x') as E by lra. apply eq_IZR in E. unfold x, x' in E. nia.
Qed.

(* a square real matrix with orthonormal rows has orthonormal columns *)
Lemma rows_columns (d : nat) (v : Z -> Z -> R) :
  (forall r s, (0 <= r < Z.of_nat d)%Z -> (0 <= s < Z.of_nat d)%Z ->
     sumR d (fun i => v r i * v s i) = if (r =? s)%Z then 1 else 0) ->
  forall i j, (0 <= i < Z.of_nat d)%Z -> (0 <= j < Z.of_nat d)%Z ->
     sumR d (fun r => v r i * v r j) = if (i =? j)%Z then 1 else 0.
Proof.
  intros H i j Hi Hj.
  pose (P := fun i j => sumR d (fun r => v r i * v r j)).
  pose (dl := fun i j : Z => if (i =? j)%Z then 1 else 0).
  assert (T1 : sumR d (fun i => sumR d (fun j => dl i j * dl i j)) = INR d).
  { transitivity (sumR d (fun _ => 1)).
    - apply sumR_ext. intros x Hx. unfold dl.
      rewrite (sumR_ext d _ (fun k => if (k =? x)%Z then (fun _ => 1) k else 0)).
      + now rewrite sumR_delta.
      + intros k Hk. rewrite (Z.eqb_sym k x). destruct (x =? k)%Z; ring.
    - clear. induction d as [|d IH]; [reflexivity|]. cbn [sumR]. rewrite IH, S_INR. reflexivity. }
  assert (T2 : sumR d (fun i => sumR d (fun j => dl i j * P i j)) = INR d).
  { transitivity (sumR d (fun i => P i i)).
    - apply sumR_ext. intros x Hx. unfold dl.
      rewrite (sumR_ext d _ (fun k => if (k =? x)%Z then P x k else 0)).
      + now rewrite sumR_delta.
      + intros k Hk. rewrite (Z.eqb_sym k x). destruct (x =? k)%Z; ring.
    - unfold P. rewrite sumR_swap. transitivity (sumR d (fun _ => 1)).
      + apply sumR_ext. intros r Hr. rewrite (H r r) by assumption. now rewrite Z.eqb_refl.
      + clear. induction d as [|d IH]; [reflexivity|]. cbn [sumR]. rewrite IH, S_INR. reflexivity. }
  assert (T3 : sumR d (fun i => sumR d (fun j => P i j * P i j)) = INR d).
  { transitivity (sumR d (fun r => sumR d (fun s => (sumR d (fun i => v r i * v s i)) * (sumR d (fun j => v r j * v s j))))).
    - transitivity (sumR d (fun i => sumR d (fun j => sumR d (fun r => sumR d (fun s => (v r i * v s i) * (v r j * v s j)))))).
      + apply sumR_ext. intros x Hx. apply sumR_ext. intros y Hy. unfold P.
        rewrite <- sumR_scal. rewrite (sumR_ext d _ (fun k => sumR d (fun k0 => (v k0 x * v k x) * (v k0 y * v k y)))).
        * apply sumR_swap.
        * intros k Hk. rewrite Rmult_comm, <- sumR_scal. apply sumR_ext. intros. ring.
      + rewrite (sumR_ext d _ (fun i => sumR d (fun r => sumR d (fun j => sumR d (fun s => v r i * v s i * (v r j * v s j)))))) by (intros; apply sumR_swap).
        rewrite sumR_swap. apply sumR_ext. intros r Hr.
        rewrite (sumR_ext d _ (fun i => sumR d (fun s => sumR d (fun j => v r i * v s i * (v r j * v s j))))) by (intros; apply sumR_swap).
        rewrite sumR_swap. apply sumR_ext. intros s Hs.
        rewrite <- sumR_scal. apply sumR_ext. intros x Hx. rewrite sumR_scal. ring.
    - rewrite <- T1. apply sumR_ext. intros r Hr. apply sumR_ext. intros s Hs. rewrite H by assumption. reflexivity. }
  assert (T : sumR d (fun i => sumR d (fun j => (dl i j - P i j) * (dl i j - P i j))) = 0).
  { transitivity (sumR d (fun i => sumR d (fun j => dl i j * dl i j)) + (-2) * sumR d (fun i => sumR d (fun j => dl i j * P i j))
       + sumR d (fun i => sumR d (fun j => P i j * P i j))); [|rewrite T1, T2, T3; ring].
    rewrite <- sumR_scal, <- !sumR_plus. apply sumR_ext. intros x Hx. rewrite <- sumR_scal, <- !sumR_plus. apply sumR_ext. intros. ring. }
  pose proof (sumR_pos_zero d _ ltac:(intros; apply sumR_pos; intros; apply Rle_0_sqr) T i Hi) as T'.
  pose proof (sumR_pos_zero d _ ltac:(intros; apply Rle_0_sqr) T' j Hj) as T''. cbv beta in T''.
  fold (P i j). fold (dl i j). apply Rmult_integral in T''. destruct T''; lra.
Qed.

Lemma sumR_window (N s d : nat) f : (s + d <= N)%nat ->
  (forall k, (0 <= k < Z.of_nat s \/ Z.of_nat s + Z.of_nat d <= k < Z.of_nat N)%Z -> f k = 0) ->
  sumR N f = sumR d (fun k => f (Z.of_nat s + k)%Z).
Proof.
  intros H Hz. rewrite (sumR_trim (s + d) N) by (try lia; intros; apply Hz; lia).
  rewrite sumR_split, (sumR_zero s) by (intros; apply Hz; lia). ring.
Qed.

(** The product states are recovered from the states |J M>. *)
Theorem C69_complete : forall j1 j2 m1 m2 m1' m2' M,
  isProjOf j1 m1 -> isProjOf j2 m2 -> isProjOf j1 m1' -> isProjOf j2 m2' ->
  (m1 + m2 = M)%Z -> (m1' + m2' = M)%Z ->
  sumSpins j1 j2 (fun J => CG j1 m1 j2 m2 J M * CG j1 m1' j2 m2' J M) = if (m1 =? m1')%Z then 1 else 0.
Proof.
  intros j1 j2 m1 m2 m1' m2' M (H1 & p & Hp & E1) (H2 & q & Hq & E2) (_ & p' & Hp' & E1') (_ & q' & Hq' & E2') S1 S2.
  assert (EM : (M = - (j1 + j2) + 2 * (p + q))%Z) by lia.
  (* first values of m1 (index p) and of J (index k) *)
  pose (p0 := Z.max 0 (p + q - j2)).
  assert (exists s0 d, (0 <= s0)%Z /\ (0 < d)%Z /\ (s0 + d = Z.min j1 j2 + 1)%Z /\ (p0 + d <= j1 + 1)%Z
     /\ (Z.max (Z.abs (j1 - j2)) (Z.abs M) = Z.abs (j1 - j2) + 2 * s0)%Z
     /\ (p0 + d - 1 = Z.min j1 (p + q))%Z) as (s0 & d & Hs0 & Hd & Hsd & Hpd & HJ0 & Hpl).
  { destruct (Z.le_ge_cases (Z.abs M) (Z.abs (j1 - j2))).
    - exists 0%Z, (Z.min j1 j2 + 1)%Z. unfold p0. lia.
    - destruct (Z.le_ge_cases 0 M), (Z.le_ge_cases j1 j2).
      + exists (p + q - j2)%Z, (Z.min j1 j2 + 1 - (p + q - j2))%Z. unfold p0. lia.
      + exists (p + q - j1)%Z, (Z.min j1 j2 + 1 - (p + q - j1))%Z. unfold p0. lia.
      + exists (j1 - p - q)%Z, (p + q + 1)%Z. unfold p0. lia.
      + exists (j2 - p - q)%Z, (p + q + 1)%Z. unfold p0. lia. }
  pose (v := fun r x => CG j1 (2 * (p0 + x) - j1) j2 (M - (2 * (p0 + x) - j1)) (Z.abs (j1 - j2) + 2 * (s0 + r)) M).
  assert (O : forall r s, (0 <= r < Z.of_nat (Z.to_nat d))%Z -> (0 <= s < Z.of_nat (Z.to_nat d))%Z ->
     sumR (Z.to_nat d) (fun i => v r i * v s i) = if (r =? s)%Z then 1 else 0).
  { intros r s Hr Hs. set (J := (Z.abs (j1 - j2) + 2 * (s0 + r))%Z). set (J' := (Z.abs (j1 - j2) + 2 * (s0 + s))%Z).
    assert (couples j1 j2 J) as C1 by (split; [lia|split; [lia|exists (s0 + r)%Z; unfold J; lia]]).
    assert (couples j1 j2 J') as C2 by (split; [lia|split; [lia|exists (s0 + s)%Z; unfold J'; lia]]).
    assert (isProjOf J M) as Q1.
    { split; [unfold J; lia|]. destruct (Z.le_ge_cases j1 j2).
      - exists (p + q - j1 + (s0 + r))%Z. unfold J. lia. - exists (p + q - j2 + (s0 + r))%Z. unfold J. lia. }
    assert (isProjOf J' M) as Q2.
    { split; [unfold J'; lia|]. destruct (Z.le_ge_cases j1 j2).
      - exists (p + q - j1 + (s0 + s))%Z. unfold J'. lia. - exists (p + q - j2 + (s0 + s))%Z. unfold J'. lia. }
    pose proof (C69_orthonormal j1 j2 J J' M C1 C2 Q1 Q2) as ON. unfold sumProj in ON.
    rewrite (sumR_window (S (Z.to_nat j1)) (Z.to_nat p0) (Z.to_nat d)) in ON.
    - replace (J =? J')%Z with (r =? s)%Z in ON.
      2:{ destruct (Z.eqb_spec r s), (Z.eqb_spec J J'); try reflexivity; unfold J, J' in *; lia. }
      rewrite <- ON. apply sumR_ext. intros x Hx. unfold v. rewrite Z2Nat.id by (unfold p0; lia). reflexivity.
    - unfold p0 in *. lia.
    - intros k Hk. rewrite CG_out2; [ring|]. unfold p0 in *. lia. }
  pose proof (rows_columns (Z.to_nat d) v O (p - p0) (p' - p0)) as RC.
  assert (Rp : (0 <= p - p0 < Z.of_nat (Z.to_nat d))%Z) by (unfold p0 in *; lia).
  assert (Rp' : (0 <= p' - p0 < Z.of_nat (Z.to_nat d))%Z) by (unfold p0 in *; lia).
  specialize (RC Rp Rp'). unfold sumSpins.
  rewrite (sumR_window (S (Z.to_nat (Z.min j1 j2))) (Z.to_nat s0) (Z.to_nat d));
    [|lia|intros k Hk; rewrite CG_out; [ring|lia]].
  replace (m1 =? m1')%Z with (p - p0 =? p' - p0)%Z.
  2:{ destruct (Z.eqb_spec (p - p0) (p' - p0)), (Z.eqb_spec m1 m1'); try reflexivity; lia. }
  rewrite <- RC. apply sumR_ext. intros r Hr. unfold v. rewrite Z2Nat.id by lia.
  replace (2 * (p0 + (p - p0)) - j1)%Z with m1 by lia. replace (2 * (p0 + (p' - p0)) - j1)%Z with m1' by lia.
  replace (M - m1)%Z with m2 by lia. replace (M - m1')%Z with m2' by lia. reflexivity.
Qed.

(** What defines the Clebsch-Gordan coefficients of j1, j2 -> J: they vanish unless the projections are allowed and
    add up, the ladder operators J+ = j1+ + j2+ and J- = j1- + j2- act on |J M> as they must, the state |J J> is
    normalised and its component with the largest m1 is positive. *)
Record isCoupling (j1 j2 J : Z) (D : Z -> Z -> Z -> R) : Prop := {
  zeros : forall m1 m2 M, ~ (isProjOf j1 m1 /\ isProjOf j2 m2 /\ isProjOf J M /\ (m1 + m2 = M)%Z) -> D m1 m2 M = 0;
  lower : forall m1 m2 M, sqrt (IZR ((J - M) * (J + M + 2))) * D m1 m2 M
    = sqrt (IZR ((j1 - m1) * (j1 + m1 + 2))) * D (m1 + 2)%Z m2 (M + 2)%Z + sqrt (IZR ((j2 - m2) * (j2 + m2 + 2))) * D m1 (m2 + 2)%Z (M + 2)%Z;
  raise : forall m1 m2 M, sqrt (IZR ((J + M) * (J - M + 2))) * D m1 m2 M
    = sqrt (IZR ((j1 + m1) * (j1 - m1 + 2))) * D (m1 - 2)%Z m2 (M - 2)%Z + sqrt (IZR ((j2 + m2) * (j2 - m2 + 2))) * D m1 (m2 - 2)%Z (M - 2)%Z;
  unit : sumProj j1 (fun m1 => D m1 (J - m1)%Z J * D m1 (J - m1)%Z J) = 1;
  positive : 0 < D j1 (J - j1)%Z J }.

Theorem C69_CG_is_the_coupling : forall j1 j2 J, couples j1 j2 J ->
  isCoupling j1 j2 J (fun m1 m2 M => CG j1 m1 j2 m2 J M).
Proof.
  intros j1 j2 J H. constructor.
  - intros m1 m2 M N. apply CG_not. intros (A & B & C & _ & E). apply N. auto.
  - intros. apply C69_lowering_ladder.
  - intros. apply C69_raising_ladder.
  - assert (0 <= J)%Z by (destruct H as (? & ? & k & ?); lia).
    assert (isProjOf J J) by (split; [lia|exists J; lia]).
    rewrite (C69_orthonormal j1 j2 J J J) by assumption. now rewrite Z.eqb_refl.
  - now apply C69_condon_shortley.
Qed.

Theorem C69_no_other_coefficients : forall j1 j2 J D, couples j1 j2 J -> isCoupling j1 j2 J D ->
  forall m1 m2 M, D m1 m2 M = CG j1 m1 j2 m2 J M.
Proof.
  intros j1 j2 J D HC HD.
  pose proof (C69_CG_is_the_coupling j1 j2 J HC) as HG. set (G := fun m1 m2 M => CG j1 m1 j2 m2 J M) in *.
  enough (forall m1 m2 M, D m1 m2 M = G m1 m2 M) by assumption.
  destruct (couples_abn _ _ _ HC) as (a & b & n & Ha & Hb & Hn & Ej1 & Ej2 & EJ).
  pose (lam := D j1 (J - j1)%Z J / G j1 (J - j1)%Z J).
  pose proof (positive _ _ _ _ HD) as PD. pose proof (positive _ _ _ _ HG) as PG.
  assert (Hlam : 0 < lam) by (apply Rdiv_lt_0_compat; assumption).
  (* the top column *)
  assert (top : forall k : nat, D (j1 - 2 * Z.of_nat k)%Z (J - (j1 - 2 * Z.of_nat k))%Z J = lam * G (j1 - 2 * Z.of_nat k)%Z (J - (j1 - 2 * Z.of_nat k))%Z J).
  { induction k as [|k IH].
    - replace (j1 - 2 * Z.of_nat 0)%Z with j1 by lia. unfold lam. field. lra.
    - destruct (Z_lt_le_dec n (Z.of_nat (S k))).
      + rewrite (zeros _ _ _ _ HD), (zeros _ _ _ _ HG); [ring| |]; intros ((_ & x & ?) & (_ & y & ?) & _); lia.
      + set (m := (j1 - 2 * Z.of_nat k)%Z) in *.
        replace (j1 - 2 * Z.of_nat (S k))%Z with (m - 2)%Z by (unfold m; lia).
        pose proof (raise _ _ _ _ HD m (J - m + 2)%Z (J + 2)%Z) as RD. pose proof (raise _ _ _ _ HG m (J - m + 2)%Z (J + 2)%Z) as RG.
        rewrite (zeros _ _ _ _ HD m) in RD by (intros (_ & _ & (_ & x & ?) & _); lia).
        rewrite (zeros _ _ _ _ HG m) in RG by (intros (_ & _ & (_ & x & ?) & _); lia).
        replace (J + 2 - 2)%Z with J in * by lia. replace (J - m + 2 - 2)%Z with (J - m)%Z in * by lia.
        replace (J - (m - 2))%Z with (J - m + 2)%Z by lia.
        rewrite IH in RD.
        assert (0 < sqrt (IZR ((j1 + m) * (j1 - m + 2)))) as P by (apply sqrt_lt_R0, IZR_lt; unfold m; nia).
        set (x := sqrt (IZR ((j1 + m) * (j1 - m + 2)))) in *. set (y := sqrt (IZR ((j2 + (J - m + 2)) * (j2 - (J - m + 2) + 2)))) in *.
        apply (Rmult_eq_reg_l x); [|lra]. nra. }
  assert (top' : forall m1, D m1 (J - m1)%Z J = lam * G m1 (J - m1)%Z J).
  { intros m1. destruct (Z.odd (j1 - m1)) eqn:O.
    - rewrite (zeros _ _ _ _ HD), (zeros _ _ _ _ HG); [ring| |]; intros ((_ & x & _ & E) & _);
        replace (j1 - m1)%Z with (2 * (j1 - x))%Z in O by lia; rewrite Z.odd_mul in O; discriminate.
    - apply half_of in O. destruct O as (k & Ek). destruct (Z_lt_le_dec k 0).
      + rewrite (zeros _ _ _ _ HD), (zeros _ _ _ _ HG); [ring| |]; intros ((_ & x & ?) & _); lia.
      + specialize (top (Z.to_nat k)). rewrite Z2Nat.id in top by lia. replace (j1 - 2 * k)%Z with m1 in top by lia. exact top. }
  assert (lam = 1) as L1.
  { pose proof (unit _ _ _ _ HD) as UD. pose proof (unit _ _ _ _ HG) as UG. unfold sumProj in UD, UG.
    rewrite (sumR_ext _ _ (fun k => (lam * lam) * (G (2 * k - j1)%Z (J - (2 * k - j1))%Z J * G (2 * k - j1)%Z (J - (2 * k - j1))%Z J))) in UD
      by (intros; rewrite top'; ring).
    rewrite sumR_scal, UG in UD. nra. }
  assert (all : forall (d : nat) m1 m2, D m1 m2 (J - 2 * Z.of_nat d)%Z = G m1 m2 (J - 2 * Z.of_nat d)%Z).
  { induction d as [|d IH]; intros m1 m2.
    - replace (J - 2 * Z.of_nat 0)%Z with J by lia. destruct (Z.eq_dec m2 (J - m1)) as [->|N]; [rewrite top', L1; ring|].
      rewrite (zeros _ _ _ _ HD), (zeros _ _ _ _ HG); [ring| |]; lia.
    - destruct (Z_lt_le_dec J (Z.of_nat (S d))).
      + rewrite (zeros _ _ _ _ HD), (zeros _ _ _ _ HG); [ring| |]; intros (_ & _ & (_ & x & ?) & _); lia.
      + pose proof (lower _ _ _ _ HD m1 m2 (J - 2 * Z.of_nat (S d))%Z) as LD. pose proof (lower _ _ _ _ HG m1 m2 (J - 2 * Z.of_nat (S d))%Z) as LG.
        replace (J - 2 * Z.of_nat (S d) + 2)%Z with (J - 2 * Z.of_nat d)%Z in LD, LG by lia.
        rewrite !IH, <- LG in LD.
        eapply Rmult_eq_reg_l; [exact LD|]. apply Rgt_not_eq, sqrt_lt_R0, IZR_lt. nia. }
  intros m1 m2 M. destruct (Z.odd (J - M)) eqn:O.
  - rewrite (zeros _ _ _ _ HD), (zeros _ _ _ _ HG); [ring| |]; intros (_ & _ & (_ & x & _ & E) & _);
      replace (J - M)%Z with (2 * (J - x))%Z in O by lia; rewrite Z.odd_mul in O; discriminate.
  - apply half_of in O. destruct O as (k & Ek). destruct (Z_lt_le_dec k 0).
    + rewrite (zeros _ _ _ _ HD), (zeros _ _ _ _ HG); [ring| |]; intros (_ & _ & (_ & x & ?) & _); lia.
    + specialize (all (Z.to_nat k) m1 m2). rewrite Z2Nat.id in all by lia. replace (J - 2 * k)%Z with M in all by lia. exact all.
Qed.


(* first component of the top column, other end *)
Lemma top_last_sign j1 j2 J : couples j1 j2 J ->
  0 < IZR (minusOnePow ((j1 + j2 - J) / 2)) * CG j1 (J - j2) j2 j2 J J.
Proof.
  intros H. destruct (couples_abn _ _ _ H) as (a & b & n & Ha & Hb & Hn & -> & -> & ->).
  replace ((a + n + (b + n) - (a + b)) / 2)%Z with n.
  2:{ replace (a + n + (b + n) - (a + b))%Z with (n * 2)%Z by lia. symmetry. apply Z.div_mul. lia. }
  pose proof (CG_Cf a b n n 0 Ha Hb Hn) as E.
  replace (b + n - 2 * 0)%Z with (b + n)%Z in E by lia. replace (n + 0 - n)%Z with 0%Z in E by lia.
  replace (a + b - 2 * 0)%Z with (a + b)%Z in E by lia. replace (a + n - 2 * n)%Z with (a + b - (b + n))%Z in E by lia. rewrite E.
  rewrite Cf_top by lia. fold (sg n).
  match goal with |- 0 < ?s * (?x * (?s * ?y)) => replace (s * (x * (s * y))) with ((s * s) * (x * y)) by ring end.
  rewrite sg_sq, Rmult_1_l. apply Rmult_lt_0_compat.
  - apply sqrt_lt_R0. apply Rmult_lt_0_compat; [now apply Kf_pos|]. unfold Pf.
    rewrite !rf_F by lia. repeat apply Rmult_lt_0_compat; try apply Rinv_0_lt_compat; apply F_pos.
  - apply Rdiv_lt_0_compat; apply Rmult_lt_0_compat; apply F_pos.
Qed.
Lemma V_bottom a b n i : (0 <= a)%Z -> (0 <= b)%Z -> V a b n i (a + b) = F (a + b + n - i) * F i / (F a * F b).
Proof.
  intros Ha Hb. unfold V. replace (Z.to_nat (b + 1)) with (S (Z.to_nat b)) by lia. rewrite sumR_first, sumR_zero.
  - unfold Vt. replace (a + b + n - i - 0)%Z with (a + b + n - i)%Z by lia. replace (i + 0)%Z with i by lia.
    replace (b - 0)%Z with b by lia. replace (a + b - b + 0)%Z with a by lia. replace (a + b - (a + b) - 0)%Z with 0%Z by lia.
    change (sg 0) with 1. rewrite !rf_F by lia. replace (F 0) with 1 by reflexivity.
    pose proof (F_pos a). pose proof (F_pos b). field. lra.
  - intros k Hk. unfold Vt. rewrite (rf_neg (a + b - (a + b) - (k + 1))) by lia. ring.
Qed.
Lemma bottom_sign j1 j2 J : couples j1 j2 J ->
  0 < IZR (minusOnePow ((j1 + j2 - J) / 2)) * CG j1 (- j1) j2 (- (J - j1)) J (- J).
Proof.
  intros H. destruct (couples_abn _ _ _ H) as (a & b & n & Ha & Hb & Hn & -> & -> & ->).
  replace ((a + n + (b + n) - (a + b)) / 2)%Z with n.
  2:{ replace (a + n + (b + n) - (a + b))%Z with (n * 2)%Z by lia. symmetry. apply Z.div_mul. lia. }
  pose proof (CG_Cf a b n (a + n) b Ha Hb Hn) as E.
  replace (a + n - 2 * (a + n))%Z with (- (a + n))%Z in E by lia. replace (a + n + b - n)%Z with (a + b)%Z in E by lia.
  replace (a + b - 2 * (a + b))%Z with (- (a + b))%Z in E by lia.
  replace (b + n - 2 * b)%Z with (- (a + b - (a + n)))%Z in E by lia. rewrite E.
  unfold Cf. rewrite V_bottom by assumption. fold (sg n).
  assert (sg (b + (a + b) - (a + n)) = sg n) as ->.
  { replace (b + (a + b) - (a + n))%Z with (n + (b - n) * 2)%Z by lia. unfold sg, minusOnePow.
    rewrite Z.even_add, Z.even_mul, orb_true_r. now destruct (Z.even n). }
  match goal with |- 0 < ?s * (?x * (?s * ?y)) => replace (s * (x * (s * y))) with ((s * s) * (x * y)) by ring end.
  rewrite sg_sq, Rmult_1_l. apply Rmult_lt_0_compat.
  - apply sqrt_lt_R0. apply Rmult_lt_0_compat; [now apply Kf_pos|]. unfold Pf.
    rewrite !rf_F by lia. repeat apply Rmult_lt_0_compat; try apply Rinv_0_lt_compat; apply F_pos.
  - apply Rdiv_lt_0_compat; apply Rmult_lt_0_compat; apply F_pos.
Qed.

Lemma couples_sym j1 j2 J : couples j1 j2 J -> couples j2 j1 J.
Proof.
  intros (H1 & H2 & k & Hk & E & L). split; [exact H2|split; [exact H1|]]. exists k. lia.
Qed.
Lemma proj_opp j m : isProjOf j m -> isProjOf j (- m).
Proof. intros (H & k & Hk & E). split; [exact H|]. exists (j - k)%Z. lia. Qed.
Lemma sign_sq z : IZR (minusOnePow z) * IZR (minusOnePow z) = 1.
Proof. exact (sg_sq z). Qed.

(** Exchange of the two spins: (j2 m2 j1 m1 | J M) = (-1)^(j1+j2-J) (j1 m1 j2 m2 | J M) *)
Theorem C69_exchange : forall j1 m1 j2 m2 J M, couples j1 j2 J ->
  CG j2 m2 j1 m1 J M = IZR (minusOnePow ((j1 + j2 - J) / 2)) * CG j1 m1 j2 m2 J M.
Proof.
  intros j1 m1 j2 m2 J M H. set (s := IZR (minusOnePow ((j1 + j2 - J) / 2))).
  assert (S2 : s * s = 1) by apply sign_sq.
  assert (couples j2 j1 J) as H' by now apply couples_sym.
  assert (0 <= J)%Z as HJ by (destruct H as (? & ? & k & ?); lia).
  symmetry. apply (C69_no_other_coefficients j2 j1 J (fun m2 m1 M => s * CG j1 m1 j2 m2 J M) H').
  constructor.
  - intros x y z N. rewrite CG_not; [ring|]. intros (A & B & C & _ & E). apply N. repeat split; try apply A; try apply B; try apply C. lia.
  - intros x y z. transitivity (s * (sqrt (IZR ((J - z) * (J + z + 2))) * CG j1 y j2 x J z)); [ring|]. rewrite C69_lowering_ladder. ring.
  - intros x y z. transitivity (s * (sqrt (IZR ((J + z) * (J - z + 2))) * CG j1 y j2 x J z)); [ring|]. rewrite C69_raising_ladder. ring.
  - (* the same squares, summed over m2 instead of m1 *)
    assert (isProjOf J J) as HP by (split; [lia|exists J; lia]).
    pose proof (C69_orthonormal j1 j2 J J J H H HP HP) as U. rewrite Z.eqb_refl in U. rewrite <- U. unfold sumProj.
    destruct (couples_abn _ _ _ H) as (a & b & n & Ha & Hb & Hn & -> & -> & ->).
    rewrite (sumR_window (S (Z.to_nat (b + n))) (Z.to_nat b) (S (Z.to_nat n))).
    + rewrite (sumR_window (S (Z.to_nat (a + n))) (Z.to_nat a) (S (Z.to_nat n))).
      * rewrite <- sumR_rev. apply sumR_ext. intros k Hk. rewrite !Z2Nat.id by assumption.
        replace (2 * (b + (Z.of_nat (S (Z.to_nat n)) - 1 - k)) - (b + n))%Z with (a + b - (2 * (a + k) - (a + n)))%Z by lia.
        replace (a + b - (a + b - (2 * (a + k) - (a + n))))%Z with (2 * (a + k) - (a + n))%Z by lia.
        match goal with |- ?s * ?x * (?s * ?x) = _ => transitivity ((s * s) * (x * x)); [ring|] end. rewrite S2. ring.
      * lia.
      * intros k Hk. rewrite CG_out2 by lia. ring.
    + lia.
    + intros k Hk. rewrite CG_out1 by lia. ring.
  - apply top_last_sign. exact H.
Qed.

(** Reversal of all projections: (j1 -m1 j2 -m2 | J -M) = (-1)^(j1+j2-J) (j1 m1 j2 m2 | J M) *)
Theorem C69_reversal : forall j1 m1 j2 m2 J M, couples j1 j2 J ->
  CG j1 (- m1) j2 (- m2) J (- M) = IZR (minusOnePow ((j1 + j2 - J) / 2)) * CG j1 m1 j2 m2 J M.
Proof.
  intros j1 m1 j2 m2 J M H. set (s := IZR (minusOnePow ((j1 + j2 - J) / 2))).
  assert (S2 : s * s = 1) by apply sign_sq.
  assert (0 <= J)%Z as HJ by (destruct H as (? & ? & k & ?); lia).
  enough (s * CG j1 (- m1) j2 (- m2) J (- M) = CG j1 m1 j2 m2 J M) as E by (rewrite <- E, <- Rmult_assoc, S2; ring).
  apply (C69_no_other_coefficients j1 j2 J (fun m1 m2 M => s * CG j1 (- m1) j2 (- m2) J (- M)) H).
  constructor.
  - intros x y z N. rewrite CG_not; [ring|]. intros (A & B & C & _ & E). apply N.
    apply proj_opp in A, B, C. rewrite Z.opp_involutive in A, B, C. repeat split; try apply A; try apply B; try apply C. lia.
  - intros x y z. transitivity (s * (sqrt (IZR ((J + - z) * (J - - z + 2))) * CG j1 (- x) j2 (- y) J (- z))).
    { replace ((J - z) * (J + z + 2))%Z with ((J + - z) * (J - - z + 2))%Z by ring. ring. }
    rewrite C69_raising_ladder.
    replace (- (x + 2))%Z with (- x - 2)%Z by lia. replace (- (y + 2))%Z with (- y - 2)%Z by lia. replace (- (z + 2))%Z with (- z - 2)%Z by lia.
    replace ((j1 - x) * (j1 + x + 2))%Z with ((j1 + - x) * (j1 - - x + 2))%Z by ring.
    replace ((j2 - y) * (j2 + y + 2))%Z with ((j2 + - y) * (j2 - - y + 2))%Z by ring. ring.
  - intros x y z. transitivity (s * (sqrt (IZR ((J - - z) * (J + - z + 2))) * CG j1 (- x) j2 (- y) J (- z))).
    { replace ((J + z) * (J - z + 2))%Z with ((J - - z) * (J + - z + 2))%Z by ring. ring. }
    rewrite C69_lowering_ladder.
    replace (- (x - 2))%Z with (- x + 2)%Z by lia. replace (- (y - 2))%Z with (- y + 2)%Z by lia. replace (- (z - 2))%Z with (- z + 2)%Z by lia.
    replace ((j1 + x) * (j1 - x + 2))%Z with ((j1 - - x) * (j1 + - x + 2))%Z by ring.
    replace ((j2 + y) * (j2 - y + 2))%Z with ((j2 - - y) * (j2 + - y + 2))%Z by ring. ring.
  - assert (isProjOf J (- J)) as HP by (split; [lia|exists 0%Z; lia]).
    assert (0 <= j1)%Z by apply H.
    pose proof (C69_orthonormal j1 j2 J J (- J) H H HP HP) as U. rewrite Z.eqb_refl in U. rewrite <- U. unfold sumProj.
    rewrite <- sumR_rev. apply sumR_ext. intros k Hk.
    replace (- (2 * (Z.of_nat (S (Z.to_nat j1)) - 1 - k) - j1))%Z with (2 * k - j1)%Z by lia.
    replace (- (J - (2 * (Z.of_nat (S (Z.to_nat j1)) - 1 - k) - j1)))%Z with (- J - (2 * k - j1))%Z by lia.
    match goal with |- ?s * ?x * (?s * ?x) = _ => transitivity ((s * s) * (x * x)); [ring|] end. rewrite S2. ring.
  - apply bottom_sign. exact H.
Qed.

(* 1/2 x 1/2 -> 1 and 1 x 1/2 -> 3/2 *)
Example C69_ex : couples 1 1 2 /\ couples 2 1 3 /\ isProjOf 3 1
  /\ CG 2 2 1 (-1) 3 1 = sqrt (1 / 3) /\ CG 2 0 1 1 3 1 = sqrt (2 / 3).
Proof.
  split; [split; [lia|split; [lia|exists 1%Z; lia]]|]. split; [split; [lia|split; [lia|exists 1%Z; lia]]|].
  split; [split; [lia|exists 2%Z; lia]|].
  split.
  - change (CG 2 2 1 (-1) 3 1) with (cgReal (CGRoot (16 # 48) (2 # 2))). unfold cgReal, Q2R. cbn [Qnum Qden].
    replace (16 * / 48) with (1 / 3) by field. replace (2 * / 2) with 1 by field. ring.
  - change (CG 2 0 1 1 3 1) with (cgReal (CGRoot (16 # 24) (2 # 2))). unfold cgReal, Q2R. cbn [Qnum Qden].
    replace (16 * / 24) with (2 / 3) by field. replace (2 * / 2) with 1 by field. ring.
Qed.
