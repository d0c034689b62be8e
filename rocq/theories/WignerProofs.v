(* Sums behind Wigner's formula: the ladder relations and the norm of the top column.
   Integer parameters a = J+j1-j2, b = J-j1+j2, n = j1+j2-J, i = j1-m1, l = J-M (spins in units of hbar). *)
From Coq Require Import ZArith Reals Lra Lia Bool Factorial.
From Verif Require Import SpinSpec.
Open Scope R_scope.

Fixpoint sumR (n : nat) (f : Z -> R) : R :=
  match n with O => 0 | S k => sumR k f + f (Z.of_nat k) end.

Lemma sumR_ext n f g : (forall k, (0 <= k < Z.of_nat n)%Z -> f k = g k) -> sumR n f = sumR n g.
Proof.
  induction n as [|n IH]; intros H; [reflexivity|]. cbn [sumR]. rewrite IH.
  - rewrite (H (Z.of_nat n)) by lia. reflexivity.
  - intros k Hk. apply H. lia.
Qed.
Lemma sumR_plus n f g : sumR n (fun k => f k + g k) = sumR n f + sumR n g.
Proof. induction n as [|n IH]; cbn [sumR]; [|rewrite IH]; lra. Qed.
Lemma sumR_scal n c f : sumR n (fun k => c * f k) = c * sumR n f.
Proof. induction n as [|n IH]; cbn [sumR]; [|rewrite IH]; lra. Qed.
Lemma sumR_zero n f : (forall k, (0 <= k < Z.of_nat n)%Z -> f k = 0) -> sumR n f = 0.
Proof.
  intros H. rewrite (sumR_ext n f (fun _ => 0)) by exact H. clear H.
  induction n as [|n IH]; cbn [sumR]; [|rewrite IH]; lra.
Qed.
Lemma sumR_first n f : sumR (S n) f = f 0%Z + sumR n (fun k => f (k + 1)%Z).
Proof.
  induction n as [|n IH]; [cbn; lra|]. change (sumR (S (S n)) f) with (sumR (S n) f + f (Z.of_nat (S n))).
  rewrite IH. cbn [sumR]. replace (Z.of_nat (S n)) with (Z.of_nat n + 1)%Z by lia. ring.
Qed.
Lemma sumR_split n k f : sumR (n + k) f = sumR n f + sumR k (fun x => f (Z.of_nat n + x)%Z).
Proof.
  induction k as [|k IH]; [rewrite Nat.add_0_r; cbn; lra|].
  rewrite Nat.add_succ_r. cbn [sumR]. rewrite IH. rewrite Nat2Z.inj_add. lra.
Qed.
Lemma sumR_trim n m f : (n <= m)%nat -> (forall k, (Z.of_nat n <= k < Z.of_nat m)%Z -> f k = 0) -> sumR m f = sumR n f.
Proof.
  intros H Hz. replace m with (n + (m - n))%nat by lia. rewrite sumR_split, (sumR_zero (m - n)); [lra|].
  intros k Hk. apply Hz. lia.
Qed.
Lemma sumR_shift n f : f 0%Z = 0 -> f (Z.of_nat n) = 0 -> sumR n (fun k => f (k + 1)%Z) = sumR n f.
Proof.
  intros H0 Hn. pose proof (sumR_first n f) as E. cbn [sumR] in E. lra.
Qed.
Lemma sumR_rev n f : sumR n (fun k => f (Z.of_nat n - 1 - k)%Z) = sumR n f.
Proof.
  induction n as [|n IH]; [reflexivity|].
  rewrite sumR_first. cbn [sumR]. rewrite <- IH.
  replace (Z.of_nat (S n) - 1 - 0)%Z with (Z.of_nat n) by lia.
  rewrite (sumR_ext n (fun k => f (Z.of_nat (S n) - 1 - (k + 1))%Z) (fun k => f (Z.of_nat n - 1 - k)%Z)); [lra|].
  intros k _. f_equal. lia.
Qed.
Lemma sumR_swap n m f : sumR n (fun i => sumR m (fun j => f i j)) = sumR m (fun j => sumR n (fun i => f i j)).
Proof.
  induction n as [|n IH]; cbn [sumR].
  - symmetry. apply sumR_zero. reflexivity.
  - rewrite IH, <- sumR_plus. reflexivity.
Qed.
Lemma sumR_pos n f : (forall k, (0 <= k < Z.of_nat n)%Z -> 0 <= f k) -> 0 <= sumR n f.
Proof.
  induction n as [|n IH]; intros H; cbn [sumR]; [lra|].
  specialize (IH ltac:(intros; apply H; lia)). pose proof (H (Z.of_nat n) ltac:(lia)). lra.
Qed.
Lemma sumR_pos_zero n f : (forall k, (0 <= k < Z.of_nat n)%Z -> 0 <= f k) -> sumR n f = 0 ->
  forall k, (0 <= k < Z.of_nat n)%Z -> f k = 0.
Proof.
  induction n as [|n IH]; intros H E k Hk; [lia|]. cbn [sumR] in E.
  pose proof (sumR_pos n f ltac:(intros; apply H; lia)) as P. pose proof (H (Z.of_nat n) ltac:(lia)) as Q.
  assert (k = Z.of_nat n \/ (k < Z.of_nat n)%Z) as [->|Hlt] by lia; [lra|].
  apply IH; [intros; apply H; lia|lra|lia].
Qed.
Lemma sumR_delta n x f : (0 <= x < Z.of_nat n)%Z ->
  sumR n (fun k => if (k =? x)%Z then f k else 0) = f x.
Proof.
  induction n as [|n IH]; intros H; [lia|]. cbn [sumR].
  destruct (Z.eqb_spec (Z.of_nat n) x) as [<-|N].
  - rewrite sumR_zero; [lra|]. intros k Hk. destruct (Z.eqb_spec k (Z.of_nat n)); [lia|reflexivity].
  - rewrite IH by lia. ring.
Qed.

(* factorial of a non-negative integer, and its inverse extended by 0 *)
Definition F (z : Z) : R := INR (fact (Z.to_nat z)).
Definition rf (z : Z) : R := if (z <? 0)%Z then 0 else / F z.
Definition sg (z : Z) : R := IZR (minusOnePow z).

Lemma F_pos z : 0 < F z.
Proof. unfold F. apply INR_fact_lt_0. Qed.
Lemma F_S z : (0 <= z)%Z -> F (z + 1) = (IZR z + 1) * F z.
Proof.
  intros H. unfold F. rewrite Z2Nat.inj_add by lia. rewrite Nat.add_1_r. rewrite fact_simpl, mult_INR, S_INR.
  rewrite INR_IZR_INZ, Z2Nat.id by exact H. lra.
Qed.
Lemma F_P z : (1 <= z)%Z -> F z = IZR z * F (z - 1).
Proof.
  intros H. replace z with (z - 1 + 1)%Z at 1 by lia. rewrite F_S by lia. rewrite minus_IZR. f_equal. lra.
Qed.
Lemma rf_P z : IZR z * rf z = rf (z - 1).
Proof.
  unfold rf. destruct (Z.ltb_spec z 0).
  - replace (z - 1 <? 0)%Z with true by (symmetry; apply Z.ltb_lt; lia). lra.
  - destruct (Z.ltb_spec (z - 1) 0).
    + assert (z = 0)%Z as -> by lia. ring.
    + rewrite (F_P z) by lia. pose proof (F_pos (z - 1)). assert (IZR z <> 0) by (apply not_0_IZR; lia). field. lra.
Qed.
Lemma rf_S z : (IZR z + 1) * rf (z + 1) = rf z.
Proof. replace (IZR z + 1) with (IZR (z + 1)) by (rewrite plus_IZR; lra). rewrite rf_P. f_equal. lia. Qed.
Lemma rf_neg z : (z < 0)%Z -> rf z = 0.
Proof. intros H. unfold rf. replace (z <? 0)%Z with true by (symmetry; apply Z.ltb_lt; lia). reflexivity. Qed.
Lemma rf_F z : (0 <= z)%Z -> rf z = / F z.
Proof. intros H. unfold rf. replace (z <? 0)%Z with false by (symmetry; apply Z.ltb_ge; lia). reflexivity. Qed.
Lemma sg_S z : sg (z + 1) = - sg z.
Proof. unfold sg, minusOnePow. rewrite Z.even_add. destruct (Z.even z); cbn; lra. Qed.
Lemma sg_P z : sg (z - 1) = - sg z.
Proof. pose proof (sg_S (z - 1)) as E. replace (z - 1 + 1)%Z with z in E by lia. lra. Qed.
Lemma sg_sq z : sg z * sg z = 1.
Proof. unfold sg, minusOnePow. destruct (Z.even z); cbn; lra. Qed.

(* the alternating sum *)
Definition Vt (a b n i l v : Z) : R :=
  sg v * F (a + b + n - i - v) * F (i + v) * rf v * rf (b - v) * rf (l - b + v) * rf (a + b - l - v).
Definition V (a b n i l : Z) : R := sumR (Z.to_nat (b + 1)) (Vt a b n i l).

Section Ladder.
Variables a b n : Z.
Hypotheses (Ha : (0 <= a)%Z) (Hb : (0 <= b)%Z) (Hn : (0 <= n)%Z).

Lemma V_lower i l : (0 <= i <= a + n)%Z -> (l <= b + i)%Z ->
  IZR l * V a b n i l = IZR i * V a b n (i - 1) (l - 1) - IZR (l + n - i) * V a b n i (l - 1).
Proof.
  intros Hi Hl. unfold V. set (N := Z.to_nat (b + 1)).
  assert (HN : Z.of_nat N = (b + 1)%Z) by (unfold N; lia).
  pose (c := fun v => sg v * rf v * rf (b - v) * rf (l - 1 - b + v) * rf (a + b - l + 1 - v)).
  pose (g := fun v => - IZR v * c v * (F (a + b + n - i - v + 1) * F (i + v - 1))).
  pose (h := fun v => (IZR (a + b - l + 1 - v)) * c v * (F (a + b + n - i - v) * F (i + v))).
  assert (E1 : IZR l * sumR N (Vt a b n i l) = sumR N g + sumR N h).
  { rewrite <- (sumR_shift N g).
    - rewrite <- sumR_scal, <- sumR_plus. apply sumR_ext. intros v Hv. unfold Vt, g, h, c.
      replace l with ((b - v) + (l - b + v))%Z at 1 by lia. rewrite (plus_IZR (b - v)).
      match goal with |- (?x + ?y) * (?s * ?f1 * ?f2 * ?r1 * ?r2 * ?r3 * ?r4) = _ =>
        transitivity (s * f1 * f2 * r1 * (x * r2) * r3 * r4 + s * f1 * f2 * r1 * r2 * (y * r3) * r4); [ring|] end.
      rewrite !rf_P. rewrite sg_S.
      replace (a + b + n - i - (v + 1) + 1)%Z with (a + b + n - i - v)%Z by lia.
      replace (i + (v + 1) - 1)%Z with (i + v)%Z by lia.
      replace (l - 1 - b + (v + 1))%Z with (l - b + v)%Z by lia.
      replace (a + b - l + 1 - (v + 1))%Z with (a + b - l - v)%Z by lia.
      replace (b - (v + 1))%Z with (b - v - 1)%Z by lia.
      replace (l - b + v - 1)%Z with (l - 1 - b + v)%Z by lia.
      replace (rf v) with (IZR (v + 1) * rf (v + 1)) at 1 by (rewrite rf_P; f_equal; lia).
      replace (rf (a + b - l - v)) with (IZR (a + b - l + 1 - v) * rf (a + b - l + 1 - v)) at 2
        by (rewrite rf_P; f_equal; lia).
      ring.
    - unfold g. ring.
    - unfold g, c. rewrite HN. rewrite (rf_neg (b - (b + 1))) by lia. ring. }
  rewrite E1, <- !sumR_scal.
  replace (sumR N (fun k => IZR i * Vt a b n (i - 1) (l - 1) k) - sumR N (fun k => IZR (l + n - i) * Vt a b n i (l - 1) k))
    with (sumR N (fun k => IZR i * Vt a b n (i - 1) (l - 1) k + - IZR (l + n - i) * Vt a b n i (l - 1) k)).
  2:{ rewrite sumR_plus. rewrite (sumR_ext N (fun k => - IZR (l + n - i) * Vt a b n i (l - 1) k) (fun k => -1 * (IZR (l + n - i) * Vt a b n i (l - 1) k))).
      - rewrite !sumR_scal. ring. - intros; ring. }
  rewrite <- sumR_plus. apply sumR_ext. intros v Hv. unfold Vt, g, h.
  replace (a + b + n - (i - 1) - v)%Z with (a + b + n - i - v + 1)%Z by lia.
  replace (i - 1 + v)%Z with (i + v - 1)%Z by lia.
  assert (Ec : c v = sg v * rf v * rf (b - v) * rf (l - 1 - b + v) * rf (a + b - (l - 1) - v)).
  { unfold c. do 2 f_equal. lia. }
  match goal with |- _ = _ * (?s * ?x1 * ?x2 * ?r1 * ?r2 * ?r3 * ?r4) + _ * (_ * ?y1 * ?y2 * _ * _ * _ * _) =>
     transitivity (IZR i * (s * r1 * r2 * r3 * r4) * (x1 * x2) + - IZR (l + n - i) * (s * r1 * r2 * r3 * r4) * (y1 * y2)); [|ring] end.
  rewrite <- Ec.
  destruct (Z.eq_dec (i + v) 0) as [Z0|Nz].
  - assert (c v = 0) as ->; [|ring]. unfold c. rewrite (rf_neg (l - 1 - b + v)) by lia. ring.
  - rewrite (F_S (a + b + n - i - v)) by lia. rewrite (F_P (i + v)) by lia.
    rewrite !minus_IZR, !plus_IZR. rewrite ?minus_IZR, ?plus_IZR. ring.
Qed.

Lemma V_raise i l : (0 <= i <= a + n)%Z -> (0 <= l + n - i)%Z ->
  IZR (a + b - l) * V a b n i l = IZR (a + n - i) * V a b n (i + 1) (l + 1) - IZR (b + i - l) * V a b n i (l + 1).
Proof.
  intros Hi Hl. unfold V. set (N := Z.to_nat (b + 1)).
  assert (HN : Z.of_nat N = (b + 1)%Z) by (unfold N; lia).
  pose (c := fun v => sg v * rf v * rf (b - v) * rf (l + 1 - b + v) * rf (a + b - l - 1 - v)).
  pose (g := fun v => IZR v * Vt a b n i l v).
  pose (h := fun v => - IZR (b - v) * c v * (F (a + b + n - i - v - 1) * F (i + v + 1)) + IZR (l + 1 - b + v) * c v * (F (a + b + n - i - v) * F (i + v))).
  assert (E1 : IZR (a + b - l) * sumR N (Vt a b n i l) = sumR N h).
  { transitivity (sumR N g + sumR N (fun v => IZR (a + b - l - v) * Vt a b n i l v)).
    - rewrite <- sumR_plus, <- sumR_scal. apply sumR_ext. intros v Hv. unfold g. rewrite !minus_IZR. ring.
    - rewrite <- (sumR_shift N g).
      + rewrite <- sumR_plus. apply sumR_ext. intros v Hv. unfold g, h, c, Vt.
        match goal with |- ?y * (?s * ?f1 * ?f2 * ?r1 * ?r2 * ?r3 * ?r4) + ?y' * (?s' * ?f1' * ?f2' * ?r1' * ?r2' * ?r3' * ?r4') = _ =>
          transitivity (s * f1 * f2 * (y * r1) * r2 * r3 * r4 + s' * f1' * f2' * r1' * r2' * r3' * (y' * r4')); [ring|] end.
        rewrite !rf_P, sg_S.
        replace (a + b + n - i - (v + 1))%Z with (a + b + n - i - v - 1)%Z by lia.
        replace (i + (v + 1))%Z with (i + v + 1)%Z by lia.
        replace (v + 1 - 1)%Z with v by lia.
        replace (l - b + (v + 1))%Z with (l + 1 - b + v)%Z by lia.
        replace (a + b - l - (v + 1))%Z with (a + b - l - 1 - v)%Z by lia.
        replace (a + b - l - v - 1)%Z with (a + b - l - 1 - v)%Z by lia.
        replace (rf (b - (v + 1))) with (IZR (b - v) * rf (b - v)) by (rewrite rf_P; f_equal; lia).
        replace (rf (l - b + v)) with (IZR (l + 1 - b + v) * rf (l + 1 - b + v)) by (rewrite rf_P; f_equal; lia).
        ring.
      + unfold g. ring.
      + unfold g, Vt. rewrite HN. rewrite (rf_neg (b - (b + 1))) by lia. ring. }
  rewrite E1, <- !sumR_scal.
  replace (sumR N (fun k => IZR (a + n - i) * Vt a b n (i + 1) (l + 1) k) - sumR N (fun k => IZR (b + i - l) * Vt a b n i (l + 1) k))
    with (sumR N (fun k => IZR (a + n - i) * Vt a b n (i + 1) (l + 1) k + - IZR (b + i - l) * Vt a b n i (l + 1) k)).
  2:{ rewrite sumR_plus. rewrite (sumR_ext N (fun k => - IZR (b + i - l) * Vt a b n i (l + 1) k) (fun k => -1 * (IZR (b + i - l) * Vt a b n i (l + 1) k))).
      - rewrite !sumR_scal. ring. - intros; ring. }
  apply sumR_ext. intros v Hv. unfold Vt, h.
  replace (a + b + n - (i + 1) - v)%Z with (a + b + n - i - v - 1)%Z by lia.
  replace (i + 1 + v)%Z with (i + v + 1)%Z by lia.
  assert (Ec : c v = sg v * rf v * rf (b - v) * rf (l + 1 - b + v) * rf (a + b - (l + 1) - v)).
  { unfold c. do 2 f_equal. lia. }
  match goal with |- _ = _ * (?s * ?x1 * ?x2 * ?r1 * ?r2 * ?r3 * ?r4) + _ * (_ * ?y1 * ?y2 * _ * _ * _ * _) =>
     transitivity (IZR (a + n - i) * (s * r1 * r2 * r3 * r4) * (x1 * x2) + - IZR (b + i - l) * (s * r1 * r2 * r3 * r4) * (y1 * y2)); [|ring] end.
  rewrite <- Ec.
  destruct (Z.eq_dec (a + b + n - i - v) 0) as [Z0|Nz].
  - assert (c v = 0) as ->; [|ring]. unfold c. rewrite (rf_neg (a + b - l - 1 - v)) by lia. ring.
  - rewrite (F_S (i + v)) by lia. rewrite (F_P (a + b + n - i - v)) by lia.
    rewrite !minus_IZR, !plus_IZR. rewrite ?minus_IZR, ?plus_IZR. ring.
Qed.

Lemma V_beyond i l : (a + b < l)%Z -> V a b n i l = 0.
Proof.
  intros H. unfold V. apply sumR_zero. intros v Hv. unfold Vt.
  rewrite (rf_neg (a + b - l - v)) by lia. ring.
Qed.
Lemma V_below i l : (l < 0)%Z -> V a b n i l = 0.
Proof.
  intros H. unfold V. apply sumR_zero. intros v Hv. unfold Vt.
  assert (v <= b)%Z by lia.
  rewrite (rf_neg (l - b + v)) by lia. ring.
Qed.
(* the column M = J has one term *)
Lemma V_top i : (0 <= i <= n)%Z -> V a b n i 0 = sg b * F (a + n - i) * F (i + b) / (F b * F a).
Proof.
  intros Hi. unfold V. replace (Z.to_nat (b + 1)) with (S (Z.to_nat b)) by lia. cbn [sumR].
  rewrite sumR_zero.
  - rewrite Z2Nat.id by exact Hb. unfold Vt.
    replace (a + b + n - i - b)%Z with (a + n - i)%Z by lia. replace (b - b)%Z with 0%Z by lia.
    replace (0 - b + b)%Z with 0%Z by lia. replace (a + b - 0 - b)%Z with a by lia.
    rewrite !rf_F by lia. assert (E0 : F 0 = 1) by reflexivity. rewrite E0.
    pose proof (F_pos a). pose proof (F_pos b). field. lra.
  - intros v Hv. unfold Vt. rewrite (rf_neg (0 - b + v)) by lia. ring.
Qed.
End Ladder.

(* sum_k (a+n-k)!/(n-k)! (b+k)!/k! = a! b! (a+b+n+1)!/(n! (a+b+1)!) *)
Definition hock (a b : Z) (n : nat) : R :=
  sumR (S n) (fun k => F (a + Z.of_nat n - k) * F (b + k) * rf (Z.of_nat n - k) * rf k).

Lemma hock_step a b n : (0 <= a)%Z -> (0 <= b)%Z ->
  INR (S n) * hock a b (S n) = (IZR a + IZR b + INR n + 2) * hock a b n.
Proof.
  intros Ha Hb. unfold hock.
  set (m := Z.of_nat n). replace (Z.of_nat (S n)) with (m + 1)%Z by (unfold m; lia).
  pose (g := fun k => IZR k * (F (a + (m + 1) - k) * F (b + k) * rf (m + 1 - k) * rf k)).
  pose (h := fun k => (IZR (m + 1 - k)) * (F (a + (m + 1) - k) * F (b + k) * rf (m + 1 - k) * rf k)).
  assert (HI : INR (S n) = IZR (m + 1)). { rewrite INR_IZR_INZ. f_equal. unfold m. lia. }
  assert (HI2 : INR n = IZR m). { rewrite INR_IZR_INZ. reflexivity. }
  rewrite HI, HI2, <- !sumR_scal.
  transitivity (sumR (S (S n)) g + sumR (S (S n)) h).
  { rewrite <- sumR_plus. apply sumR_ext. intros k Hk. unfold g, h. rewrite (minus_IZR (m + 1)). ring. }
  rewrite (sumR_first _ g). replace (g 0%Z) with 0 by (unfold g; ring).
  change (sumR (S (S n)) h) with (sumR (S n) h + h (Z.of_nat (S n))).
  replace (h (Z.of_nat (S n))) with 0.
  2:{ unfold h. replace (m + 1 - Z.of_nat (S n))%Z with 0%Z by (unfold m; lia). ring. }
  rewrite Rplus_0_r, Rplus_0_l, <- sumR_plus. apply sumR_ext. intros k Hk. unfold g, h.
  replace (m + 1 - (k + 1))%Z with (m - k)%Z by lia.
  replace (a + (m + 1) - (k + 1))%Z with (a + m - k)%Z by lia.
  replace (a + (m + 1) - k)%Z with (a + m - k + 1)%Z by lia.
  replace (b + (k + 1))%Z with (b + k + 1)%Z by lia.
  rewrite !F_S by (unfold m; lia).
  transitivity ((IZR (b + k) + 1) * F (b + k) * F (a + m - k) * rf (m - k) * (IZR (k + 1) * rf (k + 1))
    + (IZR (a + m - k) + 1) * F (a + m - k) * F (b + k) * (IZR (m + 1 - k) * rf (m + 1 - k)) * rf k); [ring|].
  rewrite !rf_P. replace (k + 1 - 1)%Z with k by lia. replace (m + 1 - k - 1)%Z with (m - k)%Z by lia.
  rewrite ?minus_IZR, ?plus_IZR. ring.
Qed.

Lemma hock_closed a b n : (0 <= a)%Z -> (0 <= b)%Z ->
  hock a b n = F a * F b * F (a + b + Z.of_nat n + 1) / (F (Z.of_nat n) * F (a + b + 1)).
Proof.
  intros Ha Hb. induction n as [|n IH].
  - unfold hock. cbn [sumR]. cbn [Z.of_nat]. replace (a + 0 - 0)%Z with a by lia. replace (b + 0)%Z with b by lia.
    replace (a + b + 0 + 1)%Z with (a + b + 1)%Z by lia. rewrite !rf_F by lia.
    replace (F (0 - 0)) with 1 by reflexivity. replace (F 0) with 1 by reflexivity.
    pose proof (F_pos (a + b + 1)). field. lra.
  - pose proof (hock_step a b n Ha Hb) as E. rewrite IH in E.
    assert (P : INR (S n) <> 0) by (apply not_0_INR; lia).
    apply (Rmult_eq_reg_l (INR (S n))); [|exact P]. rewrite E.
    rewrite Nat2Z.inj_succ. unfold Z.succ. rewrite (F_S (Z.of_nat n)) by lia.
    replace (a + b + (Z.of_nat n + 1) + 1)%Z with (a + b + Z.of_nat n + 1 + 1)%Z by lia.
    rewrite (F_S (a + b + Z.of_nat n + 1)) by lia.
    rewrite S_INR, INR_IZR_INZ, !plus_IZR.
    pose proof (F_pos (Z.of_nat n)). pose proof (F_pos (a + b + 1)).
    assert (IZR (Z.of_nat n) + 1 <> 0). { rewrite <- INR_IZR_INZ, <- S_INR. exact P. }
    field. repeat split; lra.
Qed.
