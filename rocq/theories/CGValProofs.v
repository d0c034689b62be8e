(* The coefficients returned by clebschGordanCoeff as real numbers, in terms of the sums of WignerProofs. *)
From Coq Require Import ZArith QArith Qreals Reals Lra Lia Bool List Factorial.
From Verif Require Import SpinModel SpinSpec SpinProofs CGModel CGSpec CGProofs SpinProps WignerProofs.
Import ListNotations.
Open Scope R_scope.

(* the real number a returned coefficient stands for *)
Definition cgReal (v : cgVal) : R := match v with CGZero => 0 | CGRoot A s => sqrt (Q2R A) * Q2R s end.
(* (j1 m1 j2 m2 | J M) as returned by a call without the cache *)
Definition CG (j1 m1 j2 m2 J M : Z) : R :=
  match snd (cgCall (cgSetUse cgInit false) j1 m1 j2 m2 J M) with CGVal v => cgReal v | CGTerminate => 0 end.

Lemma CG_reference j1 m1 j2 m2 J M :
  exists v, cgReference j1 m1 j2 m2 J M = CGVal v /\ CG j1 m1 j2 m2 J M = cgReal v.
Proof.
  unfold CG. destruct (cgCall _ _ _ _ _ _ _) as [s o] eqn:E.
  assert (Hi : cgInv (cgSetUse cgInit false)) by (intros ? ? ? ? ? ? _ Hc; discriminate Hc).
  destruct (cgCall_inv _ _ _ _ _ _ _ _ _ Hi E) as (_ & _ & Ht & Hv).
  destruct o as [|v]; [destruct (Ht eq_refl); discriminate|].
  exists v. split; [symmetry; apply Hv; discriminate|reflexivity].
Qed.

Lemma CG_wigner j1 m1 j2 m2 J M : cgAdmissible j1 m1 j2 m2 J M ->
  CG j1 m1 j2 m2 J M = sqrt (Q2R (wignerPrefactor j1 m1 j2 m2 J M)) *
    Q2R (sumQ (Z.to_nat (J + M + 1)) (wignerTerm j1 m1 j2 m2 J M)).
Proof.
  intros H. destruct (CG_reference j1 m1 j2 m2 J M) as (v & E & ->).
  destruct (reference_isWigner j1 m1 j2 m2 J M) as (v' & E' & W & _). rewrite E in E'. injection E' as <-.
  destruct (W H) as (s & Es & [[Z ->]|[N ->]]); cbn [cgReal].
  - rewrite <- (Qeq_eqR _ _ Es), (Qeq_eqR _ _ Z). unfold Q2R. cbn. ring.
  - rewrite (Qeq_eqR _ _ Es). reflexivity.
Qed.
Lemma CG_not j1 m1 j2 m2 J M : ~ cgAdmissible j1 m1 j2 m2 J M -> CG j1 m1 j2 m2 J M = 0.
Proof.
  intros H. destruct (CG_reference j1 m1 j2 m2 J M) as (v & E & ->).
  destruct (reference_isWigner j1 m1 j2 m2 J M) as (v' & E' & _ & W). rewrite E in E'. injection E' as <-.
  rewrite (W H). reflexivity.
Qed.

Lemma Q2R_sumQ n f : Q2R (sumQ n f) = sumR n (fun k => Q2R (f k)).
Proof. induction n as [|n IH]; cbn [sumQ sumR]; [unfold Q2R; cbn; ring|]. rewrite Q2R_plus, IH. reflexivity. Qed.
Lemma Q2R_Z z : Q2R (inject_Z z) = IZR z.
Proof. unfold Q2R, inject_Z. cbn. field. Qed.
Lemma Q2R_frac x y : (y <> 0)%Z -> Q2R (inject_Z x / inject_Z y) = IZR x / IZR y.
Proof.
  intros H. rewrite Q2R_div; [|unfold Qeq; cbn; lia]. now rewrite !Q2R_Z.
Qed.
Lemma fac_F z : IZR (facSpec z) = F z.
Proof. unfold facSpec, F. symmetry. apply INR_IZR_INZ. Qed.
Lemma fac_nz z : (facSpec z <> 0)%Z.
Proof. unfold facSpec. pose proof (lt_O_fact (Z.to_nat z)). lia. Qed.

Lemma nzmul x y : (x <> 0 -> y <> 0 -> x * y <> 0)%Z.
Proof. nia. Qed.
Ltac nzfac := repeat match goal with
  | |- (?x * ?y)%Z <> 0%Z => apply nzmul
  | |- facSpec _ <> 0%Z => apply fac_nz end.

Definition Kf (a b n : Z) : R := (IZR (a + b) + 1) * F a * F b * F n / F (a + b + n + 1).
Definition Pf (a b n i l : Z) : R := F (a + b - l) * F l * rf i * rf (a + n - i) * rf (l + n - i) * rf (b + i - l).
Definition Cf (a b n i l : Z) : R := sqrt (Kf a b n * Pf a b n i l) * (sg (b + l - i) * V a b n i l).

Lemma CG_Cf_adm a b n i k : (0 <= a)%Z -> (0 <= b)%Z -> (0 <= n)%Z -> (0 <= i <= a + n)%Z -> (0 <= k <= b + n)%Z ->
  (0 <= i + k - n <= a + b)%Z ->
  CG (a + n) (a + n - 2 * i) (b + n) (b + n - 2 * k) (a + b) (a + b - 2 * (i + k - n)) = Cf a b n i (i + k - n).
Proof.
  intros Ha Hb Hn Hi Hk Hl. set (l := (i + k - n)%Z) in *.
  rewrite CG_wigner.
  2:{ split; [split; [lia|exists (a + n - i)%Z; lia]|]. split; [split; [lia|exists (b + n - k)%Z; lia]|].
      split; [split; [lia|exists (a + b - l)%Z; lia]|]. split; [|lia]. split; [lia|]. split; [lia|].
      destruct (Z.le_ge_cases a b); [exists a|exists b]; lia. }
  assert (D : forall x y, (x = 2 * y)%Z -> halfOf x = y) by (intros x y ->; apply half2).
  unfold Cf. f_equal.
  - f_equal. unfold wignerPrefactor.
    rewrite (D (a + b + (a + n) - (b + n))%Z a) by lia. rewrite (D (a + b - (a + n) + (b + n))%Z b) by lia.
    rewrite (D (a + n + (b + n) - (a + b))%Z n) by lia. rewrite (D (a + b + (a + b - 2 * l))%Z (a + b - l)%Z) by lia.
    rewrite (D (a + b - (a + b - 2 * l))%Z l) by lia. rewrite (D (a + n + (b + n) + (a + b))%Z (a + b + n)%Z) by lia.
    rewrite (D (a + n - (a + n - 2 * i))%Z i) by lia. rewrite (D (a + n + (a + n - 2 * i))%Z (a + n - i)%Z) by lia.
    rewrite (D (b + n - (b + n - 2 * k))%Z k) by lia. rewrite (D (b + n + (b + n - 2 * k))%Z (b + n - k)%Z) by lia.
    rewrite Q2R_frac.
    2:{ nzfac. }
    rewrite !mult_IZR, !fac_F, (plus_IZR (a + b) 1). unfold Kf, Pf. 
    replace (l + n - i)%Z with k by (unfold l; lia). replace (b + i - l)%Z with (b + n - k)%Z by (unfold l; lia).
    rewrite !rf_F by lia.
    pose proof (F_pos (a + b + n + 1)). pose proof (F_pos i). pose proof (F_pos (a + n - i)). pose proof (F_pos k). pose proof (F_pos (b + n - k)).
    field. repeat split; lra.
  - rewrite Q2R_sumQ. unfold V. rewrite <- sumR_scal.
    set (f := fun k0 => Q2R (wignerTerm (a + n) (a + n - 2 * i) (b + n) (b + n - 2 * k) (a + b) (a + b - 2 * l) k0)).
    assert (Et : forall v, (0 <= v)%Z -> f v = if (v <=? b)%Z then sg (b + l - i) * Vt a b n i l v else 0).
    { intros v Hv. unfold f, wignerTerm.
      rewrite (D (b + n + (a + b) + (a + n - 2 * i))%Z (a + b + n - i)%Z) by lia.
      rewrite (D (a + n - (a + n - 2 * i))%Z i) by lia. rewrite (D (a + b - (a + n) + (b + n))%Z b) by lia.
      rewrite (D (a + b + (a + b - 2 * l))%Z (a + b - l)%Z) by lia.
      rewrite (D (a + n - (b + n) - (a + b - 2 * l))%Z (l - b)%Z) by lia.
      rewrite (D (b + n + (b + n - 2 * k))%Z (b + n - k)%Z) by lia.
      destruct (Z.leb_spec v b).
      - replace (0 <=? v)%Z with true by (symmetry; apply Z.leb_le; lia).
        replace (0 <=? a + b + n - i - v)%Z with true by (symmetry; apply Z.leb_le; lia).
        replace (0 <=? i + v)%Z with true by (symmetry; apply Z.leb_le; lia).
        replace (0 <=? b - v)%Z with true by (symmetry; apply Z.leb_le; lia). cbn [andb]. unfold Vt.
        destruct (Z.leb_spec 0 (a + b - l - v)); [destruct (Z.leb_spec 0 (l - b + v))|]; cbn [andb].
        + rewrite Q2R_frac by nzfac.
          rewrite !mult_IZR, !fac_F. rewrite !rf_F by lia.
          fold (sg (v + (b + n - k))).
          assert (sg (v + (b + n - k)) = sg (b + l - i) * sg v) as ->.
          { replace (v + (b + n - k))%Z with (b + l - i + v + 2 * (n - k))%Z by (unfold l; lia).
            unfold sg, minusOnePow. rewrite !Z.even_add, Z.even_mul. cbn [Z.even]. cbn [orb].
            destruct (Z.even (b + l - i)), (Z.even v), (Z.even (b + l)), (Z.even i); cbn; lra. }
          pose proof (F_pos v). pose proof (F_pos (b - v)). pose proof (F_pos (a + b - l - v)). pose proof (F_pos (l - b + v)).
          field. repeat split; lra.
        + rewrite (rf_neg (l - b + v)) by lia. unfold Q2R. cbn. ring.
        + rewrite (rf_neg (a + b - l - v)) by lia. unfold Q2R. cbn. ring.
      - replace (0 <=? b - v)%Z with false by (symmetry; apply Z.leb_gt; lia).
        rewrite andb_false_r. cbn [andb]. unfold Q2R. cbn. ring. }
    set (N := Z.to_nat (a + b + (a + b - 2 * l) + 1)). set (B := Z.to_nat (b + 1)).
    transitivity (sumR (N + B) f).
    + symmetry. apply sumR_trim; [lia|]. intros v Hv. rewrite Et by lia. destruct (v <=? b)%Z eqn:Eb; [|reflexivity].
      unfold Vt. rewrite (rf_neg (a + b - l - v)) by (unfold N in Hv; lia). ring.
    + rewrite (sumR_trim B) by (try lia; intros v Hv; rewrite Et by lia; replace (v <=? b)%Z with false by (symmetry; apply Z.leb_gt; unfold B in Hv; lia); reflexivity).
      apply sumR_ext. intros v Hv. rewrite Et by lia. replace (v <=? b)%Z with true by (symmetry; apply Z.leb_le; unfold B in Hv; lia). reflexivity.
Qed.

Lemma CG_Cf a b n i k : (0 <= a)%Z -> (0 <= b)%Z -> (0 <= n)%Z ->
  CG (a + n) (a + n - 2 * i) (b + n) (b + n - 2 * k) (a + b) (a + b - 2 * (i + k - n)) = Cf a b n i (i + k - n).
Proof.
  intros Ha Hb Hn.
  assert ({(0 <= i <= a + n)%Z /\ (0 <= k <= b + n)%Z /\ (0 <= i + k - n <= a + b)%Z} +
    {((i < 0 \/ a + n < i) \/ (k < 0 \/ b + n < k) \/ (i + k - n < 0 \/ a + b < i + k - n))%Z}) as [(H1 & H2 & H3)|H].
  { destruct (Z_le_dec 0 i), (Z_le_dec i (a + n)), (Z_le_dec 0 k), (Z_le_dec k (b + n)), (Z_le_dec 0 (i + k - n)), (Z_le_dec (i + k - n) (a + b));
      (left; lia) || (right; lia). }
  - now apply CG_Cf_adm.
  - rewrite CG_not.
    + unfold Cf. destruct H as [H|[H|H]].
      * assert (Pf a b n i (i + k - n) = 0) as ->; [|rewrite Rmult_0_r, sqrt_0; ring]. unfold Pf.
        destruct H; [rewrite (rf_neg i) by lia|rewrite (rf_neg (a + n - i)) by lia]; ring.
      * assert (Pf a b n i (i + k - n) = 0) as ->; [|rewrite Rmult_0_r, sqrt_0; ring]. unfold Pf.
        destruct H; [rewrite (rf_neg (i + k - n + n - i)) by lia|rewrite (rf_neg (b + i - (i + k - n))) by lia]; ring.
      * destruct H; [rewrite V_below by lia|rewrite V_beyond by lia]; ring.
    + intros ((_ & x & Hx & Ex) & (_ & y & Hy & Ey) & (_ & z & Hz & Ez) & _). lia.
Qed.

Lemma rf_nn z : 0 <= rf z.
Proof. unfold rf. destruct (z <? 0)%Z; [lra|]. pose proof (Rinv_0_lt_compat _ (F_pos z)). lra. Qed.
Lemma Kf_pos a b n : (0 <= a)%Z -> (0 <= b)%Z -> 0 < Kf a b n.
Proof.
  intros Ha Hb. unfold Kf. assert (0 <= IZR (a + b)) by (apply IZR_le; lia).
  apply Rdiv_lt_0_compat; [|apply F_pos].
  repeat apply Rmult_lt_0_compat; try apply F_pos. lra.
Qed.
Lemma sqrt_sq_mul x y : 0 <= y -> 0 <= x -> sqrt (x * x * y) = x * sqrt y.
Proof. intros Hy Hx. rewrite sqrt_mult by nra. now rewrite sqrt_square. Qed.

Section CfLadder.
Variables a b n : Z.
Hypotheses (Ha : (0 <= a)%Z) (Hb : (0 <= b)%Z) (Hn : (0 <= n)%Z).

Lemma Cf_out i l : ((i < 0 \/ a + n < i) \/ (l + n - i < 0 \/ b + i - l < 0) \/ (l < 0 \/ a + b < l))%Z -> Cf a b n i l = 0.
Proof.
  intros H. unfold Cf. destruct H as [H|[H|H]].
  - assert (Pf a b n i l = 0) as ->; [|rewrite Rmult_0_r, sqrt_0; ring]. unfold Pf.
    destruct H; [rewrite (rf_neg i) by lia|rewrite (rf_neg (a + n - i)) by lia]; ring.
  - assert (Pf a b n i l = 0) as ->; [|rewrite Rmult_0_r, sqrt_0; ring]. unfold Pf.
    destruct H; [rewrite (rf_neg (l + n - i)) by lia|rewrite (rf_neg (b + i - l)) by lia]; ring.
  - destruct H; [rewrite V_below by lia|rewrite V_beyond by lia]; ring.
Qed.
Lemma sqrt_IZR0 z : (z <= 0)%Z -> sqrt (IZR z) = 0.
Proof. intros H. apply sqrt_neg_0. apply IZR_le. exact H. Qed.

Lemma Cf_lower i l :
  sqrt (IZR (l * (a + b - l + 1))) * Cf a b n i l
  = sqrt (IZR (i * (a + n - i + 1))) * Cf a b n (i - 1) (l - 1)
    + sqrt (IZR ((l + n - i) * (b + i - l + 1))) * Cf a b n i (l - 1).
Proof.
  destruct (Z_lt_le_dec i 0). { rewrite !(Cf_out) by lia. ring. }
  destruct (Z_lt_le_dec (a + n) i) as [Hx|].
  { rewrite (Cf_out i l), (Cf_out i (l - 1)) by lia. rewrite (sqrt_IZR0 (i * _)) by nia. ring. }
  destruct (Z_lt_le_dec (l + n - i) 0). { rewrite !(Cf_out) by lia. ring. }
  destruct (Z_lt_le_dec (b + i - l) 0) as [Hx|].
  { rewrite (Cf_out i l), (Cf_out (i - 1) (l - 1)) by lia. rewrite (sqrt_IZR0 ((l + n - i) * _)) by nia. ring. }
  destruct (Z_lt_le_dec l 1).
  { rewrite (Cf_out i (l - 1)), (Cf_out (i - 1) (l - 1)) by lia. rewrite (sqrt_IZR0 (l * _)) by nia. ring. }
  pose (R0 := Kf a b n * (F (a + b - l + 1) * F (l - 1) * rf i * rf (a + n - i) * rf (l + n - i) * rf (b + i - l))).
  assert (R0p : 0 <= R0).
  { unfold R0. pose proof (Kf_pos a b n Ha Hb). apply Rmult_le_pos; [lra|].
    repeat apply Rmult_le_pos; try apply rf_nn; try (apply Rlt_le, F_pos). }
  assert (Pp : forall x y, 0 <= Pf a b n x y).
  { intros. unfold Pf. repeat apply Rmult_le_pos; try apply rf_nn; try (apply Rlt_le, F_pos). }
  assert (KP : forall x y, 0 <= Kf a b n * Pf a b n x y).
  { intros. pose proof (Kf_pos a b n Ha Hb). apply Rmult_le_pos; [lra|apply Pp]. }
  assert (E1 : sqrt (IZR (i * (a + n - i + 1))) * sqrt (Kf a b n * Pf a b n (i - 1) (l - 1)) = IZR i * sqrt R0).
  { rewrite <- sqrt_mult by (try apply KP; apply IZR_le; nia).
    rewrite <- sqrt_sq_mul by (try exact R0p; apply IZR_le; lia). f_equal. rewrite mult_IZR. unfold R0, Pf.
    replace (a + b - (l - 1))%Z with (a + b - l + 1)%Z by lia. replace (a + n - (i - 1))%Z with (a + n - i + 1)%Z by lia.
    replace (l - 1 + n - (i - 1))%Z with (l + n - i)%Z by lia. replace (b + (i - 1) - (l - 1))%Z with (b + i - l)%Z by lia.
    rewrite <- (rf_P i). rewrite <- (rf_S (a + n - i)). rewrite (plus_IZR (a + n - i)). ring. }
  assert (E2 : sqrt (IZR ((l + n - i) * (b + i - l + 1))) * sqrt (Kf a b n * Pf a b n i (l - 1)) = IZR (l + n - i) * sqrt R0).
  { rewrite <- sqrt_mult by (try apply KP; apply IZR_le; nia).
    rewrite <- sqrt_sq_mul by (try exact R0p; apply IZR_le; lia). f_equal. rewrite mult_IZR. unfold R0, Pf.
    replace (a + b - (l - 1))%Z with (a + b - l + 1)%Z by lia.
    replace (l - 1 + n - i)%Z with (l + n - i - 1)%Z by lia. replace (b + i - (l - 1))%Z with (b + i - l + 1)%Z by lia.
    rewrite <- (rf_P (l + n - i)). rewrite <- (rf_S (b + i - l)). rewrite (plus_IZR (b + i - l)). ring. }
  transitivity (sqrt R0 * sg (b + l - i) * (IZR l * V a b n i l)).
  - destruct (Z_lt_le_dec (a + b) l).
    + rewrite Cf_out, V_beyond by lia. ring.
    + unfold Cf. rewrite <- Rmult_assoc. rewrite <- sqrt_mult by (try apply KP; apply IZR_le; nia).
      assert (IZR (l * (a + b - l + 1)) * (Kf a b n * Pf a b n i l) = IZR l * IZR l * R0) as ->.
      { rewrite mult_IZR. unfold R0, Pf. rewrite (F_P l) by lia. rewrite (F_S (a + b - l)) by lia.
        rewrite (plus_IZR (a + b - l)). ring. }
      rewrite sqrt_sq_mul by (try exact R0p; apply IZR_le; lia). ring.
  - rewrite (V_lower a b n) by lia. unfold Cf.
    replace (b + (l - 1) - (i - 1))%Z with (b + l - i)%Z by lia.
    replace (b + (l - 1) - i)%Z with (b + l - i - 1)%Z by lia. rewrite sg_P.
    transitivity ((sqrt (IZR (i * (a + n - i + 1))) * sqrt (Kf a b n * Pf a b n (i - 1) (l - 1))) * (sg (b + l - i) * V a b n (i - 1) (l - 1))
       + (sqrt (IZR ((l + n - i) * (b + i - l + 1))) * sqrt (Kf a b n * Pf a b n i (l - 1))) * (- sg (b + l - i) * V a b n i (l - 1))); [|ring].
    rewrite E1, E2. ring.
Qed.

Lemma Cf_raise i l :
  sqrt (IZR ((l + 1) * (a + b - l))) * Cf a b n i l
  = sqrt (IZR ((i + 1) * (a + n - i))) * Cf a b n (i + 1) (l + 1)
    + sqrt (IZR ((l + n - i + 1) * (b + i - l))) * Cf a b n i (l + 1).
Proof.
  destruct (Z_lt_le_dec (a + n) i). { rewrite !(Cf_out) by lia. ring. }
  destruct (Z_lt_le_dec i 0) as [Hx|].
  { rewrite (Cf_out i l), (Cf_out i (l + 1)) by lia. rewrite (sqrt_IZR0 ((i + 1) * _)) by nia. ring. }
  destruct (Z_lt_le_dec (b + i - l) 0). { rewrite !(Cf_out) by lia. ring. }
  destruct (Z_lt_le_dec (l + n - i) 0) as [Hx|].
  { rewrite (Cf_out i l), (Cf_out (i + 1) (l + 1)) by lia. rewrite (sqrt_IZR0 ((l + n - i + 1) * _)) by nia. ring. }
  destruct (Z_lt_le_dec (a + b - l) 1).
  { rewrite (Cf_out i (l + 1)), (Cf_out (i + 1) (l + 1)) by lia.
    destruct (Z_lt_le_dec (a + b) l); [rewrite Cf_out by lia; ring|]. rewrite (sqrt_IZR0 ((l + 1) * _)) by nia. ring. }
  pose (R0 := Kf a b n * (F (a + b - l - 1) * F (l + 1) * rf i * rf (a + n - i) * rf (l + n - i) * rf (b + i - l))).
  assert (R0p : 0 <= R0).
  { unfold R0. pose proof (Kf_pos a b n Ha Hb). apply Rmult_le_pos; [lra|].
    repeat apply Rmult_le_pos; try apply rf_nn; try (apply Rlt_le, F_pos). }
  assert (Pp : forall x y, 0 <= Pf a b n x y).
  { intros. unfold Pf. repeat apply Rmult_le_pos; try apply rf_nn; try (apply Rlt_le, F_pos). }
  assert (KP : forall x y, 0 <= Kf a b n * Pf a b n x y).
  { intros. pose proof (Kf_pos a b n Ha Hb). apply Rmult_le_pos; [lra|apply Pp]. }
  assert (E1 : sqrt (IZR ((i + 1) * (a + n - i))) * sqrt (Kf a b n * Pf a b n (i + 1) (l + 1)) = IZR (a + n - i) * sqrt R0).
  { rewrite <- sqrt_mult by (try apply KP; apply IZR_le; nia).
    rewrite <- sqrt_sq_mul by (try exact R0p; apply IZR_le; lia). f_equal. rewrite mult_IZR. unfold R0, Pf.
    replace (a + b - (l + 1))%Z with (a + b - l - 1)%Z by lia. replace (a + n - (i + 1))%Z with (a + n - i - 1)%Z by lia.
    replace (l + 1 + n - (i + 1))%Z with (l + n - i)%Z by lia. replace (b + (i + 1) - (l + 1))%Z with (b + i - l)%Z by lia.
    rewrite <- (rf_P (a + n - i)). rewrite <- (rf_S i). rewrite (plus_IZR i). ring. }
  assert (E2 : sqrt (IZR ((l + n - i + 1) * (b + i - l))) * sqrt (Kf a b n * Pf a b n i (l + 1)) = IZR (b + i - l) * sqrt R0).
  { rewrite <- sqrt_mult by (try apply KP; apply IZR_le; nia).
    rewrite <- sqrt_sq_mul by (try exact R0p; apply IZR_le; lia). f_equal. rewrite mult_IZR. unfold R0, Pf.
    replace (a + b - (l + 1))%Z with (a + b - l - 1)%Z by lia.
    replace (l + 1 + n - i)%Z with (l + n - i + 1)%Z by lia. replace (b + i - (l + 1))%Z with (b + i - l - 1)%Z by lia.
    rewrite <- (rf_P (b + i - l)). rewrite <- (rf_S (l + n - i)). rewrite (plus_IZR (l + n - i)). ring. }
  transitivity (sqrt R0 * sg (b + l - i) * (IZR (a + b - l) * V a b n i l)).
  - destruct (Z_lt_le_dec l 0).
    + rewrite Cf_out, V_below by lia. ring.
    + unfold Cf. rewrite <- Rmult_assoc. rewrite <- sqrt_mult by (try apply KP; apply IZR_le; nia).
      assert (IZR ((l + 1) * (a + b - l)) * (Kf a b n * Pf a b n i l) = IZR (a + b - l) * IZR (a + b - l) * R0) as ->.
      { rewrite mult_IZR. unfold R0, Pf. rewrite (F_P (a + b - l)) by lia. rewrite (F_S l) by lia.
        rewrite (plus_IZR l 1). ring. }
      rewrite sqrt_sq_mul by (try exact R0p; apply IZR_le; lia). ring.
  - rewrite (V_raise a b n) by lia. unfold Cf.
    replace (b + (l + 1) - (i + 1))%Z with (b + l - i)%Z by lia.
    replace (b + (l + 1) - i)%Z with (b + l - i + 1)%Z by lia. rewrite sg_S.
    transitivity ((sqrt (IZR ((i + 1) * (a + n - i))) * sqrt (Kf a b n * Pf a b n (i + 1) (l + 1))) * (sg (b + l - i) * V a b n (i + 1) (l + 1))
       + (sqrt (IZR ((l + n - i + 1) * (b + i - l))) * sqrt (Kf a b n * Pf a b n i (l + 1))) * (- sg (b + l - i) * V a b n i (l + 1))); [|ring].
    rewrite E1, E2. ring.
Qed.

(* the column M = J *)
Lemma Cf_top i : (0 <= i <= n)%Z ->
  Cf a b n i 0 = sqrt (Kf a b n * Pf a b n i 0) * (sg i * (F (a + n - i) * F (i + b) / (F b * F a))).
Proof.
  intros Hi. unfold Cf. f_equal. rewrite V_top by assumption.
  assert (sg (b + 0 - i) * sg b = sg i) as E.
  { replace (b + 0 - i)%Z with (i + (b - i) * 2 - b)%Z by lia.
    unfold sg, minusOnePow. rewrite Z.even_sub, Z.even_add, Z.even_mul, orb_true_r.
    destruct (Z.even i), (Z.even b); cbn; lra. }
  rewrite <- E. unfold Rdiv. ring.
Qed.
Lemma Cf_top_pos : 0 < Cf a b n 0 0.
Proof.
  rewrite Cf_top by lia. change (sg 0) with 1.
  apply Rmult_lt_0_compat.
  - apply sqrt_lt_R0. apply Rmult_lt_0_compat; [now apply Kf_pos|]. unfold Pf.
    rewrite !rf_F by lia. repeat apply Rmult_lt_0_compat; try apply Rinv_0_lt_compat; apply F_pos.
  - rewrite Rmult_1_l. apply Rdiv_lt_0_compat; apply Rmult_lt_0_compat; apply F_pos.
Qed.
Lemma Cf_top_norm : sumR (S (Z.to_nat n)) (fun i => Cf a b n i 0 * Cf a b n i 0) = 1.
Proof.
  pose proof (hock_closed a b (Z.to_nat n) Ha Hb) as E. unfold hock in E. rewrite Z2Nat.id in E by exact Hn.
  transitivity (sumR (S (Z.to_nat n)) (fun k => (Kf a b n * F (a + b) / (F b * F a * (F b * F a))) * (F (a + n - k) * F (b + k) * rf (n - k) * rf k))).
  - apply sumR_ext. intros i Hi. rewrite Cf_top by lia.
    match goal with |- sqrt ?x * ?y * (sqrt ?x * ?y) = _ => transitivity ((sqrt x * sqrt x) * (y * y)); [ring|] end.
    rewrite sqrt_sqrt.
    2:{ apply Rmult_le_pos; [apply Rlt_le; now apply Kf_pos|]. unfold Pf.
        repeat apply Rmult_le_pos; try apply rf_nn; try (apply Rlt_le, F_pos). }
    unfold Pf. replace (a + b - 0)%Z with (a + b)%Z by lia. replace (F 0) with 1 by reflexivity.
    replace (0 + n - i)%Z with (n - i)%Z by lia. replace (b + i - 0)%Z with (b + i)%Z by lia. replace (i + b)%Z with (b + i)%Z by lia.
    rewrite !rf_F by lia.
    transitivity ((sg i * sg i) * (Kf a b n * F (a + b) / (F b * F a * (F b * F a)) * (F (a + n - i) * F (b + i) * / F (n - i) * / F i))).
    + pose proof (F_pos a). pose proof (F_pos b). pose proof (F_pos (n - i)). pose proof (F_pos i). pose proof (F_pos (a + n - i)). pose proof (F_pos (b + i)).
      field. repeat split; lra.
    + rewrite sg_sq. ring.
  - rewrite sumR_scal, E. unfold Kf. rewrite (F_S (a + b)) by lia.
    pose proof (F_pos a). pose proof (F_pos b). pose proof (F_pos n). pose proof (F_pos (a + b)). pose proof (F_pos (a + b + n + 1)).
    assert (0 <= IZR (a + b)) by (apply IZR_le; lia).
    field. repeat split; lra.
Qed.
End CfLadder.
