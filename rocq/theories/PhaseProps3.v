(* C72, continued: the distribution of the masses generated by NUPHAZ. *)
From Coq Require Import List ZArith Reals Bool Lia Lra Psatz.
From Coquelicot Require Import Coquelicot.
From Verif Require Import ArrayModel CGBoxModel PhysModel PhaseModel PhaseSpec PhaseProofs PhaseProofs2 PhaseProofs3.
Import ListNotations.
Open Scope R_scope.

Lemma Rpower_le_iff r a t : 0 < r -> 0 < a -> 0 < t -> (Rpower r (1 / a) <= t <-> r <= Rpower t a).
Proof.
  intros Hr Ha Ht. assert (Rpower (Rpower r (1 / a)) a = r) as E.
  { rewrite Rpower_mult. replace (1 / a * a) with 1 by (field; lra). now apply Rpower_1. }
  assert (0 < Rpower r (1 / a)) as P by apply exp_pos. split; intros H.
  - rewrite <- E. apply Rle_Rpower_l; lra.
  - destruct (Rle_or_lt (Rpower r (1 / a)) t) as [L|L]; [exact L|exfalso].
    assert (Rpower t a < r); [|lra]. rewrite <- E. unfold Rpower at 1 2. apply exp_increasing.
    apply Rmult_lt_compat_l; [exact Ha|]. now apply ln_increasing.
Qed.
Lemma div_le_iff a b t : 0 < b -> (a <= t / b <-> a * b <= t).
Proof.
  intros Hb. assert (t / b * b = t) as E by (field; lra). split; intros H.
  - apply (Rmult_le_compat_r b) in H; lra.
  - apply (Rmult_le_reg_r b); lra.
Qed.
Lemma pow_unit t n : 0 < t <= 1 -> 0 < t ^ n <= 1.
Proof. intros H. induction n as [|n IH]; cbn [pow]; [lra|]. nra. Qed.

(* the integral of min(1, t^i / r^(i/(i-1))) *)
Definition cap (i : nat) (t r : R) : R := Rmin 1 (t ^ i / Rpower r (INR i / INR (i - 1))).
Lemma cap_int i t : (2 <= i)%nat -> 0 < t <= 1 -> is_RInt (cap i t) 0 1 (INR i * t ^ (i - 1) - INR (i - 1) * t ^ i).
Proof.
  intros Hi Ht. set (k := INR (i - 1)). assert (0 < k) as Hk by (apply lt_0_INR; lia).
  assert (INR i = k + 1) as Ei by (unfold k; rewrite <- S_INR; f_equal; lia).
  set (a := t ^ (i - 1)). pose proof (pow_unit t (i - 1) Ht) as Ha. fold a in Ha.
  assert (t ^ i = t * a) as Et by (unfold a; replace i with (S (i - 1)) at 1 by lia; reflexivity).
  assert (Rpower a (INR i / k) = t ^ i) as Ea.
  { unfold a. rewrite <- !Rpower_pow by lra. rewrite Rpower_mult. fold k. f_equal. field. lra. }
  replace (INR i * a - k * t ^ i) with (plus a (k * (a - t ^ i))) by (unfold plus; cbn; rewrite Ei; ring).
  apply (@is_RInt_Chasles R_NormedModule _ 0 a 1).
  - apply (@is_RInt_ext R_NormedModule (fun _ => 1)).
    + intros r Hr. rewrite Rmin_left, Rmax_right in Hr by lra. symmetry. unfold cap. apply Rmin_left.
      assert (0 < Rpower r (INR i / k)) as P by apply exp_pos. fold k.
      assert (Rpower r (INR i / k) <= t ^ i) as L.
      { rewrite <- Ea. apply Rle_Rpower_l; [|lra]. apply Rlt_le, Rdiv_lt_0_compat; lra. }
      apply (Rmult_le_reg_r (Rpower r (INR i / k))); [exact P|]. unfold Rdiv at 2. rewrite Rmult_assoc, Rinv_l by lra. lra.
    + assert (is_RInt (fun _ : R => 1) 0 a (scal (a - 0) 1)) as K by apply (@is_RInt_const R_NormedModule).
      replace a with (scal (a - 0) 1) at 2 by (unfold scal; cbn; unfold mult; cbn; ring). exact K.
  - set (f := fun r => - k * t ^ i * Rpower r (- 1 / k)). set (df := fun r => t ^ i * Rpower r (- (INR i / k))).
    apply (@is_RInt_ext R_NormedModule df).
    + intros r Hr. rewrite Rmin_left, Rmax_right in Hr by lra. unfold df, cap. fold k. rewrite Rpower_Ropp. symmetry. apply Rmin_right.
      assert (0 < Rpower r (INR i / k)) as P by apply exp_pos.
      assert (t ^ i <= Rpower r (INR i / k)) as L.
      { rewrite <- Ea. apply Rle_Rpower_l; [|lra]. apply Rlt_le, Rdiv_lt_0_compat; lra. }
      apply (Rmult_le_reg_r (Rpower r (INR i / k))); [exact P|]. unfold Rdiv. rewrite Rmult_assoc, Rinv_l by lra. lra.
    + assert (is_RInt df a 1 (minus (f 1) (f a))) as K.
      { assert (forall e r, 0 < r -> is_derive (fun r => Rpower r e) r (e * Rpower r (e - 1))) as D.
        { intros e r Hr. apply is_derive_Reals. now apply derivable_pt_lim_power. }
        apply (@is_RInt_derive R_CompleteNormedModule f df).
        - intros r Hr. rewrite Rmin_left in Hr by lra. unfold f, df.
          replace (t ^ i * Rpower r (- (INR i / k))) with (- k * t ^ i * (- 1 / k * Rpower r (- 1 / k - 1))).
          + apply is_derive_scal. apply D. lra.
          + replace (- 1 / k - 1) with (- (INR i / k)) by (rewrite Ei; field; lra). field. lra.
        - intros r Hr. rewrite Rmin_left in Hr by lra. unfold df. apply (ex_derive_continuous (fun r => t ^ i * Rpower r (- (INR i / k)))).
          eexists. apply is_derive_scal. apply D. lra. }
      replace (k * (a - t ^ i)) with (minus (f 1) (f a)); [exact K|].
      unfold minus, plus, opp, f; cbn. assert (Rpower 1 (- 1 / k) = 1) as -> by (unfold Rpower; rewrite ln_1, Rmult_0_r; apply exp_0).
      assert (Rpower a (- 1 / k) = / t) as ->.
      { unfold a. rewrite <- Rpower_pow by lra. rewrite Rpower_mult. fold k. replace (k * (- 1 / k)) with (- (1)) by (field; lra). now rewrite Rpower_Ropp, Rpower_1 by lra. }
      rewrite Et. field. lra.
Qed.

Lemma rltb_spec x y : rltb x y = true <-> x < y.
Proof. unfold rltb. destruct (Rlt_dec x y); split; intros; try discriminate; try reflexivity; try assumption; contradiction. Qed.

Section Dist.
  Context (i : nat) (m s M : R) (Hi : (2 <= i)%nat) (Hm : 0 <= m) (Hs : 0 <= s) (HM : s + m < M).
  Let u := m / M * (m / M).
  Let xMin := s * s / (M * M).
  Let d := (1 - m / M) * (1 - m / M) - xMin.
  Let T := 1 + u - xMin.
  Let p := 1 / (INR i - INR (i - 1) * d / T).
  Let tOf y := ((y / M) ^ 2 - xMin) / d.
  Let G y := p * (INR i * tOf y ^ (i - 1) - INR (i - 1) * tOf y ^ i) + (1 - p) * tOf y ^ i.
  Let Mpos : 0 < M. Proof. lra. Qed.
  Let MM : 0 < M * M. Proof. apply Rmult_lt_0_compat; lra. Qed.
  Let dpos : 0 < d.
  Proof.
    apply (Rmult_lt_reg_l (M * M)); [exact MM|]. rewrite Rmult_0_r.
    replace (M * M * d) with ((M - m) * (M - m) - s * s) by (unfold d, xMin; field; lra). nra.
  Qed.
  Let dT : d <= T.
  Proof.
    assert (0 <= m / M) by (apply Rmult_le_pos; [lra|apply Rlt_le, Rinv_0_lt_compat; lra]). unfold T, d, u. nra.
  Qed.
  Let Ei : INR i = INR (i - 1) + 1. Proof. rewrite <- S_INR. f_equal. lia. Qed.
  Let kpos : 0 < INR (i - 1). Proof. apply lt_0_INR. lia. Qed.
  Let Dpos : 0 < INR i * T - INR (i - 1) * d.
  Proof. rewrite Ei. nra. Qed.
  Let pD : INR i - INR (i - 1) * d / T = (INR i * T - INR (i - 1) * d) / T. Proof. field. lra. Qed.
  Let pnz : INR i - INR (i - 1) * d / T <> 0.
  Proof. rewrite pD. apply Rgt_not_eq, Rdiv_lt_0_compat; lra. Qed.
  Let pE : p = T / (INR i * T - INR (i - 1) * d).
  Proof. unfold p. rewrite pD. field. split; lra. Qed.
  Let p01 : 0 < p <= 1.
  Proof.
    rewrite pE. split; [apply Rdiv_lt_0_compat; lra|]. apply (Rmult_le_reg_r (INR i * T - INR (i - 1) * d)); [exact Dpos|].
    unfold Rdiv. rewrite Rmult_assoc, Rinv_l by lra. rewrite Ei. nra.
  Qed.
  Lemma G_end : G (M - m) = 1 /\ G s = 0.
  Proof.
    unfold G. assert (tOf (M - m) = 1) as -> by (unfold tOf; replace (((M - m) / M) ^ 2 - xMin) with d by (unfold d; field; lra); field; lra).
    assert (tOf s = 0) as -> by (unfold tOf; replace ((s / M) ^ 2 - xMin) with 0 by (unfold xMin; field; lra); unfold Rdiv; ring).
    rewrite !pow1, !pow_i by lia. split; [rewrite Ei; ring|ring].
  Qed.
  Lemma G_derive y : is_derive G y (oneMassDensity i m s M y).
  Proof.
    assert (is_derive tOf y (2 * y / (M ^ 2 * d))) as Dt.
    { unfold tOf. auto_derive; [exact Logic.I|]. cbn [pred pow]. field. lra. }
    assert (forall n, (1 <= n)%nat -> is_derive (fun y => tOf y ^ n) y (INR n * (2 * y / (M ^ 2 * d)) * tOf y ^ (n - 1))) as Dp.
    { intros n Hn. replace (n - 1)%nat with (pred n) by lia. apply is_derive_pow. exact Dt. }
    unfold G. eapply is_derive_ext; [intros z; reflexivity|].
    assert (is_derive (fun y => p * (INR i * tOf y ^ (i - 1) - INR (i - 1) * tOf y ^ i) + (1 - p) * tOf y ^ i) y
      (p * (INR i * (INR (i - 1) * (2 * y / (M ^ 2 * d)) * tOf y ^ (i - 1 - 1)) - INR (i - 1) * (INR i * (2 * y / (M ^ 2 * d)) * tOf y ^ (i - 1)))
       + (1 - p) * (INR i * (2 * y / (M ^ 2 * d)) * tOf y ^ (i - 1)))) as K.
    { apply (is_derive_plus (V := R_NormedModule)).
      - apply is_derive_scal. apply (is_derive_minus (V := R_NormedModule)); apply is_derive_scal; apply Dp; lia.
      - apply is_derive_scal. apply Dp. lia. }
    replace (oneMassDensity i m s M y) with (p * (INR i * (INR (i - 1) * (2 * y / (M ^ 2 * d)) * tOf y ^ (i - 1 - 1)) - INR (i - 1) * (INR i * (2 * y / (M ^ 2 * d)) * tOf y ^ (i - 1)))
       + (1 - p) * (INR i * (2 * y / (M ^ 2 * d)) * tOf y ^ (i - 1))); [exact K|].
    unfold oneMassDensity. replace ((m / M) ^ 2) with u by (unfold u; ring). replace ((s / M) ^ 2) with xMin by (unfold xMin; field; lra).
    replace ((1 - m / M) ^ 2 - xMin) with d by (unfold d; ring). cbv zeta. fold T. fold p. fold (tOf y).
    replace (i - 1 - 1)%nat with (i - 2)%nat by lia. replace (tOf y ^ (i - 1)) with (tOf y * tOf y ^ (i - 2)) by (replace (i - 1)%nat with (S (i - 2)) by lia; reflexivity).
    replace (1 + u - (y / M) ^ 2) with (T - d * tOf y) by (unfold T, tOf; field; lra).
    set (P := tOf y ^ (i - 2)). set (t := tOf y).
    assert ((1 - p) = p * INR (i - 1) * (1 - d / T)) as E1 by (rewrite pE, Ei; field; rewrite <- Ei; lra).
    rewrite E1. field. repeat split; lra.
  Qed.
  Lemma t_range y : s < y <= M - m -> 0 < tOf y <= 1.
  Proof.
    intros Hy. assert (M * M * (tOf y * d) = y * y - s * s) as E by (unfold tOf, xMin; field; lra).
    assert (M * M * d = (M - m) * (M - m) - s * s) as E2 by (unfold d, xMin; field; lra).
    split.
    - apply (Rmult_lt_reg_r d); [exact dpos|]. apply (Rmult_lt_reg_l (M * M)); [exact MM|]. rewrite E. nra.
    - apply (Rmult_le_reg_r d); [exact dpos|]. apply (Rmult_le_reg_l (M * M)); [exact MM|]. rewrite E, Rmult_1_l, E2. nra.
  Qed.
  Lemma mass_le y v : s < y <= M - m -> 0 < v -> 0 <= xMin + d * v /\ (M * sqrt (xMin + d * v) <= y <-> v <= tOf y).
  Proof.
    intros Hy Hv. assert (0 <= xMin) as X0 by (unfold xMin; apply Rmult_le_pos; [nra|apply Rlt_le, Rinv_0_lt_compat; exact MM]).
    assert (0 <= xMin + d * v) as X1 by nra. split; [exact X1|].
    assert (d * tOf y = (y / M) ^ 2 - xMin) as ET by (unfold tOf; field; lra).
    assert (0 <= y / M) as Y0 by (apply Rmult_le_pos; [lra|apply Rlt_le, Rinv_0_lt_compat; lra]).
    pose proof (sqrt_pos (xMin + d * v)) as S0. pose proof (sqrt_sqrt _ X1) as S1. set (r := sqrt (xMin + d * v)) in *.
    assert (M * (y / M) = y) as EY by (field; lra). split; intros H.
    - apply (Rmult_le_reg_l d); [exact dpos|]. rewrite ET. assert (r <= y / M) by (apply (Rmult_le_reg_l M); lra). nra.
    - rewrite <- EY. apply Rmult_le_compat_l; [lra|]. assert (r * r <= (y / M) ^ 2) by nra. nra.
  Qed.
  Lemma G_volume (mass : R -> R -> R -> R) y : s < y <= M - m ->
    (forall r0 r1 r2, mass r0 r1 r2 = M * sqrt (xMin + d * (if rltb r0 p then Rpower r1 (1 / INR i) * Rpower r2 (1 / INR (i - 1)) else Rpower r1 (1 / INR i)))) ->
    hasVolume (fun r0 r1 r2 => mass r0 r1 r2 <= y) (G y).
  Proof.
    intros Hy HE. pose proof (t_range y Hy) as Ht. set (t := tOf y) in *.
    exists p, (t ^ i), (cap i t), (INR i * t ^ (i - 1) - INR (i - 1) * t ^ i).
    assert (0 < INR i) as Ip by lra. pose proof (pow_unit t i Ht) as T1.
    split; [lra|]. split; [lra|]. split.
    { intros r2 Hr. unfold cap. pose proof (exp_pos (INR i / INR (i - 1) * ln r2)) as Q. fold (Rpower r2 (INR i / INR (i - 1))) in Q.
      assert (0 <= t ^ i / Rpower r2 (INR i / INR (i - 1))) by (apply Rlt_le, Rdiv_lt_0_compat; lra). split; [apply Rmin_glb; lra|apply Rmin_l]. }
    split; [|split; [now apply cap_int|reflexivity]].
    intros r0 r1 r2 H0 H1 H2. rewrite HE.
    assert (0 < Rpower r1 (1 / INR i)) as Q1 by apply exp_pos. assert (0 < Rpower r2 (1 / INR (i - 1))) as Q2 by apply exp_pos.
    destruct (rltb r0 p) eqn:L.
    - apply rltb_spec in L. rewrite (proj2 (mass_le y _ Hy (Rmult_lt_0_compat _ _ Q1 Q2))). fold t.
      assert (Rpower r1 (1 / INR i) * Rpower r2 (1 / INR (i - 1)) <= t <-> r1 <= cap i t r2) as K.
      { transitivity (Rpower r1 (1 / INR i) <= t / Rpower r2 (1 / INR (i - 1))).
        { symmetry. now apply div_le_iff. }
        rewrite Rpower_le_iff; [|lra|exact Ip|now apply Rdiv_lt_0_compat].
        assert (Rpower (t / Rpower r2 (1 / INR (i - 1))) (INR i) = t ^ i / Rpower r2 (INR i / INR (i - 1))) as ->.
        { rewrite Rpower_pow by (now apply Rdiv_lt_0_compat). unfold Rdiv at 1. rewrite Rpow_mult_distr, pow_inv. unfold Rdiv at 2. f_equal. f_equal.
          rewrite <- Rpower_pow by exact Q2. rewrite Rpower_mult. f_equal. field. lra. }
        unfold cap. split; intros H; [apply Rmin_glb; lra|]. eapply Rle_trans; [exact H|apply Rmin_r]. }
      rewrite K. split; [now left|]. intros [[_ H]|[H _]]; [exact H|lra].
    - assert (p <= r0) as L2 by (destruct (Rle_or_lt p r0) as [Q|Q]; [exact Q|apply rltb_spec in Q; congruence]).
      rewrite (proj2 (mass_le y _ Hy Q1)). fold t. rewrite Rpower_le_iff by lra. rewrite Rpower_pow by lra.
      split; [now right|]. intros [[H _]|[_ H]]; [lra|exact H].
  Qed.
  Lemma prob_eq : idiv (Fin 1) (isub (Fin (INR i)) (idiv (Fin (INR (i - 1) * d)) (Fin T))) = Fin p.
  Proof. cbn [idiv]. rewrite reqb_false by lra. cbn [isub]. rewrite reqb_false by exact pnz. reflexivity. Qed.
End Dist.

Lemma hasVolume_ext P Q v : (forall a b c, P a b c <-> Q a b c) -> hasVolume P v -> hasVolume Q v.
Proof.
  intros H (p & L0 & L & J & A1 & A2 & A3 & A4 & A5). exists p, L0, L, J. split; [exact A1|]. split; [exact A2|]. split; [exact A3|]. split; [|exact A5].
  intros r0 r1 r2 H0 H1 H2. rewrite <- H. now apply A4.
Qed.

(* one step of the mass generation: given the mass M of the system of the first i + 1 daughters, the
   mass of the first i daughters is distributed with density [oneMassDensity] *)
Theorem C72_nuphaz_mass_distribution : forall ms g i A pos,
  usedFor ms g -> List.Forall (fun m => 0 <= m) ms -> (2 <= i < length ms)%nat -> length A = length ms ->
  let m := nth i ms 0 in let s := sumR (firstn i ms) in let M := nth i A 0 in
  s + m < M ->
  exists G : R -> R, G s = 0 /\ G (M - m) = 1
    /\ (forall y, is_derive G y (oneMassDensity i m s M y))
    /\ (forall y, s < y <= M - m -> hasVolume (fun r0 r1 r2 => exists rnd A' pos',
          rnd pos = r0 /\ rnd (pos + 1)%nat = r1 /\ rnd (pos + 2)%nat = r2
          /\ nuphazMass rnd g i (A, pos) = Some (A', pos') /\ nth (i - 1) A' 0 <= y) (G y)).
Proof.
  intros ms g i A pos HU Hp Hi LA m s M HM. pose proof (usedFor_consistent ms g HU) as C.
  assert (0 <= m) as Hm by (apply pos_nth; exact Hp). assert (s = pre ms (i - 1)) as Es by (unfold s, pre; now replace (S (i - 1)) with i by lia).
  assert (0 <= s) as Hs by (rewrite Es; apply pre_nonneg; [exact Hp|lia]). assert (0 < M) as M0 by lra.
  pose proof (G_end i m s M) as GE. repeat (specialize (GE ltac:(lia || assumption))).
  eexists. split; [exact (proj2 GE)|]. split; [exact (proj1 GE)|].
  split; [intros y; apply G_derive; (lia || assumption)|]. intros y Hy.
  set (stream := fun r0 r1 r2 : R => fun j => if (j =? pos)%nat then r0 else if (j =? pos + 1)%nat then r1 else r2).
  set (p := 1 / (INR i - INR (i - 1) * ((1 - m / M) * (1 - m / M) - s * s / (M * M)) / (1 + m / M * (m / M) - s * s / (M * M)))).
  assert (forall rnd, exists A' pos', nuphazMass rnd g i (A, pos) = Some (A', pos') /\ nth (i - 1) A' 0 =
    M * sqrt (s * s / (M * M) + ((1 - m / M) * (1 - m / M) - s * s / (M * M)) *
      (if rltb (rnd pos) p then Rpower (rnd (pos + 1)%nat) (1 / INR i) * Rpower (rnd (pos + 2)%nat) (1 / INR (i - 1)) else Rpower (rnd (pos + 1)%nat) (1 / INR i)))) as ST.
  { intros rnd. unfold nuphazMass. rewrite (co_m ms g C). rewrite (rd_nth ms i 0), (rd_nth A i 0) by lia. cbn [bnd].
    rewrite (rd_nth (gmSum g) (i - 1) 0) by (rewrite (co_sl ms g C); lia). cbn [bnd]. rewrite (co_s ms g C), <- Es by lia. fold m M.
    rewrite (rdiv_ok m M) by lra. cbn [bnd]. rewrite rdiv_ok by (apply Rgt_not_eq, Rmult_gt_0_compat; lra). cbn [bnd].
    rewrite (prob_eq i m s M) by (lia || assumption). fold p. cbn [igtb].
    match goal with |- context [if rltb ?a ?b then (_, _) else _] => set (bb := rltb a b) end.
    set (t := if bb then Rpower (rnd (pos + 1)%nat) (1 / INR i) * Rpower (rnd (pos + 2)%nat) (1 / INR (i - 1)) else Rpower (rnd (pos + 1)%nat) (1 / INR i)).
    assert (0 < t) as Ht by (unfold t; destruct bb; [apply Rmult_lt_0_compat; apply exp_pos|apply exp_pos]).
    pose proof (mass_le m s M) as X. specialize (X Hm Hs HM y t Hy Ht). destruct X as [X _].
    set (dd := (1 - m / M) * (1 - m / M) - s * s / (M * M)) in *. set (xm := s * s / (M * M)) in *.
    destruct (wr_nth A (i - 1) (M * sqrt (xm + dd * t)) 0 ltac:(lia)) as (A' & E & L & N).
    assert (nth (i - 1) A' 0 = M * sqrt (xm + dd * t)) as V by (rewrite N, Nat.eqb_refl; reflexivity).
    unfold t in X, E, V |- *. destruct bb; cbv zeta.
    - rewrite Rmult_assoc. rewrite osqrt_ok by exact X. cbn [bnd]. rewrite E. cbn [bnd]. eexists _, _. split; [reflexivity|exact V].
    - rewrite osqrt_ok by exact X. cbn [bnd]. rewrite E. cbn [bnd]. eexists _, _. split; [reflexivity|exact V]. }
  eapply hasVolume_ext; [|eapply (G_volume i m s M) with (mass := fun r0 r1 r2 => M * sqrt (s * s / (M * M) + ((1 - m / M) * (1 - m / M) - s * s / (M * M)) *
      (if rltb r0 p then Rpower r1 (1 / INR i) * Rpower r2 (1 / INR (i - 1)) else Rpower r1 (1 / INR i)))); (lia || assumption || (intros; reflexivity))].
  intros r0 r1 r2. cbv beta. split.
  - intros H. destruct (ST (stream r0 r1 r2)) as (A' & pos' & E & V). exists (stream r0 r1 r2), A', pos'.
    assert (stream r0 r1 r2 pos = r0) as Z0 by (unfold stream; now rewrite Nat.eqb_refl).
    assert (stream r0 r1 r2 (pos + 1)%nat = r1) as Z1.
    { unfold stream. destruct (Nat.eqb_spec (pos + 1) pos); [lia|]. now rewrite Nat.eqb_refl. }
    assert (stream r0 r1 r2 (pos + 2)%nat = r2) as Z2.
    { unfold stream. destruct (Nat.eqb_spec (pos + 2) pos); [lia|]. destruct (Nat.eqb_spec (pos + 2) (pos + 1)); [lia|]. reflexivity. }
    rewrite Z0, Z1, Z2 in V. repeat (split; [assumption|]). rewrite V. exact H.
  - intros (rnd & A' & pos' & <- & <- & <- & E & H). destruct (ST rnd) as (A2 & p2 & E2 & V). rewrite E in E2. injection E2 as <- <-.
    rewrite <- V. exact H.
Qed.
