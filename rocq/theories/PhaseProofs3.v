(* NUPHAZ masses, break-up momenta, weights and angles (C72). *)
From Coq Require Import List ZArith Reals Bool Lia Lra Psatz Permutation Sorted.
From Verif Require Import ArrayModel CGBoxModel PhysModel PhysProps SumAccProofs LikSetProofs PhaseModel PhaseSpec PhaseProofs PhaseProofs2.
Import ListNotations.
Open Scope R_scope.

Lemma Rpower_unit r a : 0 < r <= 1 -> 0 <= a -> 0 < Rpower r a <= 1.
Proof.
  intros [H1 H2] Ha. unfold Rpower. split; [apply exp_pos|]. rewrite <- exp_0.
  assert (ln r <= 0) as L.
  { rewrite <- ln_1. destruct (Rle_lt_or_eq_dec _ _ H2) as [L| ->]; [apply Rlt_le, ln_increasing; assumption|lra]. }
  assert (a * ln r <= 0) as L2 by nra. destruct (Rle_lt_or_eq_dec _ _ L2) as [L3|L3]; [apply Rlt_le, exp_increasing; exact L3|rewrite L3; lra].
Qed.
Lemma sqrt_le_of a b : 0 <= b -> a <= b * b -> sqrt a <= b.
Proof. intros Hb H. rewrite <- (sqrt_square b Hb). now apply sqrt_le_1_alt. Qed.
Lemma sqrt_ge_of a b : 0 <= b -> b * b <= a -> b <= sqrt a.
Proof. intros Hb H. rewrite <- (sqrt_square b Hb) at 1. now apply sqrt_le_1_alt. Qed.
Lemma sqrt_gt_of a b : 0 <= b -> b * b < a -> b < sqrt a.
Proof. intros Hb H. rewrite <- (sqrt_square b Hb) at 1. apply sqrt_lt_1_alt. split; nra. Qed.

(* one step: the mass of the i-body system *)
Lemma nuphaz_x Mi mi sp t : 0 < Mi -> 0 <= mi -> 0 <= sp -> sp + mi <= Mi -> 0 < t <= 1 ->
  let sqrtU := mi / Mi in let xMin := sp * sp / (Mi * Mi) in
  let deltaX := (1 - sqrtU) * (1 - sqrtU) - xMin in
  let x := xMin + deltaX * t in
  0 <= x /\ sp <= Mi * sqrt x /\ Mi * sqrt x + mi <= Mi /\ (sp + mi < Mi -> sp < Mi * sqrt x).
Proof.
  intros HMi Hmi Hsp Hs Ht sqrtU xMin deltaX x.
  assert (Mi * Mi * x = sp * sp + ((Mi - mi) * (Mi - mi) - sp * sp) * t) as E by (unfold x, deltaX, xMin, sqrtU; field; lra).
  assert (0 <= (Mi - mi) * (Mi - mi) - sp * sp) as HD by nra.
  assert (0 <= Mi * Mi * x) as HX by (rewrite E; nra).
  assert (0 <= x) as Hx by (apply (Rmult_le_reg_l (Mi * Mi)); [nra|rewrite Rmult_0_r; exact HX]).
  assert (Mi * sqrt x = sqrt (Mi * Mi * x)) as ->.
  { rewrite sqrt_mult by nra. now rewrite sqrt_square by lra. }
  rewrite E. split; [exact Hx|]. split; [apply sqrt_ge_of; nra|]. split.
  - assert (sqrt (sp * sp + ((Mi - mi) * (Mi - mi) - sp * sp) * t) <= Mi - mi); [|lra]. apply sqrt_le_of; nra.
  - intros Hlt. assert (0 < (Mi - mi) * (Mi - mi) - sp * sp) by nra. apply sqrt_gt_of; nra.
Qed.

Section Masses.
  Context (ms : list R) (g : gen) (C : consistent ms g) (Hp : Forall (fun m => 0 <= m) ms) (M : R)
          (HM : sumR ms <= M) (Hs : sumR ms < M \/ 0 < nth 0 ms 0 + nth 1 ms 0).
  Definition okAt (i : nat) (Ms : list R) : Prop :=
    pre ms i <= nth i Ms 0 /\ (sumR ms < M -> pre ms i < nth i Ms 0) /\ 0 < nth i Ms 0.
  Lemma okAt_pos i Ms : (1 <= i < length ms)%nat -> pre ms i <= nth i Ms 0 -> (sumR ms < M -> pre ms i < nth i Ms 0) -> okAt i Ms.
  Proof.
    intros Hi H1 H2. split; [exact H1|]. split; [exact H2|]. pose proof (pre_nonneg ms i Hp ltac:(lia)).
    destruct Hs as [K|K]; [specialize (H2 K); lra|].
    pose proof (pre_mono ms 1 i Hp ltac:(lia)) as PM. rewrite pre_S, pre_0 in PM by lia. lra.
  Qed.
  Lemma nuphaz_step rnd i A pos : uniform rnd -> (2 <= i < length ms)%nat -> length A = length ms -> okAt i A ->
    exists A' pos', nuphazMass rnd g i (A, pos) = Some (A', pos') /\ length A' = length ms
      /\ (forall j, j <> (i - 1)%nat -> nth j A' 0 = nth j A 0) /\ okAt (i - 1) A' /\ nth (i - 1) A' 0 + nth i ms 0 <= nth i A' 0.
  Proof.
    intros U Hi LA (O1 & O2 & O3). unfold nuphazMass. rewrite (co_m ms g C).
    rewrite (rd_nth ms i 0), (rd_nth A i 0) by lia. cbn [bnd].
    rewrite (rd_nth (gmSum g) (i - 1) 0) by (rewrite (co_sl ms g C); lia). cbn [bnd]. rewrite (co_s ms g C) by lia.
    set (Mi := nth i A 0) in *. set (mi := nth i ms 0). set (sp := pre ms (i - 1)).
    pose proof (pos_nth ms i Hp) as Hmi. fold mi in Hmi. pose proof (pre_nonneg ms (i - 1) Hp ltac:(lia)) as Hsp. fold sp in Hsp.
    pose proof (pre_step ms i ltac:(lia)) as PS. fold sp mi in PS.
    rewrite !rdiv_ok by nra. cbn [bnd].
    set (sqrtU := mi / Mi). set (xMin := sp * sp / (Mi * Mi)). set (deltaX := (1 - sqrtU) * (1 - sqrtU) - xMin).
    match goal with |- exists A' pos', (let '(x, pos0) := if ?b then (?x1, _) else (?x2, _) in _) = _ /\ _ =>
      assert (exists t k, 0 < t <= 1 /\ (if b then (x1, (pos + 3)%nat) else (x2, (pos + 2)%nat)) = (xMin + deltaX * t, (pos + k)%nat)) as (t & k & Ht & ->) end.
    { assert (0 < INR i) by (apply lt_0_INR; lia). assert (0 < INR (i - 1)) by (apply lt_0_INR; lia).
      pose proof (Rpower_unit (rnd (pos + 1)%nat) (1 / INR i) (U _)) as T1.
      pose proof (Rpower_unit (rnd (pos + 2)%nat) (1 / INR (i - 1)) (U _)) as T2.
      assert (0 <= 1 / INR i) by (apply Rlt_le, Rdiv_lt_0_compat; lra). assert (0 <= 1 / INR (i - 1)) by (apply Rlt_le, Rdiv_lt_0_compat; lra).
      specialize (T1 ltac:(assumption)). specialize (T2 ltac:(assumption)).
      destruct (igtb _ _).
      - exists (Rpower (rnd (pos + 1)%nat) (1 / INR i) * Rpower (rnd (pos + 2)%nat) (1 / INR (i - 1))), 3%nat.
        split; [|f_equal; ring]. split; [apply Rmult_lt_0_compat; lra|].
        clear - T1 T2. generalize dependent (Rpower (rnd (pos + 1)%nat) (1 / INR i)). generalize dependent (Rpower (rnd (pos + 2)%nat) (1 / INR (i - 1))). intros; nra.
      - exists (Rpower (rnd (pos + 1)%nat) (1 / INR i)), 2%nat. split; [exact T1|reflexivity]. }
    destruct (nuphaz_x Mi mi sp t O3 Hmi Hsp ltac:(lra) Ht) as (X1 & X2 & X3 & X4). cbv zeta in *. fold sqrtU xMin deltaX in X1, X2, X3, X4.
    rewrite osqrt_ok by exact X1. cbn [bnd].
    set (v := Mi * sqrt (xMin + deltaX * t)) in *.
    destruct (wr_nth A (i - 1) v 0 ltac:(lia)) as (A' & E & L & N). rewrite E. cbn [bnd].
    exists A', (pos + k)%nat. split; [reflexivity|]. split; [lia|].
    assert (nth (i - 1) A' 0 = v) as V by (rewrite N, Nat.eqb_refl; reflexivity).
    split; [intros j Hj; rewrite N; destruct (Nat.eqb_spec j (i - 1)); [contradiction|reflexivity]|].
    split.
    - apply okAt_pos; [lia| |]; rewrite V; fold sp; [exact X2|]. intros K. apply X4. specialize (O2 K). lra.
    - rewrite V. rewrite N. destruct (Nat.eqb_spec i (i - 1)); [lia|]. exact X3.
  Qed.
  Lemma nuphaz_loop rnd k : uniform rnd -> forall A pos, (k + 1 < length ms)%nat -> length A = length ms -> okAt (k + 1) A ->
    exists A' pos', foldO (nuphazMass rnd g) (rev (seq 2 k)) (A, pos) = Some (A', pos') /\ length A' = length ms
      /\ (forall j, (k + 1 <= j)%nat \/ j = 0%nat -> nth j A' 0 = nth j A 0) /\ (forall i, (1 <= i <= k + 1)%nat -> okAt i A')
      /\ (forall i, (2 <= i <= k + 1)%nat -> nth (i - 1) A' 0 + nth i ms 0 <= nth i A' 0).
  Proof.
    intros U. induction k as [|k IH]; intros A pos Hk LA O.
    - exists A, pos. split; [reflexivity|]. split; [exact LA|]. split; [reflexivity|].
      split; [intros i Hi; now replace i with 1%nat by lia|intros; lia].
    - rewrite seq_S, rev_app_distr. cbn [rev app foldO]. replace (2 + k)%nat with (S k + 1)%nat by lia.
      destruct (nuphaz_step rnd (S k + 1) A pos U ltac:(lia) LA O) as (A1 & p1 & E1 & L1 & N1 & O1 & B1). rewrite E1. cbn [bnd].
      replace (S k + 1 - 1)%nat with (k + 1)%nat in * by lia.
      destruct (IH A1 p1 ltac:(lia) L1 O1) as (A' & p' & E & L & N & O' & B).
      exists A', p'. split; [exact E|]. split; [exact L|].
      assert (nth (S k + 1) A' 0 = nth (S k + 1) A1 0) as V by (apply N; lia).
      split; [|split].
      + intros j Hj. rewrite N by lia. apply N1. lia.
      + intros i Hi. destruct (Nat.eq_dec i (S k + 1)) as [->|]; [|apply O'; lia].
        unfold okAt in *. rewrite V. rewrite N1 by lia. exact O.
      + intros i Hi. destruct (Nat.eq_dec i (S k + 1)) as [->|]; [|apply B; lia].
        replace (S k + 1 - 1)%nat with (k + 1)%nat by lia. rewrite V, N by lia. exact B1.
  Qed.
  Lemma pickNuphaz_ok fuel rnd pos : uniform rnd -> gWT g = NUPHAZ ->
    exists Ms pos', pickMasses fuel rnd M pos g = Some (withM Ms g, pos') /\ massesOK ms Ms M.
  Proof.
    intros U Et. pose proof (co_n2 ms g C) as Hn. unfold pickMasses. rewrite (co_n ms g C). rewrite (proj2 (Nat.ltb_ge _ 2)) by lia. rewrite Et.
    destruct (wr_nth (gM g) (length ms - 1) M 0 ltac:(rewrite (co_M ms g C); lia)) as (M1 & E1 & L1 & N1). rewrite E1. cbn [bnd].
    rewrite (co_M ms g C) in L1.
    assert (nth (length ms - 1) M1 0 = M) as Vn by (rewrite N1, Nat.eqb_refl; reflexivity).
    destruct (nuphaz_loop rnd (length ms - 2) U M1 pos ltac:(lia) L1) as (A & p & E & L & N & O & B).
    { replace (length ms - 2 + 1)%nat with (length ms - 1)%nat by lia. apply okAt_pos; [lia| |]; rewrite Vn, pre_all by lia; [exact HM|tauto]. }
    rewrite E. cbn [bnd fst snd]. exists A, p. split; [reflexivity|].
    assert (nth 0 A 0 = nth 0 ms 0) as V0.
    { rewrite N by now right. rewrite N1. destruct (Nat.eqb_spec 0 (length ms - 1)); [lia|]. apply C. }
    split; [|split].
    - split; [exact L|]. split; [exact V0|]. intros i Hi. destruct (Nat.eq_dec i 1) as [->|].
      + change (1 - 1)%nat with 0%nat. rewrite V0. destruct (O 1%nat ltac:(lia)) as [O1 _]. rewrite pre_S, pre_0 in O1 by lia. exact O1.
      + apply B. lia.
    - rewrite N by lia. exact Vn.
    - intros i Hi. apply O. lia.
  Qed.
End Masses.

(* at threshold all masses are minimal *)
Lemma threshold ms Ms M : massesOK ms Ms M -> sumR ms = M -> forall i, (1 <= i < length ms)%nat -> nth i Ms 0 = pre ms i.
Proof.
  intros ((_ & _ & A) & Vn & B) E i Hi.
  assert (forall k, (k <= length ms - 1 - i)%nat -> nth (length ms - 1 - k) Ms 0 <= pre ms (length ms - 1 - k)) as H.
  { induction k as [|k IH]; intros Hk.
    - rewrite Nat.sub_0_r, Vn, pre_all by lia. lra.
    - specialize (IH ltac:(lia)). pose proof (A (length ms - 1 - k)%nat ltac:(lia)) as A1.
      rewrite (pre_step ms (length ms - 1 - k)) in IH by lia.
      replace (length ms - 1 - k - 1)%nat with (length ms - 1 - S k)%nat in * by lia. lra. }
  specialize (H (length ms - 1 - i)%nat ltac:(lia)). replace (length ms - 1 - (length ms - 1 - i))%nat with i in H by lia.
  destruct (B i Hi) as [B1 _]. lra.
Qed.

(* ---- break-up momenta ---- *)
Definition momenta (ms Ms qs : list R) : Prop :=
  length qs = length ms /\ forall i, (1 <= i < length ms)%nat ->
    breakupMomentum (nth i Ms 0) (nth (i - 1) Ms 0) (nth i ms 0) = Some (nth i qs 0) /\ 0 <= nth i qs 0 /\
    sqrt (nth (i - 1) Ms 0 * nth (i - 1) Ms 0 + nth i qs 0 * nth i qs 0) + sqrt (nth i ms 0 * nth i ms 0 + nth i qs 0 * nth i qs 0) = nth i Ms 0.
Lemma breakup_ok ms g : consistent ms g -> Forall (fun m => 0 <= m) ms -> allowedMasses ms (gM g) ->
  (forall i, (1 <= i < length ms)%nat -> 0 < nth i (gM g) 0) ->
  exists qs, calcBreakupMomenta g = Some (withQ qs g) /\ momenta ms (gM g) qs.
Proof.
  intros C Hp (LA & A0 & A) HM. pose proof (co_n2 ms g C) as Hn.
  assert (forall i, (1 <= i < length ms)%nat -> exists q, breakupMomentum (nth i (gM g) 0) (nth (i - 1) (gM g) 0) (nth i ms 0) = Some q /\ 0 <= q
    /\ sqrt (nth (i - 1) (gM g) 0 * nth (i - 1) (gM g) 0 + q * q) + sqrt (nth i ms 0 * nth i ms 0 + q * q) = nth i (gM g) 0) as HB.
  { intros i Hi. assert (0 <= nth (i - 1) (gM g) 0) as H1.
    { destruct (Nat.eq_dec i 1) as [->|]; [change (1 - 1)%nat with 0%nat; rewrite A0; now apply pos_nth|apply Rlt_le, HM; lia]. }
    destruct (C57_breakup_momentum_conserves_energy _ _ _ H1 (pos_nth ms i Hp) (HM i Hi) (A i Hi)) as (q & E & Q0 & QE & _). eauto. }
  set (h := fun i => match breakupMomentum (nth i (gM g) 0) (nth (i - 1) (gM g) 0) (nth i ms 0) with Some q => q | None => 0 end).
  unfold calcBreakupMomenta. rewrite (co_n ms g C), (co_m ms g C).
  destruct (fill 0 (fun i q => do Mi <- rd (gM g) i; do Mp <- rd (gM g) (i - 1); do mi <- rd ms i; do b <- breakupMomentum Mi Mp mi; wr q i b)
              h (length ms - 1) 1 (gQ g)) as (qs & E & L & N).
  { rewrite (co_q ms g C). lia. }
  { intros i w Hi _. rewrite (rd_nth (gM g) i 0), (rd_nth (gM g) (i - 1) 0), (rd_nth ms i 0) by lia. cbn [bnd].
    unfold h. destruct (HB i ltac:(lia)) as (q & Eq & _). rewrite Eq. reflexivity. }
  rewrite E. cbn [bnd]. exists qs. split; [reflexivity|]. rewrite (co_q ms g C) in L. split; [exact L|].
  intros i Hi. assert (nth i qs 0 = h i) as V.
  { rewrite N. destruct (Nat.leb_spec 1 i), (Nat.ltb_spec i (1 + (length ms - 1))); try lia. reflexivity. }
  rewrite V. destruct (HB i Hi) as (q & Eq & Q0 & QE). unfold h. rewrite Eq. auto.
Qed.

(* the break-up momentum grows with the mass of the mother and falls with that of a daughter *)
Lemma breakup_mono M a m q M' a' q' : 0 <= a' -> a' <= a -> 0 <= m -> M <= M' -> 0 <= q -> 0 <= q' ->
  sqrt (a * a + q * q) + sqrt (m * m + q * q) = M -> sqrt (a' * a' + q' * q') + sqrt (m * m + q' * q') = M' -> q <= q'.
Proof.
  intros H1 H2 H3 H4 H5 H6 E E'. destruct (Rle_or_lt q q') as [L|L]; [exact L|exfalso].
  assert (sqrt (a' * a' + q' * q') <= sqrt (a * a + q * q)) by (apply sqrt_le_1_alt; nra).
  assert (sqrt (m * m + q' * q') < sqrt (m * m + q * q)) by (apply sqrt_lt_1_alt; nra). lra.
Qed.

(* ---- weights ---- *)
Definition weightOK (t : weightType) (w : ieee) : Prop :=
  w = NaN \/ exists x, w = Fin x /\ 0 <= x /\ (t = GENBOD -> x <= 1).
Definition nn (w : ieee) : Prop := w = NaN \/ exists x, w = Fin x /\ 0 <= x.
Lemma imul_nn a b : nn a -> nn b -> nn (imul a b).
Proof.
  intros [->|(x & -> & Hx)] [->|(y & -> & Hy)]; cbn [imul]; try (now left). right. exists (x * y). split; [reflexivity|nra].
Qed.
Lemma reqb_true x y : x = y -> reqb x y = true.
Proof. intros ->. unfold reqb. now destruct (Req_EM_T y y). Qed.
Lemma reqb_false x y : x <> y -> reqb x y = false.
Proof. intros H. unfold reqb. now destruct (Req_EM_T x y). Qed.
Lemma F_nonneg x y : 0 <= F x y.
Proof. unfold F. destruct (rltb _ 0); [lra|apply sqrt_pos]. Qed.
Lemma F_one : F 1 0 = 0.
Proof. unfold F. replace (1 + (1 - 0) * (1 - 0) - 2 * (1 + 0)) with 0 by ring. rewrite rltb_false by lra. apply sqrt_0. Qed.
Lemma prod_seq (f : nat -> option R) (h : nat -> R) k : (forall i, (1 <= i <= k)%nat -> f i = Some (h i)) -> (forall i, (1 <= i <= k)%nat -> 0 <= h i) ->
  exists p, foldO (fun i p => do q <- f i; Some (p * q)) (seq 1 k) 1 = Some p /\ 0 <= p.
Proof.
  induction k as [|k IH]; intros H1 H2; [exists 1; split; [reflexivity|lra]|].
  destruct IH as (p & E & P); [intros; apply H1; lia|intros; apply H2; lia|]. rewrite seq_S, foldO_app, E. cbn [bnd foldO]. change (1 + k)%nat with (S k).
  rewrite H1 by lia. cbn [bnd]. exists (p * h (S k)). split; [reflexivity|]. pose proof (H2 (S k) ltac:(lia)). nra.
Qed.

Section Weights.
  Context (ms : list R) (g : gen) (C : consistent ms g) (Hp : Forall (fun m => 0 <= m) ms) (M : R)
          (HM : sumR ms <= M) (Hs : sumR ms < M \/ 0 < nth 0 ms 0 + nth 1 ms 0)
          (HMs : massesOK ms (gM g) M) (HQ : momenta ms (gM g) (gQ g)).
  Let n := length ms.
  Lemma momProd_ok : exists p, momProd g = Some p /\ 0 <= p.
  Proof.
    unfold momProd. rewrite (co_n ms g C). pose proof (co_n2 ms g C). destruct HQ as [LQ Q].
    apply (prod_seq (fun i => rd (gQ g) i) (fun i => nth i (gQ g) 0)).
    - intros i Hi. apply rd_nth. lia.
    - intros i Hi. apply (Q i). lia.
  Qed.
  Lemma nuphazFactor_ok i : (2 <= i < length ms)%nat -> exists f, nuphazFactor g i = Some f /\ nn f.
  Proof.
    intros Hi. unfold nuphazFactor. rewrite (co_m ms g C).
    rewrite (rd_nth ms i 0) by lia. cbn [bnd]. rewrite (rd_nth (gM g) i 0) by (rewrite (co_M ms g C); lia). cbn [bnd].
    rewrite (rd_nth (gmSum g) (i - 1) 0) by (rewrite (co_sl ms g C); lia). cbn [bnd].
    rewrite (rd_nth (gM g) (i - 1) 0) by (rewrite (co_M ms g C); lia). cbn [bnd]. rewrite (co_s ms g C) by lia.
    destruct HMs as ((_ & _ & A) & Vn & B).
    destruct (B i ltac:(lia)) as (B1 & B2 & B3). destruct (B (i - 1)%nat ltac:(lia)) as (D1 & D2 & D3). pose proof (A i ltac:(lia)) as Ai.
    assert (sumR ms = M -> nth i (gM g) 0 = pre ms i) as TH by (intros TE; apply (threshold ms (gM g) M HMs TE); lia).
    pose proof (pre_step ms i ltac:(lia)) as PS. pose proof (pre_nonneg ms (i - 1) Hp ltac:(lia)) as S0. pose proof (pos_nth ms i Hp) as m0.
    set (Mi := nth i (gM g) 0) in *. set (Mp := nth (i - 1) (gM g) 0) in *. set (mi := nth i ms 0) in *. set (sp := pre ms (i - 1)) in *.
    rewrite !rdiv_ok by nra. cbn [bnd]. eexists. split; [reflexivity|].
    set (sqrtU := mi / Mi). set (xMin := sp * sp / (Mi * Mi)). set (deltaX := (1 - sqrtU) * (1 - sqrtU) - xMin). set (x := Mp / Mi * (Mp / Mi)).
    set (term := 1 + sqrtU * sqrtU - xMin).
    set (deltaZ := (INR i * term - INR (i - 1) * deltaX) * deltaX ^ (i - 1)).
    assert (0 <= sqrtU) as U0 by (apply Rmult_le_pos; [lra|apply Rlt_le, Rinv_0_lt_compat; lra]).
    assert (Mi * sqrtU = mi) as EU by (unfold sqrtU; field; lra).
    assert (Mi * Mi * xMin = sp * sp) as Em by (unfold xMin; field; lra).
    assert (Mi * Mi * x = Mp * Mp) as Ex by (unfold x; field; lra).
    assert (Mi * Mi * deltaX = (Mi - mi) * (Mi - mi) - sp * sp) as EX by (unfold deltaX, xMin, sqrtU; field; lra).
    assert (0 < Mi * Mi) as MM by nra.
    assert (0 <= deltaX) as X0.
    { apply (Rmult_le_reg_l (Mi * Mi)); [exact MM|]. rewrite Rmult_0_r, EX. nra. }
    assert (0 <= x - xMin) as X1.
    { apply (Rmult_le_reg_l (Mi * Mi)); [exact MM|]. rewrite Rmult_0_r, Rmult_minus_distr_l, Ex, Em. nra. }
    assert (0 <= 1 + sqrtU * sqrtU - x - 2 * sqrtU) as X2.
    { apply (Rmult_le_reg_l (Mi * Mi)); [exact MM|]. rewrite Rmult_0_r.
      replace (Mi * Mi * (1 + sqrtU * sqrtU - x - 2 * sqrtU)) with ((Mi - Mi * sqrtU) * (Mi - Mi * sqrtU) - Mi * Mi * x) by ring.
      rewrite EU, Ex. nra. }
    assert (0 <= deltaZ) as Z0.
    { unfold deltaZ. apply Rmult_le_pos; [|apply pow_le; exact X0].
      assert (INR i = INR (i - 1) + 1) as -> by (rewrite <- S_INR; f_equal; lia).
      pose proof (pos_INR (i - 1)). assert (deltaX <= term) by (unfold deltaX, term; nra). nra. }
    assert (0 <= x) as xx by (unfold x; nra).
    (* the factor with pow *)
    assert (nn (imul (Fin deltaZ) (ipow (idiv (Fin x) (Fin (x - xMin))) (i - 2)))) as N1.
    { destruct (Req_dec (x - xMin) 0) as [E0|E0].
      - destruct (Nat.eq_dec i 2) as [Ei|Ei].
        + replace (i - 2)%nat with 0%nat by lia. cbn [ipow imul]. right. exists (deltaZ * 1). split; [reflexivity|lra].
        + assert (deltaX = 0) as EX0.
          { assert (~ sumR ms < M) as NS.
            { intros K. specialize (D2 K). assert (Mi * Mi * (x - xMin) = 0) as K2 by (rewrite E0; ring).
              rewrite Rmult_minus_distr_l, Ex, Em in K2. nra. }
            assert (sumR ms = M) as TE by lra. specialize (TH TE).
            apply (Rmult_eq_reg_l (Mi * Mi)); [|lra]. rewrite EX, Rmult_0_r. rewrite TH, PS. ring. }
          assert (deltaZ = 0) as EZ by (unfold deltaZ; rewrite EX0, pow_i by lia; ring).
          rewrite EZ. cbn [idiv]. rewrite reqb_true by exact E0. destruct (i - 2)%nat as [|k] eqn:Ek; [lia|].
          destruct (reqb x 0); cbn [ipow imul]; [now left|]. rewrite reqb_true by reflexivity. now left.
      - cbn [idiv]. rewrite reqb_false by exact E0. assert (0 <= x / (x - xMin)) as D0.
        { apply Rmult_le_pos; [exact xx|]. apply Rlt_le, Rinv_0_lt_compat. lra. }
        right. exists (deltaZ * (x / (x - xMin)) ^ (i - 2)). split; [|apply Rmult_le_pos; [exact Z0|now apply pow_le]].
        destruct (i - 2)%nat; reflexivity. }
    pose proof (F_nonneg x (sqrtU * sqrtU)) as F0.
    destruct N1 as [->|(y & -> & Hy)]; [now left|]. cbn [imul idiv].
    destruct (Req_dec (1 + sqrtU * sqrtU - x) 0) as [E0|E0].
    - rewrite reqb_true by exact E0. assert (sqrtU = 0) as EU0 by lra. assert (x = 1) as Ex1 by (rewrite EU0 in E0; lra).
      rewrite EU0, Ex1. replace (0 * 0) with 0 by ring. rewrite F_one, Rmult_0_r. rewrite reqb_true by reflexivity. now left.
    - rewrite reqb_false by exact E0. right. eexists. split; [reflexivity|]. apply Rmult_le_pos; [nra|]. apply Rlt_le, Rinv_0_lt_compat. lra.
  Qed.
  Lemma rawWeight_ok : exists w, rawWeight g = Some w /\ weightOK (gWT g) w.
  Proof.
    pose proof (co_n2 ms g C) as Hn. destruct HMs as ((LA & A0 & A) & Vn & B). pose proof (co_norm ms g C) as HN.
    destruct momProd_ok as (p & Ep & P0). unfold rawWeight. rewrite (co_n ms g C).
    assert (rd (gM g) (length ms - 1) = Some M) as RM by (rewrite (rd_nth _ _ 0) by lia; now rewrite Vn).
    assert (rd (gmSum g) (length ms - 1) = Some (sumR ms)) as RS.
    { rewrite (rd_nth _ _ 0) by (rewrite (co_sl ms g C); lia). now rewrite (co_s ms g C), pre_all by lia. }
    assert (0 < M) as M0. { destruct (B (length ms - 1)%nat ltac:(lia)) as (_ & _ & K). now rewrite Vn in K. }
    destruct (gWT g) eqn:Et.
    - rewrite Ep, RM, RS. cbn [bnd idiv]. rewrite reqb_false by lra. eexists. split; [reflexivity|]. right. eexists. split; [reflexivity|].
      split; [|discriminate]. apply Rmult_le_pos; [|apply Rlt_le, Rinv_0_lt_compat; lra]. apply Rmult_le_pos; [|exact P0].
      apply Rmult_le_pos; [lra|apply pow_le; lra].
    - assert (exists w, foldO (fun i w => do f <- nuphazFactor g i; Some (imul w f)) (rev (seq 2 (length ms - 2))) (Fin 1) = Some w /\ nn w) as (w & Ew & Nw).
      { assert (forall l, (forall i, In i l -> (2 <= i < length ms)%nat) -> forall w, nn w ->
          exists w', foldO (fun i w => do f <- nuphazFactor g i; Some (imul w f)) l w = Some w' /\ nn w') as K.
        { induction l as [|i l IHl]; intros HL w Nw; [now exists w|]. cbn [foldO].
          destruct (nuphazFactor_ok i (HL i (or_introl eq_refl))) as (f & Ef & Nf). rewrite Ef. cbn [bnd].
          apply IHl; [intros; apply HL; now right|now apply imul_nn]. }
        apply K; [intros i Hi; apply in_rev, in_seq in Hi; lia|]. right. exists 1. split; [reflexivity|lra]. }
      rewrite Ew. cbn [bnd]. rewrite (rd_nth (gM g) 1 0) by lia. rewrite RM, (co_m ms g C). rewrite (rd_nth ms 0 0), (rd_nth ms 1 0) by lia. cbn [bnd].
      destruct (B 1%nat ltac:(lia)) as (_ & _ & M1). rewrite !rdiv_ok by nra. cbn [bnd]. eexists. split; [reflexivity|].
      assert (nn (imul w (Fin (gNorm g * M ^ (2 * length ms - 4) *
        F (nth 1 ms 0 * nth 1 ms 0 / (nth 1 (gM g) 0 * nth 1 (gM g) 0)) (nth 0 ms 0 * nth 0 ms 0 / (nth 1 (gM g) 0 * nth 1 (gM g) 0)))))) as K.
      { apply imul_nn; [exact Nw|]. right. eexists. split; [reflexivity|]. apply Rmult_le_pos; [|apply F_nonneg].
        apply Rmult_le_pos; [lra|apply pow_le; lra]. }
      destruct K as [K|(x & K & Hx)]; [now left|]. right. exists x. split; [exact K|]. split; [exact Hx|discriminate].
    - rewrite Ep, RM, RS. cbn [bnd]. rewrite (co_m ms g C). rewrite (rd_nth ms 0 0) by lia. cbn [bnd].
      destruct HQ as [LQ Q].
      assert (forall i, (1 <= i < length ms)%nat -> exists b, breakupMomentum (M - sumR ms + pre ms i) (pre ms (i - 1)) (nth i ms 0) = Some b
        /\ nth i (gQ g) 0 <= b) as HB.
      { intros i Hi. destruct (B i Hi) as (B1 & _ & B3). pose proof (pre_step ms i Hi) as PS.
        pose proof (pre_nonneg ms (i - 1) Hp ltac:(lia)) as S0. pose proof (pos_nth ms i Hp) as m0.
        assert (nth i (gM g) 0 <= M - sumR ms + pre ms i) as UB.
        { assert (forall k, (k <= length ms - 1 - i)%nat -> nth (length ms - 1 - k) (gM g) 0 <= M - sumR ms + pre ms (length ms - 1 - k)) as K.
          { induction k as [|k IHk]; intros Hk; [rewrite Nat.sub_0_r, Vn, pre_all by lia; lra|].
            specialize (IHk ltac:(lia)). pose proof (A (length ms - 1 - k)%nat ltac:(lia)) as A1.
            rewrite (pre_step ms (length ms - 1 - k)) in IHk by lia.
            replace (length ms - 1 - k - 1)%nat with (length ms - 1 - S k)%nat in * by lia. lra. }
          specialize (K (length ms - 1 - i)%nat ltac:(lia)). replace (length ms - 1 - (length ms - 1 - i))%nat with i in K by lia. exact K. }
        destruct (C57_breakup_momentum_conserves_energy (M - sumR ms + pre ms i) (pre ms (i - 1)) (nth i ms 0) S0 m0 ltac:(lra) ltac:(lra))
          as (b & Eb & b0 & bE & _).
        exists b. split; [exact Eb|]. destruct (Q i Hi) as (_ & q0 & qE).
        assert (pre ms (i - 1) <= nth (i - 1) (gM g) 0) as LB.
        { destruct (Nat.eq_dec i 1) as [->|]; [change (1 - 1)%nat with 0%nat; rewrite pre_0, A0 by lia; lra|].
          destruct (B (i - 1)%nat ltac:(lia)) as [K _]. exact K. }
        exact (breakup_mono _ _ _ _ _ _ _ S0 LB m0 UB q0 b0 qE bE). }
      assert (forall k, (k < length ms)%nat -> exists p pm, foldO (fun i p => do q <- rd (gQ g) i; Some (p * q)) (seq 1 k) 1 = Some p
        /\ foldO (fun i r => do mi <- rd ms i; do sp <- rd (gmSum g) (i - 1); do b <- breakupMomentum (fst r + mi) sp mi; Some (fst r + mi, snd r * b))
             (seq 1 k) (M - sumR ms + nth 0 ms 0, 1) = Some (M - sumR ms + pre ms k, pm) /\ 0 <= p <= pm) as K.
      { induction k as [|k IHk]; intros Hk.
        - exists 1, 1. split; [reflexivity|]. split; [cbn [seq foldO]; rewrite pre_0 by lia; reflexivity|lra].
        - destruct (IHk ltac:(lia)) as (p1 & pm & E1 & E2 & [K1 K2]). rewrite seq_S, !foldO_app, E1, E2. cbn [bnd foldO fst snd]. change (1 + k)%nat with (S k).
          rewrite (rd_nth (gQ g) (S k) 0), (rd_nth ms (S k) 0) by lia. cbn [bnd].
          rewrite (rd_nth (gmSum g) (S k - 1) 0) by (rewrite (co_sl ms g C); lia). cbn [bnd]. rewrite (co_s ms g C) by lia.
          destruct (HB (S k) ltac:(lia)) as (b & Eb & Lb). rewrite pre_S in Eb by lia. rewrite <- Rplus_assoc in Eb. rewrite Eb. cbn [bnd].
          destruct (Q (S k) ltac:(lia)) as (_ & q0 & _).
          exists (p1 * nth (S k) (gQ g) 0), (pm * b). split; [reflexivity|]. split; [rewrite pre_S by lia; now rewrite <- Rplus_assoc|].
          split; [nra|]. apply Rmult_le_compat; lra. }
      destruct (K (length ms - 1)%nat ltac:(lia)) as (p' & pm & E1 & E2 & K1).
      unfold momProd in Ep. rewrite (co_n ms g C), E1 in Ep. injection Ep as ->.
      cbv zeta. rewrite E2. cbn [bnd snd]. eexists. split; [reflexivity|]. cbn [idiv].
      destruct (Req_dec pm 0) as [Z|Z].
      + rewrite (reqb_true pm 0 Z). rewrite reqb_true by lra. now left.
      + rewrite reqb_false by exact Z. right. exists (p / pm). split; [reflexivity|].
        split; [apply Rmult_le_pos; [lra|apply Rlt_le, Rinv_0_lt_compat; lra]|]. intros _.
        apply (Rmult_le_reg_r pm); [lra|]. unfold Rdiv. rewrite Rmult_assoc, Rinv_l by exact Z. lra.
    - eexists. split; [reflexivity|]. right. exists 1. split; [reflexivity|]. split; [lra|discriminate].
  Qed.
End Weights.

(* ---- angles ---- *)
Lemma pickAngles_ok ms g rnd pos : consistent ms g -> uniform rnd ->
  exists c p pos', pickAngles rnd pos g = Some (withAngles c p g, pos') /\ length c = length ms /\ length p = length ms
    /\ (forall i, (1 <= i < length ms)%nat -> -1 <= nth i c 0 <= 1).
Proof.
  intros C U. pose proof (co_n2 ms g C) as Hn. unfold pickAngles. rewrite (co_n ms g C).
  assert (forall k, (k < length ms)%nat -> exists c p pos', foldO (fun i s => let '(c, p, pos) := s in
      do c <- wr c i (2 * rnd pos - 1); do p <- wr p i (2 * PI * rnd (pos + 1)%nat); Some (c, p, (pos + 2)%nat)) (seq 1 k) (gCos g, gPhi g, pos) = Some (c, p, pos')
    /\ length c = length ms /\ length p = length ms /\ forall i, (1 <= i <= k)%nat -> -1 <= nth i c 0 <= 1) as K.
  { induction k as [|k IH]; intros Hk.
    - exists (gCos g), (gPhi g), pos. split; [reflexivity|]. split; [apply C|]. split; [apply C|]. intros; lia.
    - destruct (IH ltac:(lia)) as (c & p & pos' & E & Lc & Lp & H). rewrite seq_S, foldO_app, E. cbn [bnd foldO]. change (1 + k)%nat with (S k).
      destruct (wr_nth c (S k) (2 * rnd pos' - 1) 0 ltac:(lia)) as (c' & Ec & Lc' & Nc). rewrite Ec. cbn [bnd].
      destruct (wr_nth p (S k) (2 * PI * rnd (pos' + 1)%nat) 0 ltac:(lia)) as (p' & Ep & Lp' & Np). rewrite Ep. cbn [bnd].
      exists c', p', (pos' + 2)%nat. split; [reflexivity|]. split; [lia|]. split; [lia|]. intros i Hi. rewrite Nc.
      destruct (Nat.eqb_spec i (S k)); [pose proof (U pos'); lra|apply H; lia]. }
  destruct (K (length ms - 1)%nat ltac:(lia)) as (c & p & pos' & E & Lc & Lp & H). rewrite E. cbn [bnd fst snd].
  exists c, p, pos'. split; [reflexivity|]. split; [exact Lc|]. split; [exact Lp|]. intros i Hi. apply H. lia.
Qed.
