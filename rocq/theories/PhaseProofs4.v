(* Event weights and densities (C72). *)
From Coq Require Import List ZArith Reals Bool Lia Lra Psatz Permutation Sorted.
From Verif Require Import ArrayModel CGBoxModel PhysModel PhysProps SumAccProofs LikSetProofs PhaseModel PhaseSpec PhaseProofs PhaseProofs2 PhaseProofs3.
Import ListNotations.
Open Scope R_scope.

(* ---- weight type and normalisation do not change ---- *)
Definition same (g g' : gen) : Prop := gWT g' = gWT g /\ gNorm g' = gNorm g.
Lemma same_refl g : same g g.
Proof. now split. Qed.
Lemma same_trans a b c : same a b -> same b c -> same a c.
Proof. intros [H1 H2] [H3 H4]. split; congruence. Qed.
Lemma breakup_same g g' : calcBreakupMomenta g = Some g' -> same g g'.
Proof. intros H. unfold calcBreakupMomenta in H. apply bnd_some in H. destruct H as (q & _ & H). injection H as <-. now split. Qed.
Lemma weight_same g g' : calcWeight g = Some g' -> same g g'.
Proof.
  intros H. unfold calcWeight in H. destruct (gN g <? 2)%nat; [discriminate|]. apply bnd_some in H. destruct H as (g1 & E1 & H).
  apply bnd_some in H. destruct H as (w & Ew & H). injection H as <-. apply breakup_same in E1. exact E1.
Qed.
Lemma kinematics_same P g g' : calcEventKinematics P g = Some g' -> same g g'.
Proof. intros H. unfold calcEventKinematics in H. destruct (gN g <? 2)%nat; [discriminate|]. apply bnd_some in H. destruct H as (d & E & H). injection H as <-. now split. Qed.
Lemma masses_same fuel rnd M pos g g' pos' : pickMasses fuel rnd M pos g = Some (g', pos') -> same g g'.
Proof.
  intros H. unfold pickMasses in H. destruct (gN g <? 2)%nat; [discriminate|]. apply bnd_some in H. destruct H as (M1 & E1 & H).
  destruct (gWT g) eqn:Et.
  2: { apply bnd_some in H; destruct H as ((M2 & p2) & E2 & H); injection H as <- _; now split. }
  all: apply bnd_some in H; destruct H as (rp & Er & H); apply bnd_some in H; destruct H as (s & Es & H);
    apply bnd_some in H; destruct H as (M2 & E2 & H); injection H as <- _; now split.
Qed.
Lemma angles_same rnd pos g g' pos' : pickAngles rnd pos g = Some (g', pos') -> same g g'.
Proof. intros H. unfold pickAngles in H. apply bnd_some in H. destruct H as (((c & p) & p2) & E & H). injection H as <- _. now split. Qed.
Lemma estimate_same fuel rnd M k : forall pos g w w' g' pos', estimateMaxWeight fuel rnd M k pos g w = Some (w', g', pos') -> same g g'.
Proof.
  induction k as [|k IH]; intros pos g w w' g' pos' H; cbn [estimateMaxWeight] in H; [injection H as _ <- _; apply same_refl|].
  apply bnd_some in H. destruct H as ((g1 & p1) & E1 & H). apply bnd_some in H. destruct H as (g2 & E2 & H).
  eapply same_trans; [eapply masses_same; exact E1|]. eapply same_trans; [eapply weight_same; exact E2|]. eapply IH; exact H.
Qed.
Lemma generate_same fuel rnd P pos g w g' pos' : generateDecay fuel rnd P pos g = Some (w, g', pos') -> same g g'.
Proof.
  intros H. unfold generateDecay in H. destruct (gN g <? 2)%nat; [injection H as _ <- _; apply same_refl|].
  apply bnd_some in H. destruct H as (s & Es & H). destruct (rltb _ _); [injection H as _ <- _; apply same_refl|].
  apply bnd_some in H. destruct H as ((g1 & p1) & E1 & H). apply bnd_some in H. destruct H as (g2 & E2 & H).
  apply bnd_some in H. destruct H as ((g3 & p3) & E3 & H). apply bnd_some in H. destruct H as (g4 & E4 & H). injection H as _ <- _.
  eapply same_trans; [eapply masses_same; exact E1|]. eapply same_trans; [eapply weight_same; exact E2|].
  eapply same_trans; [eapply angles_same; exact E3|]. eapply kinematics_same; exact E4.
Qed.
Lemma accepted_same fuel rnd P mw pos g b g' pos' : generateDecayAccepted fuel rnd P mw pos g = Some (b, g', pos') -> same g g'.
Proof.
  intros H. unfold generateDecayAccepted in H. destruct (gN g <? 2)%nat; [injection H as _ <- _; apply same_refl|].
  apply bnd_some in H. destruct H as (s & Es & H). destruct (rltb _ _); [injection H as _ <- _; apply same_refl|].
  apply bnd_some in H. destruct H as ((g1 & p1) & E1 & H). apply bnd_some in H. destruct H as (g2 & E2 & H).
  assert (same g g2) as C2 by (eapply same_trans; [eapply masses_same; exact E1|eapply weight_same; exact E2]).
  destruct (eventAccepted rnd mw p1 g2) as [ok p2]. destruct (negb ok); [injection H as _ <- _; exact C2|].
  apply bnd_some in H. destruct H as ((g3 & p3) & E3 & H). apply bnd_some in H. destruct H as (g4 & E4 & H). injection H as _ <- _.
  eapply same_trans; [exact C2|]. eapply same_trans; [eapply angles_same; exact E3|]. eapply kinematics_same; exact E4.
Qed.
Lemma call_same fuel rnd c g pos g' pos' : (match c with CWeightType _ => False | _ => True end) -> doCall fuel rnd c (g, pos) = Some (g', pos') -> same g g'.
Proof.
  intros R H. destruct c; cbn [doCall] in H; try contradiction.
  - injection H as <- _. now split.
  - injection H as <- _. now split.
  - injection H as <- _. now split.
  - unfold setMasses in H. destruct (length M =? gN g)%nat; cbn [negb bnd] in H; [|discriminate]. injection H as <- _. now split.
  - unfold setAngles in H. destruct (length c =? gN g)%nat; cbn [negb bnd] in H; [|discriminate].
    destruct (length p =? gN g)%nat; cbn [negb bnd] in H; [|discriminate]. injection H as <- _. now split.
  - apply bnd_some in H. destruct H as (g1 & E & H). injection H as <- _. eapply breakup_same; eassumption.
  - apply bnd_some in H. destruct H as (g1 & E & H). injection H as <- _. eapply weight_same; eassumption.
  - apply bnd_some in H. destruct H as (g1 & E & H). injection H as <- _. eapply kinematics_same; eassumption.
  - eapply masses_same; eassumption.
  - eapply angles_same; eassumption.
  - apply bnd_some in H. destruct H as (((w & g1) & p1) & E & H). injection H as <- _. eapply generate_same; eassumption.
  - apply bnd_some in H. destruct H as (((w1 & g1) & p1) & E & H). injection H as <- _. eapply accepted_same; eassumption.
  - apply bnd_some in H. destruct H as (((w1 & g1) & p1) & E & H). injection H as <- _. eapply estimate_same; eassumption.
Qed.
Lemma sameType_usedFor ms g : usedForSameType ms g -> usedFor ms g.
Proof. intros (g0 & g1 & fuel & rnd & calls & pos & pos' & E & R & _ & F). exists g0, g1, fuel, rnd, calls, pos, pos'. auto. Qed.
Lemma sameType_norm ms g : usedForSameType ms g -> gNorm g = normOf (gWT g) (length ms).
Proof.
  intros (g0 & g1 & fuel & rnd & calls & pos & pos' & E & _ & R & F).
  assert (gNorm g1 = normOf (gWT g1) (length ms)) as N1.
  { unfold setDecay in E. destruct (length ms <? 2)%nat; [discriminate|]. peel E. injection E as <-. reflexivity. }
  clear E. revert g1 pos N1 F. induction calls as [|c calls IH]; intros g1 pos N1 F; cbn [foldO] in F; [injection F as <- _; exact N1|].
  apply Forall_cons_iff in R as [R1 R2]. apply bnd_some in F. destruct F as ((g2 & p2) & E2 & F).
  apply (IH R2 g2 p2); [|exact F]. destruct (call_same _ _ _ _ _ _ _ R1 E2) as [S1 S2]. now rewrite S1, S2.
Qed.

(* ---- kinematic identities ---- *)
Lemma breakup_lambda M a m q : 0 < M -> 0 <= q -> sqrt (a * a + q * q) + sqrt (m * m + q * q) = M ->
  4 * (M * M) * (q * q) = M * M * (M * M) + (a * a - m * m) * (a * a - m * m) - 2 * (M * M) * (a * a + m * m).
Proof.
  intros HM Hq E. pose proof (Rle_0_sqr a) as K1. pose proof (Rle_0_sqr q) as K2. pose proof (Rle_0_sqr m) as K3. unfold Rsqr in *.
  pose proof (sqrt_sqrt (a * a + q * q) ltac:(lra)) as S1. pose proof (sqrt_sqrt (m * m + q * q) ltac:(lra)) as S2.
  set (x := sqrt (a * a + q * q)) in *. set (y := sqrt (m * m + q * q)) in *.
  assert (a * a = x * x - q * q) as -> by lra. assert (m * m = y * y - q * q) as -> by lra. subst M. ring.
Qed.
Lemma F_breakup M a m q : 0 < M -> 0 <= q -> sqrt (a * a + q * q) + sqrt (m * m + q * q) = M ->
  F (a * a / (M * M)) (m * m / (M * M)) = 2 * q / M.
Proof.
  intros HM Hq E. pose proof (breakup_lambda M a m q HM Hq E) as L. unfold F.
  assert (1 + (a * a / (M * M) - m * m / (M * M)) * (a * a / (M * M) - m * m / (M * M)) - 2 * (a * a / (M * M) + m * m / (M * M)) = (2 * q / M) * (2 * q / M)) as ->.
  { apply (Rmult_eq_reg_l (M * M * (M * M))); [|apply Rgt_not_eq; repeat apply Rmult_gt_0_compat; lra].
    transitivity (M * M * (M * M) + (a * a - m * m) * (a * a - m * m) - 2 * (M * M) * (a * a + m * m)); [field; lra|]. rewrite <- L. field. lra. }
  assert (0 <= 2 * q / M) as P by (apply Rmult_le_pos; [lra|apply Rlt_le, Rinv_0_lt_compat; lra]).
  cbv zeta. rewrite rltb_false by nra. now apply sqrt_square.
Qed.
Lemma F_sym x y : F x y = F y x.
Proof. unfold F. replace (1 + (y - x) * (y - x) - 2 * (y + x)) with (1 + (x - y) * (x - y) - 2 * (x + y)) by ring. reflexivity. Qed.

Lemma prodR_cons x l : prodR (x :: l) = x * prodR l.
Proof. reflexivity. Qed.
Lemma prodR_nil : prodR [] = 1.
Proof. reflexivity. Qed.
Lemma prodR_app a b : prodR (a ++ b) = prodR a * prodR b.
Proof. induction a as [|x a IH]; cbn [app]; [rewrite prodR_nil; ring|]. rewrite !prodR_cons, IH. ring. Qed.
Lemma prodR_rev l : prodR (rev l) = prodR l.
Proof. induction l as [|x l IH]; [reflexivity|]. cbn [rev]. rewrite prodR_app, IH, !prodR_cons, prodR_nil. ring. Qed.
Lemma prodR_mult {A} (f h : A -> R) l : prodR (map f l) * prodR (map h l) = prodR (map (fun i => f i * h i) l).
Proof. induction l as [|x l IH]; cbn [map]; rewrite ?prodR_nil, ?prodR_cons; [ring|]. rewrite <- IH. ring. Qed.
Lemma prodR_ext {A} (f h : A -> R) l : (forall x, In x l -> f x = h x) -> prodR (map f l) = prodR (map h l).
Proof. intros H. f_equal. now apply map_ext_in. Qed.
Lemma momProd_eq g : (forall i, (1 <= i < gN g)%nat -> rd (gQ g) i = Some (nth i (gQ g) 0)) ->
  momProd g = Some (prodR (map (fun i => nth i (gQ g) 0) (seq 1 (gN g - 1)))).
Proof.
  intros H. unfold momProd. assert (forall k, (k <= gN g - 1)%nat -> foldO (fun i p => do q <- rd (gQ g) i; Some (p * q)) (seq 1 k) 1
    = Some (prodR (map (fun i => nth i (gQ g) 0) (seq 1 k)))) as K; [|now apply K].
  induction k as [|k IH]; intros Hk; [reflexivity|]. rewrite seq_S, foldO_app, IH by lia. cbn [bnd foldO]. rewrite H by lia. cbn [bnd].
  rewrite map_app, prodR_app. cbn [map]. rewrite prodR_cons, prodR_nil. now rewrite Rmult_1_r.
Qed.

(* one step of NUPHAZ: factor times density does not depend on the algorithm *)
Lemma oneStep i m s M y q : (2 <= i)%nat -> 0 < M -> 0 <= m -> 0 <= s -> s < y -> y + m < M -> 0 <= q ->
  sqrt (y * y + q * q) + sqrt (m * m + q * q) = M ->
  let sqrtU := m / M in let u := sqrtU * sqrtU in let xMin := s * s / (M * M) in
  let deltaX := (1 - sqrtU) * (1 - sqrtU) - xMin in let term := 1 + u - xMin in
  let x := y / M * (y / M) in
  let deltaZ := (INR i * term - INR (i - 1) * deltaX) * deltaX ^ (i - 1) in
  x - xMin <> 0 /\ 1 + u - x <> 0
  /\ deltaZ * (x / (x - xMin)) ^ (i - 2) * F x u / (1 + u - x) * oneMassDensity i m s M y
     = INR i * INR (i - 1) * (2 * q / M) * ((y / M) ^ 2) ^ (i - 2) * (2 * y / M ^ 2).
Proof.
  intros Hi HM Hm Hs Hy HyM Hq E sqrtU u xMin deltaX term x deltaZ.
  assert (0 < M * M) as MM by nra.
  assert (M * sqrtU = m) as EU by (unfold sqrtU; field; lra).
  assert (0 <= sqrtU) as U0 by (apply Rmult_le_pos; [lra|apply Rlt_le, Rinv_0_lt_compat; lra]).
  assert (M * M * xMin = s * s) as Em by (unfold xMin; field; lra).
  assert (M * M * x = y * y) as Ex by (unfold x; field; lra).
  assert (M * M * deltaX = (M - m) * (M - m) - s * s) as EX by (unfold deltaX, xMin, sqrtU; field; lra).
  assert (0 < x - xMin) as X1.
  { apply (Rmult_lt_reg_l (M * M)); [exact MM|]. rewrite Rmult_0_r, Rmult_minus_distr_l, Ex, Em. nra. }
  assert (0 < deltaX) as X0.
  { apply (Rmult_lt_reg_l (M * M)); [exact MM|]. rewrite Rmult_0_r, EX. nra. }
  assert (0 < 1 + u - x) as X2.
  { apply (Rmult_lt_reg_l (M * M)); [exact MM|]. rewrite Rmult_0_r. unfold u.
    replace (M * M * (1 + sqrtU * sqrtU - x)) with (M * M + (M * sqrtU) * (M * sqrtU) - M * M * x) by ring. rewrite EU, Ex. nra. }
  assert (deltaX <= term) as XT by (unfold deltaX, term, u; nra).
  split; [lra|]. split; [lra|].
  assert (F x u = 2 * q / M) as ->.
  { rewrite <- (F_breakup M y m q HM Hq E). unfold x, u, sqrtU. f_equal; field; lra. }
  unfold oneMassDensity.
  replace ((m / M) ^ 2) with u by (unfold u, sqrtU; ring). replace ((s / M) ^ 2) with xMin by (unfold xMin; field; lra).
  replace ((y / M) ^ 2) with x by (unfold x; ring). replace ((1 - m / M) ^ 2 - xMin) with deltaX by (unfold deltaX, sqrtU; ring).
  fold term. cbv zeta.
  assert (INR i = INR (i - 1) + 1) as Ei by (rewrite <- S_INR; f_equal; lia).
  pose proof (pos_INR (i - 1)) as I0.
  set (D := INR i * term - INR (i - 1) * deltaX) in *. assert (0 < D) as HD by (unfold D; rewrite Ei; nra).
  replace (1 / (INR i - INR (i - 1) * deltaX / term)) with (term / D) by (unfold D in *; field; repeat split; lra).
  replace (i - 1)%nat with (S (i - 2)) at 1 by lia. unfold deltaZ. replace (deltaX ^ (i - 1)) with (deltaX * deltaX ^ (i - 2)) by (replace (i - 1)%nat with (S (i - 2)) by lia; reflexivity).
  assert ((x / (x - xMin)) ^ (i - 2) * ((x - xMin) / deltaX) ^ (i - 2) * deltaX ^ (i - 2) = x ^ (i - 2)) as EP.
  { rewrite <- !Rpow_mult_distr. f_equal. field. lra. }
  rewrite <- EP. set (A := (x / (x - xMin)) ^ (i - 2)). set (B := ((x - xMin) / deltaX) ^ (i - 2)). set (C := deltaX ^ (i - 2)).
  replace (S (i - 2)) with (i - 1)%nat by lia.
  field. repeat split; lra.
Qed.

(* the constants *)
Lemma nuphaz_const (q Mm : nat -> R) k : (1 <= k)%nat -> (forall i, (1 <= i <= k)%nat -> 0 < Mm i) ->
  prodR (map (fun i => INR i * INR (i - 1) * (2 * q i / Mm i) * ((Mm (i - 1)%nat / Mm i) ^ 2) ^ (i - 2) * (2 * Mm (i - 1)%nat / Mm i ^ 2)) (seq 2 (k - 1)))
  * (2 * q 1%nat / Mm 1%nat) * Mm k ^ (2 * (k + 1) - 4) * normOf NUPHAZ (k + 1)
  = prodR (map (fun i => q i / (4 * Mm i) * (4 * PI) / (2 * PI) ^ 6) (seq 1 k)) * prodR (map (fun i => (2 * PI) ^ 3 * (2 * Mm i)) (seq 1 (k - 1))).
Proof.
  intros Hk HM. pose proof PI_RGT_0 as HPI. revert HM. induction Hk as [|k Hk IH]; intros HM.
  - cbn [seq map prodR fold_right Nat.sub Nat.mul Nat.add normOf]. change (fact 0) with 1%nat. change (INR 1) with 1. cbn [pow].
    pose proof (HM 1%nat ltac:(lia)). field. lra.
  - specialize (IH ltac:(intros i Hi; apply HM; lia)). pose proof (HM k ltac:(lia)) as Mk. pose proof (HM (S k) ltac:(lia)) as Mk1.
    replace (S k - 1)%nat with (S (k - 1)) by lia. rewrite (seq_S (k - 1) 2), (seq_S k 1), (seq_S (k - 1) 1), !map_app, !prodR_app. cbn [map]. rewrite !prodR_cons, !prodR_nil.
    replace (2 + (k - 1))%nat with (S k) by lia. replace (1 + k)%nat with (S k) by lia. replace (1 + (k - 1))%nat with k by lia.
    replace (S k - 1)%nat with k by lia. replace (S k - 2)%nat with (k - 1)%nat by lia.
    match goal with |- _ = ?a * _ * (?b * _) => transitivity (a * b * (q (S k) / (4 * Mm (S k)) * (4 * PI) / (2 * PI) ^ 6 * ((2 * PI) ^ 3 * (2 * Mm k)))); [|ring] end.
    rewrite <- IH. clear IH.
    match goal with |- ?a * _ * _ * _ * _ = ?b * _ * _ * _ * _ => set (X := a) end.
    assert (normOf NUPHAZ (S k + 1) = normOf NUPHAZ (k + 1) / (INR k * INR (S k) * (4 * PI) ^ 2)) as ->.
    { unfold normOf. replace (S k + 1 - 2)%nat with (S (k - 1)) by lia. replace (k + 1 - 2)%nat with (k - 1)%nat by lia.
      replace (S k + 1 - 1)%nat with (S k) by lia. replace (k + 1 - 1)%nat with k by lia. replace (2 * (S k + 1) + 1)%nat with (2 + (2 * (k + 1) + 1))%nat by lia.
      rewrite pow_add. rewrite fact_simpl, mult_INR. replace (S (k - 1)) with k by lia.
      assert (0 < INR k) by (apply lt_0_INR; lia). assert (0 < INR (S k)) by (apply lt_0_INR; lia). pose proof (INR_fact_lt_0 (k - 1)).
      assert (0 < (4 * PI) ^ (2 * (k + 1) + 1)) by (apply pow_lt; lra). assert (0 < (4 * PI) ^ 2) by (apply pow_lt; lra).
      field. repeat split; lra. }
    assert (Mm (S k) ^ (2 * (S k + 1) - 4) * ((Mm k / Mm (S k)) ^ 2) ^ (k - 1) = Mm k ^ (2 * (k + 1) - 4) * Mm (S k) ^ 2) as EP.
    { rewrite <- !pow_mult. replace (2 * (S k + 1) - 4)%nat with (2 * (k - 1) + 2)%nat by lia. replace (2 * (k + 1) - 4)%nat with (2 * (k - 1))%nat by lia.
      rewrite pow_add. unfold Rdiv. rewrite Rpow_mult_distr, pow_inv.
      assert (0 < Mm (S k) ^ (2 * (k - 1))) by (apply pow_lt; lra). field. lra. }
    set (Y := Mm (S k) ^ (2 * (S k + 1) - 4)) in *. set (Z := ((Mm k / Mm (S k)) ^ 2) ^ (k - 1)) in *. set (W := Mm k ^ (2 * (k + 1) - 4)) in *.
    set (N := normOf NUPHAZ (k + 1)).
    assert (0 < INR k) by (apply lt_0_INR; lia). assert (0 < INR (S k)) by (apply lt_0_INR; lia).
    pose proof (HM 1%nat ltac:(lia)) as M1.
    transitivity (X * (INR (S k) * INR k * (2 * q (S k) / Mm (S k)) * (2 * Mm k / Mm (S k) ^ 2)) * (2 * q 1%nat / Mm 1%nat) * (N / (INR k * INR (S k) * (4 * PI) ^ 2)) * (Y * Z)); [ring|].
    rewrite EP. field. repeat split; lra.
Qed.
