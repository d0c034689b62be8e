(* C72, continued: event weights are phase space divided by the density of the generated masses. *)
From Coq Require Import List ZArith Reals Bool Lia Lra Psatz Permutation Sorted.
From Verif Require Import ArrayModel CGBoxModel PhysModel PhysProps SumAccProofs LikSetProofs PhaseModel PhaseSpec PhaseProofs PhaseProofs2 PhaseProofs3 PhaseProofs4 PhaseProps.
Import ListNotations.
Open Scope R_scope.

Lemma firstn_pre ms i : (1 <= i)%nat -> sumR (firstn i ms) = pre ms (i - 1).
Proof. intros Hi. unfold pre. now replace (S (i - 1)) with i by lia. Qed.
Lemma isBreakup_of M a m q : 0 <= q -> sqrt (a * a + q * q) + sqrt (m * m + q * q) = M -> isBreakup M a m q.
Proof. intros H E. split; [exact H|]. rewrite <- E. f_equal; f_equal; ring. Qed.
Lemma fold_imul g (h : nat -> R) l : (forall i, In i l -> nuphazFactor g i = Some (Fin (h i))) -> forall w,
  foldO (fun i w => do f <- nuphazFactor g i; Some (imul w f)) l (Fin w) = Some (Fin (w * prodR (map h l))).
Proof.
  induction l as [|i l IH]; intros H w; cbn [foldO map]; [rewrite prodR_nil; f_equal; f_equal; ring|].
  rewrite H by (now left). cbn [bnd imul]. rewrite IH by (intros; apply H; now right). rewrite prodR_cons. do 2 f_equal. ring.
Qed.

Section Strict.
  Context (ms : list R) (g : gen) (C : consistent ms g) (Hp : Forall (fun m => 0 <= m) ms)
          (LA : length (gM g) = length ms) (A0 : nth 0 (gM g) 0 = nth 0 ms 0)
          (A : forall i, (1 <= i < length ms)%nat -> nth (i - 1) (gM g) 0 + nth i ms 0 < nth i (gM g) 0).
  Let M := nth (length ms - 1) (gM g) 0.
  Lemma strict_pre i : (1 <= i < length ms)%nat -> pre ms i < nth i (gM g) 0.
  Proof.
    intros Hi. induction i as [|i IH]; [lia|]. rewrite pre_step by lia. specialize (A (S i) Hi). replace (S i - 1)%nat with i in * by lia.
    destruct (Nat.eq_dec i 0) as [->|]; [rewrite pre_0 by lia; rewrite A0 in A; exact A|]. specialize (IH ltac:(lia)). lra.
  Qed.
  Lemma strict_OK : massesOK ms (gM g) M /\ sumR ms < M.
  Proof.
    pose proof (co_n2 ms g C). assert (sumR ms < M) as HS by (rewrite <- pre_all by lia; apply strict_pre; lia).
    split; [|exact HS]. split; [|split; [reflexivity|]].
    - split; [exact LA|]. split; [exact A0|]. intros i Hi. specialize (A i Hi). lra.
    - intros i Hi. pose proof (strict_pre i Hi). pose proof (pre_nonneg ms i Hp ltac:(lia)). repeat split; lra.
  Qed.
End Strict.

Theorem C72_weight_is_phase_space : forall ms g,
  usedForSameType ms g -> Forall (fun m => 0 <= m) ms -> nth 0 (gM g) 0 = nth 0 ms 0 ->
  (forall i, (1 <= i < length ms)%nat -> nth (i - 1) (gM g) 0 + nth i ms 0 < nth i (gM g) 0) ->
  let M := nth (length ms - 1) (gM g) 0 in
  exists g' w, calcWeight g = Some g' /\ gW g' = Fin w /\ gM g' = gM g
    /\ (forall i, (1 <= i < length ms)%nat -> isBreakup (nth i (gM g) 0) (nth (i - 1) (gM g) 0) (nth i ms 0) (nth i (gQ g') 0))
    /\ (gWT g = S_U_CHUNG -> w * orderedDensity ms M = (2 * PI) ^ 4 * phaseSpace (length ms) (gM g) (gQ g'))
    /\ (gWT g = NUPHAZ -> w * nuphazDensity ms (gM g) = phaseSpace (length ms) (gM g) (gQ g'))
    /\ (gWT g = GENBOD -> exists qMax,
          (forall i, (1 <= i < length ms)%nat ->
             isBreakup (M - sumR (skipn (S i) ms)) (sumR (firstn i ms)) (nth i ms 0) (qMax i) /\ 0 < qMax i)
          /\ w = prodR (map (fun i => nth i (gQ g') 0 / qMax i) (seq 1 (length ms - 1))))
    /\ (gWT g = FLAT -> w = 1).
Proof.
  intros ms g HU Hp A0 A M. pose proof (usedFor_consistent ms g (sameType_usedFor ms g HU)) as C. pose proof (sameType_norm ms g HU) as HN.
  pose proof (co_n2 ms g C) as Hn. pose proof (co_M ms g C) as LA.
  destruct (strict_OK ms g C Hp LA A0 A) as [HO HS]. fold M in HO, HS.
  assert (forall i, (1 <= i < length ms)%nat -> 0 < nth i (gM g) 0) as Mpos by (intros i Hi; now apply HO).
  destruct (breakup_ok ms g C Hp (proj1 HO) Mpos) as (qs & E & LQ & HQ).
  set (g1 := withQ qs g) in *. pose proof (breakup_consistent ms g g1 C E) as C1.
  assert (forall w, rawWeight g1 = Some (Fin w) -> exists g', calcWeight g = Some g' /\ gW g' = Fin w /\ gM g' = gM g /\ gQ g' = qs) as CW.
  { intros w Ew. unfold calcWeight. rewrite (co_n ms g C). rewrite (proj2 (Nat.ltb_ge _ 2)) by lia. rewrite E. cbn [bnd]. rewrite Ew. cbn [bnd].
    eexists. split; [reflexivity|]. repeat split; reflexivity. }
  assert (forall i, (1 <= i < length ms)%nat -> isBreakup (nth i (gM g) 0) (nth (i - 1) (gM g) 0) (nth i ms 0) (nth i qs 0)) as HB.
  { intros i Hi. apply isBreakup_of; apply HQ; exact Hi. }
  assert (rd (gM g1) (length ms - 1) = Some M) as RM by (rewrite (rd_nth _ _ 0) by (cbn; lia); reflexivity).
  assert (momProd g1 = Some (prodR (map (fun i => nth i qs 0) (seq 1 (length ms - 1))))) as EP.
  { rewrite momProd_eq; rewrite (co_n ms g1 C1); [reflexivity|]. intros i Hi. apply rd_nth. cbn. lia. }
  assert (0 < M) as M0 by (apply Mpos; lia). pose proof PI_RGT_0 as HPI.
  destruct (gWT g) eqn:Et.
  - (* S. U. Chung *)
    set (p := prodR (map (fun i => nth i qs 0) (seq 1 (length ms - 1)))) in *.
    destruct (CW (gNorm g * (M - sumR ms) ^ (length ms - 2) * p / M)) as (g' & E1 & E2 & E3 & E4).
    { unfold rawWeight. change (gWT g1) with (gWT g). rewrite Et, EP. cbn [bnd]. rewrite (co_n ms g1 C1), RM. cbn [bnd].
      rewrite (sum_rd ms g1 C1). cbn [bnd idiv]. rewrite reqb_false by lra. reflexivity. }
    exists g'. eexists. split; [exact E1|]. split; [exact E2|]. split; [exact E3|]. rewrite E4. split; [exact HB|].
    split; [intros _|split; [discriminate|split; discriminate]].
    rewrite HN. unfold normOf, orderedDensity, phaseSpace.
    assert (forall k, (1 <= k)%nat -> (forall i, (1 <= i <= k)%nat -> 0 < nth i (gM g) 0) ->
      prodR (map (fun i => nth i qs 0 / (4 * nth i (gM g) 0) * (4 * PI) / (2 * PI) ^ 6) (seq 1 k)) * prodR (map (fun i => (2 * PI) ^ 3 * (2 * nth i (gM g) 0)) (seq 1 (k - 1)))
      = prodR (map (fun i => nth i qs 0) (seq 1 k)) / (2 * (2 * PI) ^ (2 * k + 3) * nth k (gM g) 0)) as K.
    { intros k Hk. induction Hk as [|k Hk IH]; intros HM.
      - cbn [seq map Nat.sub Nat.mul Nat.add]. rewrite !prodR_cons, prodR_nil. cbn [pow]. pose proof (HM 1%nat ltac:(lia)). field. lra.
      - specialize (IH ltac:(intros i Hi; apply HM; lia)). pose proof (HM k ltac:(lia)) as Mk. pose proof (HM (S k) ltac:(lia)) as Mk1.
        replace (S k - 1)%nat with (S (k - 1)) by lia. rewrite !(seq_S _ 1), !map_app, !prodR_app. cbn [map]. rewrite !prodR_cons, !prodR_nil.
        replace (1 + k)%nat with (S k) by lia. replace (1 + (k - 1))%nat with k by lia.
        match goal with |- ?a * _ * (?b * _) = _ => transitivity (a * b * (nth (S k) qs 0 / (4 * nth (S k) (gM g) 0) * (4 * PI) / (2 * PI) ^ 6 * ((2 * PI) ^ 3 * (2 * nth k (gM g) 0)))); [ring|] end.
        rewrite IH. replace ((2 * PI) ^ (2 * S k + 3)) with ((2 * PI) ^ 2 * (2 * PI) ^ (2 * k + 3)) by (rewrite <- pow_add; f_equal; lia).
        assert (0 < (2 * PI) ^ (2 * k + 3)) as Z1 by (apply pow_lt; lra). rewrite Rmult_1_r. set (z := (2 * PI) ^ (2 * k + 3)) in *. cbn [pow]. field. lra. }
    specialize (K (length ms - 1)%nat ltac:(lia) ltac:(intros i Hi; apply Mpos; lia)). replace (length ms - 1 - 1)%nat with (length ms - 2)%nat in K by lia. rewrite K. fold p M.
    replace ((2 * PI) ^ (2 * (length ms - 1) + 3)) with ((2 * PI) ^ 4 * (2 * PI) ^ (2 * length ms - 3)) by (rewrite <- pow_add; f_equal; lia).
    pose proof (INR_fact_lt_0 (length ms - 2)). assert (0 < (M - sumR ms) ^ (length ms - 2)) by (apply pow_lt; lra).
    assert (0 < (2 * PI) ^ (2 * length ms - 3)) by (apply pow_lt; lra). assert (0 < (2 * PI) ^ 4) by (apply pow_lt; lra).
    field. repeat split; lra.
  - (* NUPHAZ *)
    set (hf := fun i => let m := nth i ms 0 in let s := pre ms (i - 1) in let Mi := nth i (gM g) 0 in let y := nth (i - 1) (gM g) 0 in
      let sqrtU := m / Mi in let u := sqrtU * sqrtU in let xMin := s * s / (Mi * Mi) in
      let deltaX := (1 - sqrtU) * (1 - sqrtU) - xMin in let term := 1 + u - xMin in
      let x := y / Mi * (y / Mi) in
      let deltaZ := (INR i * term - INR (i - 1) * deltaX) * deltaX ^ (i - 1) in
      deltaZ * (x / (x - xMin)) ^ (i - 2) * F x u / (1 + u - x)).
    assert (forall i, (2 <= i < length ms)%nat -> nuphazFactor g1 i = Some (Fin (hf i))
      /\ hf i * oneMassDensity i (nth i ms 0) (sumR (firstn i ms)) (nth i (gM g) 0) (nth (i - 1) (gM g) 0)
         = INR i * INR (i - 1) * (2 * nth i qs 0 / nth i (gM g) 0) * ((nth (i - 1) (gM g) 0 / nth i (gM g) 0) ^ 2) ^ (i - 2) * (2 * nth (i - 1) (gM g) 0 / nth i (gM g) 0 ^ 2)) as HF.
    { intros i Hi. rewrite firstn_pre by lia.
      destruct (HQ i ltac:(lia)) as (_ & q0 & qE).
      assert (pre ms (i - 1) < nth (i - 1) (gM g) 0) as SY by (eapply strict_pre; eauto; lia).
      destruct (oneStep i (nth i ms 0) (pre ms (i - 1)) (nth i (gM g) 0) (nth (i - 1) (gM g) 0) (nth i qs 0) ltac:(lia) (Mpos i ltac:(lia))
        (pos_nth ms i Hp) (pre_nonneg ms (i - 1) Hp ltac:(lia)) SY (A i ltac:(lia)) q0 qE) as (X1 & X2 & X3).
      split; [|exact X3].
      unfold nuphazFactor. rewrite (co_m ms g1 C1). rewrite (rd_nth ms i 0) by lia. cbn [bnd]. change (gM g1) with (gM g). change (gmSum g1) with (gmSum g).
      rewrite (rd_nth (gM g) i 0) by lia. cbn [bnd]. rewrite (rd_nth (gmSum g) (i - 1) 0) by (rewrite (co_sl ms g C); lia). cbn [bnd].
      rewrite (rd_nth (gM g) (i - 1) 0) by lia. cbn [bnd]. rewrite (co_s ms g C) by lia.
      pose proof (Mpos i ltac:(lia)) as Mi0. rewrite (rdiv_ok (nth i ms 0)) by lra. cbn [bnd]. rewrite rdiv_ok by (apply Rgt_not_eq, Rmult_gt_0_compat; lra). cbn [bnd].
      rewrite rdiv_ok by lra. cbn [bnd]. f_equal. cbn [idiv]. rewrite reqb_false by exact X1.
      assert (forall v n, ipow (Fin v) n = Fin (v ^ n)) as IP by (intros v [|n]; reflexivity). rewrite IP. cbn [imul idiv]. rewrite reqb_false by exact X2. reflexivity. }
    set (u1 := F (nth 1 ms 0 * nth 1 ms 0 / (nth 1 (gM g) 0 * nth 1 (gM g) 0)) (nth 0 ms 0 * nth 0 ms 0 / (nth 1 (gM g) 0 * nth 1 (gM g) 0))).
    destruct (CW (prodR (map hf (seq 2 (length ms - 2))) * (gNorm g * M ^ (2 * length ms - 4) * u1))) as (g' & E1 & E2 & E3 & E4).
    { unfold rawWeight. change (gWT g1) with (gWT g). rewrite Et. rewrite (co_n ms g1 C1).
      rewrite (fold_imul g1 hf) by (intros i Hi; apply in_rev, in_seq in Hi; apply HF; lia). cbn [bnd]. rewrite map_rev, prodR_rev.
      change (gM g1) with (gM g) in *. rewrite (rd_nth (gM g) 1 0) by lia. cbn [bnd]. rewrite RM. cbn [bnd]. rewrite (co_m ms g1 C1).
      rewrite (rd_nth ms 0 0), (rd_nth ms 1 0) by lia. cbn [bnd]. pose proof (Mpos 1%nat ltac:(lia)) as M1.
      rewrite !rdiv_ok by (apply Rgt_not_eq, Rmult_gt_0_compat; lra). cbn [bnd imul]. fold u1. change (gNorm g1) with (gNorm g). do 2 f_equal. ring. }
    exists g'. eexists. split; [exact E1|]. split; [exact E2|]. split; [exact E3|]. rewrite E4. split; [exact HB|].
    split; [discriminate|]. split; [intros _|split; discriminate].
    assert (u1 = 2 * nth 1 qs 0 / nth 1 (gM g) 0) as ->.
    { unfold u1. destruct (HQ 1%nat ltac:(lia)) as (_ & q0 & qE). change (1 - 1)%nat with 0%nat in qE. rewrite A0 in qE. rewrite F_sym.
      apply F_breakup; [apply Mpos; lia|exact q0|exact qE]. }
    unfold nuphazDensity, phaseSpace.
    match goal with |- ?a * ?b * ?c = _ => transitivity (a * c * b); [ring|] end.
    rewrite prodR_mult.
    rewrite (prodR_ext _ (fun i => INR i * INR (i - 1) * (2 * nth i qs 0 / nth i (gM g) 0) * ((nth (i - 1) (gM g) 0 / nth i (gM g) 0) ^ 2) ^ (i - 2) * (2 * nth (i - 1) (gM g) 0 / nth i (gM g) 0 ^ 2)))
      by (intros i Hi; apply in_seq in Hi; apply HF; lia).
    pose proof (nuphaz_const (fun i => nth i qs 0) (fun i => nth i (gM g) 0) (length ms - 1) ltac:(lia) ltac:(intros i Hi; apply Mpos; lia)) as K. cbv beta in K.
    replace (length ms - 1 - 1)%nat with (length ms - 2)%nat in K by lia. replace (length ms - 1 + 1)%nat with (length ms) in K by lia.
    rewrite <- K. rewrite HN. fold M. ring.
  - (* GENBOD *)
    set (qm := fun i => match breakupMomentum (M - sumR ms + pre ms i) (pre ms (i - 1)) (nth i ms 0) with Some b => b | None => 0 end).
    assert (forall i, (1 <= i < length ms)%nat -> breakupMomentum (M - sumR ms + pre ms i) (pre ms (i - 1)) (nth i ms 0) = Some (qm i)
      /\ isBreakup (M - sumR ms + pre ms i) (pre ms (i - 1)) (nth i ms 0) (qm i) /\ 0 < qm i) as HM.
    { intros i Hi. pose proof (pre_step ms i Hi) as PS. pose proof (pre_nonneg ms (i - 1) Hp ltac:(lia)) as S0. pose proof (pos_nth ms i Hp) as m0.
      destruct (C57_breakup_momentum_conserves_energy (M - sumR ms + pre ms i) (pre ms (i - 1)) (nth i ms 0) S0 m0 ltac:(lra) ltac:(lra)) as (b & Eb & b0 & bE & _).
      unfold qm. rewrite Eb. split; [reflexivity|]. split; [now apply isBreakup_of|].
      destruct (Req_dec b 0) as [Z|Z]; [exfalso|lra]. rewrite Z in bE. rewrite !Rmult_0_l, !Rplus_0_r, !sqrt_square in bE by assumption. lra. }
    set (p := prodR (map (fun i => nth i qs 0) (seq 1 (length ms - 1)))) in *.
    assert (forall k, (k <= length ms - 1)%nat -> 0 < prodR (map qm (seq 1 k)) /\
      foldO (fun i r => do mi <- rd ms i; do sp <- rd (gmSum g1) (i - 1); do b <- breakupMomentum (fst r + mi) sp mi; Some (fst r + mi, snd r * b))
             (seq 1 k) (M - sumR ms + nth 0 ms 0, 1) = Some (M - sumR ms + pre ms k, prodR (map qm (seq 1 k)))) as K.
    { induction k as [|k IH]; intros Hk; [cbn [seq foldO map]; rewrite prodR_nil; split; [lra|now rewrite pre_0 by lia]|].
      destruct (IH ltac:(lia)) as [K1 K2]. rewrite seq_S, foldO_app, K2, map_app, prodR_app. cbn [bnd foldO fst snd map]. rewrite prodR_cons, prodR_nil. change (1 + k)%nat with (S k).
      rewrite (rd_nth ms (S k) 0) by lia. cbn [bnd].
      rewrite (rd_nth (gmSum g1) (S k - 1) 0) by (rewrite (co_sl ms g1 C1); lia). cbn [bnd]. rewrite (co_s ms g1 C1) by lia.
      destruct (HM (S k) ltac:(lia)) as (Eb & _ & P0). rewrite pre_S in Eb by lia. rewrite <- Rplus_assoc in Eb. rewrite Eb. cbn [bnd].
      split; [rewrite Rmult_1_r; now apply Rmult_lt_0_compat|]. rewrite pre_S by lia. do 2 f_equal; ring. }
    destruct (K (length ms - 1)%nat ltac:(lia)) as [K1 K2]. set (pm := prodR (map qm (seq 1 (length ms - 1)))) in *.
    destruct (CW (p / pm)) as (g' & E1 & E2 & E3 & E4).
    { unfold rawWeight. change (gWT g1) with (gWT g). rewrite Et, EP. cbn [bnd]. rewrite (co_n ms g1 C1), RM. cbn [bnd].
      rewrite (sum_rd ms g1 C1). cbn [bnd]. rewrite (co_m ms g1 C1). rewrite (rd_nth ms 0 0) by lia. cbn [bnd]. cbv zeta. rewrite K2. cbn [bnd snd idiv].
      rewrite reqb_false by lra. reflexivity. }
    exists g'. eexists. split; [exact E1|]. split; [exact E2|]. split; [exact E3|]. rewrite E4. split; [exact HB|].
    split; [discriminate|]. split; [discriminate|]. split; [intros _|discriminate].
    exists qm. split.
    + intros i Hi. destruct (HM i Hi) as (_ & B1 & B2). split; [|exact B2].
      assert (sumR ms = pre ms i + sumR (skipn (S i) ms)) as ES by (unfold pre; rewrite <- sumR_app, firstn_skipn; reflexivity).
      rewrite firstn_pre by lia. replace (M - sumR (skipn (S i) ms)) with (M - sumR ms + pre ms i) by lra. exact B1.
    + unfold p, pm. clear - HM. assert (forall l, (forall i, In i l -> 0 < qm i) ->
        0 < prodR (map qm l) /\ prodR (map (fun i => nth i qs 0) l) / prodR (map qm l) = prodR (map (fun i => nth i qs 0 / qm i) l)) as K.
      { induction l as [|i l IH]; intros H; cbn [map]; rewrite ?prodR_nil, ?prodR_cons; [split; [lra|field]|].
        destruct IH as [I1 I2]; [intros; apply H; now right|]. pose proof (H i (or_introl eq_refl)) as Hi.
        split; [now apply Rmult_lt_0_compat|]. rewrite <- I2. field. lra. }
      apply K. intros i Hi. apply in_seq in Hi. apply HM. lia.
  - destruct (CW 1) as (g' & E1 & E2 & E3 & E4). { unfold rawWeight. change (gWT g1) with (gWT g). now rewrite Et. }
    exists g', 1. split; [exact E1|]. split; [exact E2|]. split; [exact E3|]. rewrite E4. split; [exact HB|].
    split; [discriminate|]. split; [discriminate|]. split; [discriminate|reflexivity].
Qed.
