From Coq Require Import ZArith QArith Bool List Factorial Lia.
From Verif Require Import SpinModel SpinSpec SpinProofs CGModel CGSpec.
Import ListNotations.
Open Scope Z_scope.

Lemma facZ_some n : 0 <= n -> facZ n = Some (facSpec n).
Proof. intros H. unfold facZ. replace (n <? 0) with false by lia. reflexivity. Qed.

(* all the halved combinations are exact for admissible arguments *)
Lemma adm_params j1 m1 j2 m2 J M :
  cgAdmissible j1 m1 j2 m2 J M ->
  exists a b c d e g,  (* a=(j1-m1)/2 b=(j1+m1)/2 c=(j2-m2)/2 d=(j2+m2)/2, e=(J-j1+j2)/2, g=(J+j1-j2)/2 *)
    0 <= a /\ 0 <= b /\ 0 <= c /\ 0 <= d /\ 0 <= e /\ 0 <= g /\
    j1 = a + b /\ m1 = b - a /\ j2 = c + d /\ m2 = d - c /\ J = e + g /\ M = b - a + d - c
    /\ J - j1 + j2 = 2 * e /\ J + j1 - j2 = 2 * g
    /\ 0 <= a + b - g /\ a + b + c + d - (e + g) = 2 * (a + b - g)
    /\ J + M = 2 * (b + d - (a + b - g)) /\ 0 <= b + d - (a + b - g)
    /\ J - M = 2 * (a + c - (a + b - g)) /\ 0 <= a + c - (a + b - g).
Proof.
  intros ((H1 & k1 & Hk1 & ->) & (H2 & k2 & Hk2 & ->) & (HJ & k & Hk & HM) & (_ & _ & q & Hq & HJq & HJle) & Hm).
  assert (exists e g, J - j1 + j2 = 2 * e /\ J + j1 - j2 = 2 * g) as (e & g & He & Hg).
  { destruct (Z.abs_spec (j1 - j2)) as [[? Ha]|[? Ha]]; rewrite Ha in HJq.
    - exists q, (q + j1 - j2). lia.
    - exists (q + j2 - j1), q. lia. }
  exists (j1 - k1), k1, (j2 - k2), k2, e, g. repeat split; lia.
Qed.

Lemma quot2 k : Z.quot (2 * k) 2 = k.
Proof. rewrite Z.mul_comm. apply Z.quot_mul. lia. Qed.
Lemma quot2_abs x : Z.abs (Z.quot x 2) <= Z.abs x.
Proof. pose proof (Z.quot_rem x 2 ltac:(lia)). pose proof (Z.rem_bound_abs x 2 ltac:(lia)). lia. Qed.
Lemma half2 k : halfOf (2 * k) = k.
Proof. unfold halfOf. rewrite Z.mul_comm. apply Z.div_mul. lia. Qed.

Lemma cgFirstNu_spec fuel j1 m1 j2 M nu :
  let x := Z.quot (j1 - j2 - M) 2 in
  let y := Z.quot (j1 - m1) 2 in
  (Z.max (- x) (- y) - nu <= Z.of_nat fuel) ->
  cgFirstNu fuel j1 m1 j2 M nu = Z.max nu (Z.max (- x) (- y)).
Proof.
  cbv zeta. revert nu. induction fuel as [|f IH]; intros nu H; cbn [cgFirstNu].
  - lia.
  - destruct (_ || _) eqn:E.
    + rewrite IH by lia. rewrite orb_true_iff, !Z.ltb_lt in E. lia.
    + rewrite orb_false_iff, !Z.ltb_ge in E. lia.
Qed.

Lemma sumQ_ext n f g : (forall k, (k < n)%nat -> f (Z.of_nat k) == g (Z.of_nat k))%Q -> (sumQ n f == sumQ n g)%Q.
Proof.
  induction n as [|n IH]; intros H; cbn; [reflexivity|].
  rewrite IH by (intros; apply H; lia). rewrite (H n) by lia. reflexivity.
Qed.

Lemma sumQ_zero n f : (forall k, (k < n)%nat -> f (Z.of_nat k) == 0)%Q -> (sumQ n f == 0)%Q.
Proof.
  induction n as [|n IH]; intros H; cbn; [reflexivity|].
  rewrite IH by (intros; apply H; lia). rewrite (H n) by lia. reflexivity.
Qed.

Lemma sumQ_split n k f : (sumQ (n + k) f == sumQ n f + sumQ k (fun i => f (Z.of_nat n + i)%Z))%Q.
Proof.
  induction k as [|k IH].
  - rewrite Nat.add_0_r. cbn. rewrite Qplus_0_r. reflexivity.
  - rewrite Nat.add_succ_r. cbn [sumQ]. rewrite IH.
    rewrite Nat2Z.inj_add. ring.
Qed.

(* sum from nu upward *)
Definition sumFrom (nu : Z) (n : nat) (f : Z -> Q) : Q := sumQ n (fun i => f (nu + i)%Z).

Lemma sumFrom_S nu n f : (sumFrom nu (S n) f == f nu + sumFrom (nu + 1) n f)%Q.
Proof.
  unfold sumFrom. replace (S n) with (1 + n)%nat by lia. rewrite sumQ_split. cbn [sumQ].
  rewrite Z.add_0_r. rewrite Qplus_0_l.
  apply Qplus_comp; [reflexivity|]. apply sumQ_ext. intros k Hk.
  replace (nu + (Z.of_nat 1 + Z.of_nat k)) with (nu + 1 + Z.of_nat k) by lia. reflexivity.
Qed.

(* the summation loop equals the tail of Wigner's sum *)
Lemma cgSumLoop_spec fuel j1 m1 j2 m2 J M :
  cgAdmissible j1 m1 j2 m2 J M ->
  forall nu s, 0 <= nu -> - Z.quot (j1 - j2 - M) 2 <= nu ->
  Z.quot (J + M) 2 + 1 - nu <= Z.of_nat fuel ->
  exists r, cgSumLoop fuel j1 m1 j2 m2 J M nu s = Some r
   /\ (r == s + sumFrom nu fuel (wignerTerm j1 m1 j2 m2 J M))%Q.
Proof.
  intros Hadm.
  destruct (adm_params _ _ _ _ _ _ Hadm) as
    (a & b & c & d & e & g & Ha & Hb & Hc & Hd & He & Hg & -> & -> & -> & -> & -> & -> & E1 & E2 & Hf & E3 & E4 & Hh & E5 & Hi).
  clear Hadm.
  set (f := a + b - g) in *. set (h := b + d - f) in *.
  assert (X1 : a + b - (c + d) - (b - a + d - c) = 2 * (a - d)) by lia.
  assert (X2 : a + b - (b - a) = 2 * a) by lia.
  assert (X4 : c + d + (e + g) + (b - a) = 2 * (d + c + b - f)) by lia.
  assert (X5 : c + d + (d - c) = 2 * d) by lia.
  induction fuel as [|fuel IH]; intros nu s Hnu Hn Hfu.
  - exists s. split; [reflexivity|]. cbn. now rewrite Qplus_0_r.
  - cbn [cgSumLoop]. rewrite X1, X2, X4, X5, E1, E4, !quot2 in *.
    assert (Ht : wignerTerm (a + b) (b - a) (c + d) (d - c) (e + g) (b - a + d - c) nu =
       if (0 <=? e - nu) && (0 <=? h - nu) && (0 <=? d + c + b - f - nu)
       then (inject_Z (minusOnePow (nu + d) * facSpec (d + c + b - f - nu) * facSpec (a + nu))
        / inject_Z (facSpec nu * facSpec (e - nu) * facSpec (h - nu) * facSpec (a - d + nu)))%Q else 0%Q).
    { unfold wignerTerm. cbv zeta. rewrite X1, X2, X4, X5, E1, E4, !half2.
      replace (0 <=? nu) with true by lia. replace (0 <=? a + nu) with true by lia.
      replace (0 <=? a - d + nu) with true by lia. rewrite !andb_true_r.
      cbn [andb].
      destruct (0 <=? d + c + b - f - nu), (0 <=? e - nu), (0 <=? h - nu); reflexivity. }
    destruct ((0 <=? e - nu) && (0 <=? h - nu) && (0 <=? d + c + b - f - nu)) eqn:E.
    + rewrite !andb_true_iff, !Z.leb_le in E.
      rewrite !facZ_some by lia. cbn [bindO].
      destruct (IH (nu + 1) (s + (inject_Z (powMinusOne (nu + d) * facSpec (d + c + b - f - nu) * facSpec (a + nu))
          / inject_Z (facSpec nu * facSpec (e - nu) * facSpec (h - nu) * facSpec (a - d + nu))))%Q) as (r & Hr & Hv); try lia.
      exists r. split; [exact Hr|]. rewrite Hv, sumFrom_S, Ht, minusOnePow_odd. ring.
    + exists s. split; [reflexivity|].
      assert (Hz : (sumFrom nu (S fuel) (wignerTerm (a + b) (b - a) (c + d) (d - c) (e + g) (b - a + d - c)) == 0)%Q).
      { apply sumQ_zero. intros k Hk. unfold wignerTerm. cbv zeta. rewrite X1, X2, X4, X5, E1, E4, !half2.
        match goal with |- context [if ?t then _ else _] => replace t with false; [reflexivity|] end.
        symmetry. apply not_true_is_false. intros Ht'. rewrite !andb_true_iff, !Z.leb_le in Ht'.
        apply not_true_iff_false in E. apply E. rewrite !andb_true_iff, !Z.leb_le. lia. }
      rewrite Hz. now rewrite Qplus_0_r.
Qed.

Lemma wigner_sum_bound j1 m1 j2 m2 J M n :
  cgAdmissible j1 m1 j2 m2 J M -> (Z.to_nat (J + M + 1) <= n)%nat ->
  (sumQ n (wignerTerm j1 m1 j2 m2 J M) == sumQ (Z.to_nat (J + M + 1)) (wignerTerm j1 m1 j2 m2 J M))%Q.
Proof.
  intros Hadm Hn. replace n with (Z.to_nat (J + M + 1) + (n - Z.to_nat (J + M + 1)))%nat by lia.
  rewrite sumQ_split. rewrite (sumQ_zero (n - _)); [ring|].
  intros k Hk. unfold wignerTerm. cbv zeta.
  assert (halfOf (J + M) <= Z.max 0 (J + M)).
  { unfold halfOf. pose proof (Z.div_mod (J + M) 2 ltac:(lia)). pose proof (Z.mod_pos_bound (J + M) 2 ltac:(lia)). lia. }
  destruct Hadm as (_ & _ & (HJ & k' & Hk' & HM) & _ & _).
  replace (0 <=? halfOf (J + M) - (Z.of_nat (Z.to_nat (J + M + 1)) + Z.of_nat k)) with false by (symmetry; apply Z.leb_gt; lia).
  rewrite !andb_false_r, andb_false_l. reflexivity.
Qed.

Lemma cgDirect_spec j1 m1 j2 m2 J M :
  cgAdmissible j1 m1 j2 m2 J M ->
  exists s, (s == sumQ (Z.to_nat (J + M + 1)) (wignerTerm j1 m1 j2 m2 J M))%Q /\
  cgDirect j1 m1 j2 m2 J M =
    if Qeq_bool s 0 then CGVal CGZero else CGVal (CGRoot (wignerPrefactor j1 m1 j2 m2 J M) s).
Proof.
  intros Hadm. unfold cgDirect.
  rewrite cgFirstNu_spec.
  2:{ pose proof (quot2_abs (j1 - j2 - M)). pose proof (quot2_abs (j1 - m1)). lia. }
  destruct (adm_params _ _ _ _ _ _ Hadm) as
    (a & b & c & d & e & g & Ha & Hb & Hc & Hd & He & Hg & Hj1 & Hm1 & Hj2 & Hm2 & HJ & HM & E1 & E2 & Hf & E3 & E4 & Hh & E5 & Hi).
  assert (X1 : j1 - j2 - M = 2 * (a - d)) by lia.
  assert (X2 : j1 - m1 = 2 * a) by lia.
  set (nu0 := Z.max 0 (Z.max (- Z.quot (j1 - j2 - M) 2) (- Z.quot (j1 - m1) 2))).
  assert (Hnu0 : nu0 = Z.max 0 (d - a)).
  { unfold nu0. rewrite X1, X2, !quot2. lia. }
  destruct (cgSumLoop_spec (Z.to_nat (J + M + 1)) j1 m1 j2 m2 J M Hadm nu0 0%Q) as (r & Hr & Hv).
  { lia. } { rewrite X1, quot2. lia. } { rewrite E4, quot2. lia. }
  exists r. rewrite Hr. split.
  - rewrite Hv, Qplus_0_l. unfold sumFrom.
    rewrite <- (wigner_sum_bound j1 m1 j2 m2 J M (Z.to_nat nu0 + Z.to_nat (J + M + 1)) Hadm) by lia.
    rewrite sumQ_split. rewrite (sumQ_zero (Z.to_nat nu0)).
    + rewrite Qplus_0_l. apply sumQ_ext. intros k Hk. rewrite Z2Nat.id by lia. reflexivity.
    + intros k Hk. unfold wignerTerm. cbv zeta. rewrite X1, !half2.
      replace (0 <=? a - d + Z.of_nat k) with false by (symmetry; apply Z.leb_gt; lia). rewrite andb_false_r. reflexivity.
  - destruct (Qeq_bool r 0); [reflexivity|].
    unfold cgPrefactor, wignerPrefactor.
    assert (X3 : j1 + j2 - J = 2 * (a + b - g)) by lia.
    assert (X4 : j1 + j2 + J = 2 * (a + b - g + e + g)) by lia.
    assert (X5 : j1 + m1 = 2 * b) by lia. assert (X6 : j2 - m2 = 2 * c) by lia. assert (X7 : j2 + m2 = 2 * d) by lia.
    rewrite X2, X3, X4, X5, X6, X7, E1, E2, E4, E5, !quot2, !half2.
    rewrite !facZ_some by lia. reflexivity.
Qed.

(* ---- cache addressing ---- *)
Definition inCacheRange (j1 m1 j2 m2 J : Z) : Prop :=
  0 <= j1 < 18 /\ Z.abs m1 <= j1 /\ 0 <= j2 < 18 /\ Z.abs m2 <= j2 /\ 0 <= J < 36.

Lemma cgOffset_bounds j1 m1 j2 m2 J :
  inCacheRange j1 m1 j2 m2 J -> 0 <= cgOffset j1 m1 j2 m2 J < cgCacheSize.
Proof. unfold inCacheRange, cgOffset, cgCacheSize, cgMaxJ. intros. lia. Qed.

Lemma cgOffset_inj j1 m1 j2 m2 J j1' m1' j2' m2' J' :
  inCacheRange j1 m1 j2 m2 J -> inCacheRange j1' m1' j2' m2' J' ->
  cgOffset j1 m1 j2 m2 J = cgOffset j1' m1' j2' m2' J' ->
  j1 = j1' /\ m1 = m1' /\ j2 = j2' /\ m2 = m2' /\ J = J'.
Proof.
  unfold inCacheRange, cgOffset, cgMaxJ. intros H H' E.
  assert (J = J') by lia. subst J'.
  assert (((j1 * 35 + m1) * 18 + j2) * 35 + m2 = ((j1' * 35 + m1') * 18 + j2') * 35 + m2') by lia.
  assert (m2 = m2' /\ (j1 * 35 + m1) * 18 + j2 = (j1' * 35 + m1') * 18 + j2') by lia.
  assert (j2 = j2' /\ j1 * 35 + m1 = j1' * 35 + m1') by lia.
  lia.
Qed.

(* ---- history invariant ---- *)
Definition cgReference (j1 m1 j2 m2 J M : Z) : cgOutcome :=
  if spinAndProjAreCompatible j1 m1 && spinAndProjAreCompatible j2 m2 && spinAndProjAreCompatible J M
     && spinsCanCouple j1 j2 J && (m1 + m2 =? M)
  then cgDirect j1 m1 j2 m2 J M else CGVal CGZero.

Lemma cgReference_adm j1 m1 j2 m2 J M : cgAdmissible j1 m1 j2 m2 J M -> cgReference j1 m1 j2 m2 J M = cgDirect j1 m1 j2 m2 J M.
Proof.
  intros (H1 & H2 & H3 & H4 & H5). unfold cgReference.
  apply spinProj_correct in H1, H2, H3. apply spinsCanCouple_correct in H4.
  rewrite H1, H2, H3, H4. replace (m1 + m2 =? M) with true by lia. reflexivity.
Qed.

Definition cgInv (s : cgState) : Prop :=
  forall j1 m1 j2 m2 J v, inCacheRange j1 m1 j2 m2 J ->
    cgCache s (cgOffset j1 m1 j2 m2 J) = Some v ->
    cgAdmissible j1 m1 j2 m2 J (m1 + m2) /\ cgDirect j1 m1 j2 m2 J (m1 + m2) = CGVal v.

Lemma cgInv_init : cgInv cgInit.
Proof. intros j1 m1 j2 m2 J v _ H. discriminate H. Qed.

Lemma cgCall_inv s j1 m1 j2 m2 J M s' o :
  cgInv s -> cgCall s j1 m1 j2 m2 J M = (s', o) ->
  cgInv s' /\ cgUse s' = cgUse s /\
  (o = CGTerminate -> cgUse s = true /\ (18 <= j1 \/ 18 <= j2 \/ 18 <= J)) /\
  (o <> CGTerminate -> o = cgReference j1 m1 j2 m2 J M).
Proof.
  intros Hinv. unfold cgCall.
  destruct (cgUse s && _) eqn:Eg.
  { intros [= <- <-]. split; [exact Hinv|]. split; [reflexivity|]. split.
    - intros _. rewrite andb_true_iff, !orb_true_iff, !Z.leb_le in Eg. unfold cgMaxJ in Eg. intuition.
    - congruence. }
  unfold cgReference.
  destruct (spinAndProjAreCompatible j1 m1) eqn:E1; cbn [negb orb andb].
  2:{ intros [= <- <-]; split; [exact Hinv|split; [reflexivity|split; [discriminate|reflexivity]]]. }
  destruct (spinAndProjAreCompatible j2 m2) eqn:E2; cbn [negb orb andb].
  2:{ intros [= <- <-]; split; [exact Hinv|split; [reflexivity|split; [discriminate|reflexivity]]]. }
  destruct (spinAndProjAreCompatible J M) eqn:E3; cbn [negb orb andb].
  2:{ intros [= <- <-]; split; [exact Hinv|split; [reflexivity|split; [discriminate|reflexivity]]]. }
  destruct (spinsCanCouple j1 j2 J) eqn:E4; cbn [negb andb].
  2:{ intros [= <- <-]; split; [exact Hinv|split; [reflexivity|split; [discriminate|reflexivity]]]. }
  destruct (m1 + m2 =? M) eqn:E5; cbn [negb].
  2:{ intros [= <- <-]; split; [exact Hinv|split; [reflexivity|split; [discriminate|reflexivity]]]. }
  assert (Hadm : cgAdmissible j1 m1 j2 m2 J M).
  { apply spinProj_correct in E1, E2, E3. apply spinsCanCouple_correct in E4.
    repeat split; try apply E1; try apply E2; try apply E3; try apply E4. lia. }
  assert (M = m1 + m2) by lia. subst M. clear E5.
  assert (Hrange : cgUse s = true -> inCacheRange j1 m1 j2 m2 J).
  { intros Hu. rewrite Hu in Eg. cbn [andb] in Eg. rewrite !orb_false_iff, !Z.leb_gt in Eg. unfold cgMaxJ in Eg.
    destruct Hadm as ((? & k1 & ?) & (? & k2 & ?) & (? & ?) & _). unfold inCacheRange. lia. }
  destruct (cgDirect_spec _ _ _ _ _ _ Hadm) as (sum & Hs & Hd).
  destruct (cgUse s) eqn:Eu.
  - specialize (Hrange eq_refl).
    destruct (cgCache s (cgOffset j1 m1 j2 m2 J)) as [v|] eqn:Ec.
    + intros [= <- <-]. split; [exact Hinv|]. split; [exact Eu|]. split; [discriminate|].
      intros _. destruct (Hinv _ _ _ _ _ _ Hrange Ec) as [_ H]. rewrite H. reflexivity.
    + rewrite Hd. destruct (Qeq_bool sum 0).
      * intros [= <- <-]. split; [exact Hinv|]. split; [exact Eu|]. split; [discriminate|]. reflexivity.
      * intros [= <- <-]. split; [|split; [reflexivity|split; [discriminate|reflexivity]]].
        intros j1' m1' j2' m2' J' v Hr' Hc. cbn [cgCache] in Hc. unfold cgStore in Hc.
        destruct (cgOffset j1' m1' j2' m2' J' =? cgOffset j1 m1 j2 m2 J) eqn:Eo.
        -- apply Z.eqb_eq in Eo. destruct (cgOffset_inj _ _ _ _ _ _ _ _ _ _ Hr' Hrange Eo) as (-> & -> & -> & -> & ->).
           injection Hc as <-. split; [exact Hadm|exact Hd].
        -- exact (Hinv _ _ _ _ _ _ Hr' Hc).
  - rewrite Hd. destruct (Qeq_bool sum 0); intros [= <- <-];
      (split; [exact Hinv|split; [auto|split; [discriminate|reflexivity]]]).
Qed.

Definition opCalls (ops : list cgOp) : list (Z * Z * Z * Z * Z * Z) :=
  flat_map (fun op => match op with OpCall a b c d e f => [(a,b,c,d,e,f)] | _ => [] end) ops.

Lemma cgRun_spec ops : forall s, cgInv s ->
  forall i o, nth_error (cgRun s ops) i = Some o ->
  exists j1 m1 j2 m2 J M, nth_error (opCalls ops) i = Some (j1, m1, j2, m2, J, M) /\
    (o = CGTerminate \/ o = cgReference j1 m1 j2 m2 J M).
Proof.
  induction ops as [|op ops IH]; intros s Hinv i o Hn.
  - destruct i; discriminate Hn.
  - destruct op as [j1 m1 j2 m2 J M|b]; cbn [cgRun opCalls flat_map app] in *.
    + destruct (cgCall s j1 m1 j2 m2 J M) as [s' o'] eqn:Ec.
      destruct (cgCall_inv _ _ _ _ _ _ _ _ _ Hinv Ec) as (Hi' & _ & Ht & Hv).
      destruct o' as [|v].
      * destruct i as [|i]; cbn in Hn; [|destruct i; discriminate Hn]. injection Hn as <-.
        exists j1, m1, j2, m2, J, M. split; [reflexivity|left; reflexivity].
      * destruct i as [|i]; cbn in Hn.
        -- injection Hn as <-. exists j1, m1, j2, m2, J, M. split; [reflexivity|right].
           apply Hv. discriminate.
        -- apply (IH s' Hi' i o Hn).
    + apply (IH (cgSetUse s b)); [|exact Hn].
      intros ? ? ? ? ? ? Hr Hc. exact (Hinv _ _ _ _ _ _ Hr Hc).
Qed.

(* without large spins the program never aborts and answers every call *)
Lemma cgRun_complete ops : forall s, cgInv s ->
  (forall j1 m1 j2 m2 J M, In (j1,m1,j2,m2,J,M) (opCalls ops) -> j1 < 18 /\ j2 < 18 /\ J < 18) ->
  cgRun s ops = map (fun '(j1,m1,j2,m2,J,M) => cgReference j1 m1 j2 m2 J M) (opCalls ops).
Proof.
  induction ops as [|op ops IH]; intros s Hinv Hsm; [reflexivity|].
  destruct op as [j1 m1 j2 m2 J M|b]; cbn [cgRun opCalls flat_map app map] in *.
  - destruct (cgCall s j1 m1 j2 m2 J M) as [s' o] eqn:Ec.
    destruct (cgCall_inv _ _ _ _ _ _ _ _ _ Hinv Ec) as (Hi' & _ & Ht & Hv).
    assert (Ho : o <> CGTerminate).
    { intros Ho. destruct (Ht Ho) as [_ Hb]. specialize (Hsm j1 m1 j2 m2 J M (or_introl eq_refl)). lia. }
    rewrite <- (Hv Ho). destruct o as [|v]; [congruence|]. f_equal. apply IH; [exact Hi'|].
    intros. apply (Hsm j0 m0 j3 m3 J0 M0). right. exact H.
  - apply IH; [|exact Hsm]. intros ? ? ? ? ? ? Hr Hc. exact (Hinv _ _ _ _ _ _ Hr Hc).
Qed.
