(* Lemmas for C87, part 5: one mass bin. *)
From Coq Require Import List Reals Bool Arith ZArith Lia Lra.
From Coquelicot Require Import Hierarchy Complex Derive.
From Verif Require Import PhysModel ChiModel ChiSpec ChiProofs ChiProofs2 ChiProofs3 ChiProofs4 ChiProofs5 PaChiModel PaChiSpec PaChiProofs PaChiProofs2 PaChiProofs3 PaChiProofs4.
Import ListNotations.
Open Scope nat_scope.

Lemma sum_kept z n (f : comp -> R) : (forall c, In c (flat_map partsOf (seq 0 n)) -> z (fst c) = true -> f c = 0%R) ->
  sumOver (flat_map partsOf (seq 0 n)) f = sumOver (flat_map partsOf (kept z n)) f.
Proof.
  unfold kept, sumOver. induction (seq 0 n) as [|w l IH]; intros H; [reflexivity|]. cbn [flat_map filter]. rewrite map_app, total_app.
  rewrite IH by (intros c Hc; apply H; cbn [flat_map]; apply in_or_app; auto). destruct (z w) eqn:E; cbn [negb].
  - rewrite (total_zero (map f (partsOf w))); [lra|]. intros x Hx. apply in_map_iff in Hx. destruct Hx as (c & <- & Hc). apply H.
    + cbn [flat_map]. apply in_or_app; auto.
    + apply in_partsOf in Hc. destruct Hc as [-> _]. auto.
  - cbn [flat_map]. rewrite map_app, total_app. reflexivity.
Qed.
Lemma reqb_true x y : x = y -> reqb x y = true.
Proof. intros ->. unfold reqb. destruct (Req_EM_T y y) as [E|E]; [reflexivity|contradiction]. Qed.
Lemma in_flat_comps a z n c : In c (flat_map (compsOf a) (kept z n)) -> fst c < n /\ z (fst c) = false /\ (snd c = 0 \/ (snd c = 1 /\ fst c <> a)).
Proof. intros H. apply in_flat_map in H. destruct H as (w & Hw & Hc). apply kept_in in Hw. apply in_compsOf in Hc. destruct Hc as [<- Hc]. tauto. Qed.
Lemma in_flat_parts l c : In c (flat_map partsOf l) -> In (fst c) l /\ (snd c = 0 \/ snd c = 1).
Proof. intros H. apply in_flat_map in H. destruct H as (w & Hw & Hc). apply in_partsOf in Hc. destruct Hc as [<- Hc]. auto. Qed.
Lemma phase_ok x : x <> (0%R, 0%R) -> phaseOf x = Some (x / RtoC (Cmod x))%C.
Proof.
  intros H. unfold phaseOf. destruct (reqb (Cmod x) 0) eqn:E; [|reflexivity]. apply reqb_t in E. exfalso. apply H. apply Cmod_eq_0. exact E.
Qed.
Lemma unit_rot (x y : C) : Im y = 0%R -> (0 < Re y)%R -> (x / (y / RtoC (Cmod y)))%C = x.
Proof.
  intros Hi Hr. destruct y as [u v]. cbn in Hi, Hr. subst v. unfold Cmod; cbn [fst snd]. replace (u ^ 2 + 0 ^ 2)%R with (u * u)%R by ring.
  rewrite sqrt_square by lra. replace ((u, 0%R) / RtoC u)%C with (RtoC 1).
  - destruct x as [p q]. unfold Cdiv, Cinv, RtoC, Cmult; cbn [fst snd]. f_equal; field.
  - unfold Cdiv, Cinv, RtoC, Cmult; cbn [fst snd]. f_equal; field; lra.
Qed.

Section Mass.
Variables (p : paIn) (lims : list (nat * nat)) (m : nat).
Let b := paBin p.
Let n := nrWaves b.
Let a := paAnchor p.
Let A := paAmp p m.
Let cov := paCov p m.
Hypothesis L : limsOk b lims.
Hypothesis Hm : m < nrMassBins b.
Hypothesis Ga : a < n.
Hypothesis G0 : A a <> (0%R, 0%R).
Hypothesis Gw : forall w, w < n -> w <> a -> complexAmp p m w \/ (noData p m w /\ fitted b m w = false).
Let z w := zeroAmp A cov w || outside lims w w m.
Lemma measured_eq c c' : cov (ix c) (ix c') = measured p m c c'. Proof. reflexivity. Qed.
Lemma real_complex w : realAmp A cov w = true <-> ~ complexAmp p m w.
Proof.
  unfold realAmp, complexAmp. rewrite !andb_true_iff. rewrite <- !measured_eq. unfold ix; cbn [fst snd]. rewrite !Nat.add_0_r.
  fold A. change (Im (A w)) with (snd (A w)).
  split.
  - intros [[[H1 H2] H3] H4]. apply reqb_t in H1, H2, H3, H4. tauto.
  - intros H. assert (G : forall x, ~ (x <> 0)%R -> reqb x 0 = true) by (intros x Hx; apply reqb_true; destruct (Req_EM_T x 0); tauto).
    repeat split; apply G; tauto.
Qed.
Lemma zero_real w : zeroAmp A cov w = true -> realAmp A cov w = true /\ A w = (0%R, 0%R).
Proof.
  unfold zeroAmp, realAmp. rewrite !andb_true_iff. intros [[[[[H1 H2] H3] H4] H5] H6]. repeat split; auto.
  apply reqb_t in H1, H2. destruct (A w); cbn in *; subst; reflexivity.
Qed.
Lemma fitted_nonzero w : w < n -> fitted b m w = true -> zeroAmp A cov w = false.
Proof.
  intros Hw F. destruct (zeroAmp A cov w) eqn:E; auto. exfalso. destruct (zero_real w E) as [R E0]. apply real_complex in R.
  destruct (Nat.eq_dec w a) as [->|Hne]; [contradiction|]. destruct (Gw w Hw Hne) as [H|[_ H]]; [contradiction|congruence].
Qed.
Lemma z_fitted w : w < n -> z w = negb (fitted b m w).
Proof.
  intros Hw. unfold z. rewrite (outside_fitted b lims w m L Hw Hm). destruct (fitted b m w) eqn:F; [|apply orb_true_r].
  rewrite fitted_nonzero by auto. reflexivity.
Qed.
Lemma kept_fitted : kept z n = fittedWaves p m.
Proof.
  unfold kept, fittedWaves. fold b n. apply filter_ext_in. intros w Hw. apply in_seq in Hw. rewrite z_fitted by lia. apply negb_involutive.
Qed.
Lemma comps_kept : comps p m = flat_map (compsOf a) (kept z n).
Proof. unfold comps. rewrite kept_fitted. reflexivity. Qed.
Lemma not_bad : badMass n a lims A cov m = false.
Proof.
  unfold badMass. rewrite !orb_false_iff. repeat split.
  - destruct (existsb _ _) eqn:E; auto. apply existsb_exists in E. destruct E as (w & Hw & E). apply in_seq in Hw. apply andb_true_iff in E. destruct E as [E1 E2].
    rewrite (outside_fitted b lims w m L) in E2 by (auto; unfold n in *; lia). rewrite negb_involutive in E2. rewrite fitted_nonzero in E1 by (auto; lia). discriminate.
  - destruct (zeroAmp A cov a) eqn:E; auto. destruct (zero_real a E). contradiction.
  - destruct (existsb _ _) eqn:E; auto. apply existsb_exists in E. destruct E as (w & Hw & E). apply in_seq in Hw. rewrite !andb_true_iff in E. destruct E as [[E1 E2] E3].
    apply negb_true_iff in E1, E2. apply Nat.eqb_neq in E1. apply real_complex in E3. destruct (Gw w ltac:(lia) E1) as [H|[[H1 H2] _]]; [contradiction|].
    assert (zeroAmp A cov w = true); [|congruence]. unfold zeroAmp. fold A in H1. rewrite H1. cbn [fst snd].
    pose proof (H2 0 0 ltac:(lia) ltac:(lia)) as Q1. pose proof (H2 0 1 ltac:(lia) ltac:(lia)) as Q2. pose proof (H2 1 0 ltac:(lia) ltac:(lia)) as Q3. pose proof (H2 1 1 ltac:(lia) ltac:(lia)) as Q4.
    rewrite <- measured_eq in Q1, Q2, Q3, Q4. unfold ix in Q1, Q2, Q3, Q4; cbn [fst snd] in *. rewrite ?Nat.add_0_r in *.
    rewrite !reqb_true by auto. reflexivity.
Qed.
Lemma skip_z : existsb (Nat.eqb a) (filter z (seq 0 n)) = z a.
Proof.
  destruct (z a) eqn:E.
  - apply existsb_exists. exists a. split; [|apply Nat.eqb_refl]. apply filter_In. split; auto. apply in_seq. lia.
  - destruct (existsb _ _) eqn:X; auto. apply existsb_exists in X. destruct X as (w & Hw & X). apply Nat.eqb_eq in X. subst w. apply filter_In in Hw. destruct Hw; congruence.
Qed.
Lemma size_place : 2 * (n - length (filter z (seq 0 n))) - (if z a then 0 else 1) = place z a n.
Proof.
  unfold place. change (length (filter z (seq 0 n))) with (skips z n). pose proof (rank_skips z n). replace (n - skips z n) with (rank z n) by lia.
  replace (Nat.ltb a n) with true by (symmetry; apply Nat.ltb_lt; auto). destruct (z a); reflexivity.
Qed.
Lemma pos_inj c c' : In c (comps p m) -> In c' (comps p m) -> pos z a c = pos z a c' -> c = c'.
Proof.
  rewrite comps_kept. intros Hc Hc' E. apply in_flat_map in Hc, Hc'. destruct Hc as (w & Hw & Hc), Hc' as (v & Hv & Hc').
  destruct (Nat.eq_dec w v) as [<-|Hne].
  - apply in_compsOf in Hc, Hc'. destruct c as [c e], c' as [c' e']. unfold pos in E. cbn [fst snd] in *. destruct Hc as [-> _], Hc' as [-> _]. f_equal. lia.
  - exfalso. exact (apart_pos z a n w v c c' Hw Hv Hne Hc Hc' E).
Qed.
(* the covariance of the amplitudes in the reduced matrix *)
Definition redOf : mat :=
  let ps := rows n 0 0 (filter z (seq 0 n)) in
  if realAmp A cov a then loops (realStep a (z a) cov) ps zeroMat
  else sandwich (place z a n + if z a then 0 else 1) (loops (jacStep a (z a) A) ps zeroMat) (loops (covStep cov) ps zeroMat).
(* linear propagation of the errors of the fitted waves *)
Definition propFit (c c' : comp) : R :=
  let l := flat_map partsOf (kept z n) in
  sumOver l (fun k => sumOver l (fun l => (jacEnt a A c k 0 * measured p m k l * jacEnt a A c' l 0)%R)).
Lemma red_complex c c' : realAmp A cov a = false -> In c (comps p m) -> In c' (comps p m) -> redOf (pos z a c) (pos z a c') = propFit c c'.
Proof.
  intros Hr Hc Hc'. unfold redOf. rewrite Hr. cbv zeta. rewrite rows_kept. rewrite comps_kept in Hc, Hc'.
  assert (Es : place z a n + (if z a then 0 else 1) = 2 * rank z n).
  { unfold place. replace (Nat.ltb a n) with true by (symmetry; apply Nat.ltb_lt; auto). destruct (z a) eqn:E; cbn [andb negb]; [lia|].
    pose proof (rank_lt z a n Ga E). lia. }
  rewrite Es. unfold sandwich. rewrite sumN_sum.
  rewrite (sumTo_p (flat_map partsOf (kept z n)) (pos2 z)) by apply pos2_seq. unfold propFit. cbv zeta.
  set (l := flat_map partsOf (kept z n)).
  transitivity (sumOver l (fun k' => sumOver l (fun k => (jacEnt a A c k 0 * measured p m k k' * jacEnt a A c' k' 0)%R))).
  - apply sumOver_ext. intros k' Hk'. rewrite sumN_sum, (sumTo_p l (pos2 z)) by apply pos2_seq. rewrite (jac_block z a n A c' k') by auto.
    transitivity (jacEnt a A c' k' 0 * sumOver l (fun k => (jacEnt a A c k 0 * measured p m k k')%R))%R.
    + rewrite Rmult_comm. f_equal. apply sumOver_ext. intros k Hk. rewrite (jac_block z a n A c k), (cov_block z n cov k k') by auto. reflexivity.
    + unfold sumOver. rewrite Rmult_comm. clear. induction l as [|x l IH]; [unfold total; cbn; lra|]. cbn [map]. rewrite !total_cons, <- IH. lra.
  - assert (G : forall l1 l2 (f : comp -> comp -> R), sumOver l1 (fun x => sumOver l2 (f x)) = sumOver l2 (fun y => sumOver l1 (fun x => f x y))).
    { clear. intros l1 l2 f. induction l1 as [|x l1 IH].
      - symmetry. apply total_zero. intros y Hy. apply in_map_iff in Hy. destruct Hy as (k & <- & _). reflexivity.
      - unfold sumOver in *. cbn [map]. rewrite total_cons, IH. clear IH. induction l2 as [|y l2 IH]; [unfold total; cbn; lra|].
        cbn [map]. rewrite !total_cons. rewrite <- IH. cbn [map]. rewrite ?total_cons. lra. }
    apply G.
Qed.
Lemma red_real c c' : realAmp A cov a = true -> In c (comps p m) -> In c' (comps p m) -> redOf (pos z a c) (pos z a c') = measured p m c c'.
Proof.
  intros Hr Hc Hc'. unfold redOf. rewrite Hr. cbv zeta. rewrite rows_kept. rewrite comps_kept in Hc, Hc'. rewrite (real_block z a n cov c c') by auto. reflexivity.
Qed.
Lemma jac_unique J c k : isJacobian p m J -> In c (comps p m) -> In k (allParts p) -> J c k = jacEnt a A c k 0.
Proof.
  intros HJ Hc Hk. pose proof (HJ c k Hc Hk) as D1. rewrite comps_kept in Hc. destruct (in_flat_comps _ _ _ _ Hc) as (_ & _ & Sc).
  destruct (in_flat_parts _ _ Hk) as [_ Sk].
  pose proof (jac_derive a A c k G0 Sk Sc) as D2. rewrite <- (is_derive_unique _ _ _ D1). apply is_derive_unique. exact D2.
Qed.
Lemma prop_fit J c c' : isJacobian p m J -> (forall w, w < n -> fitted b m w = true -> fitted b m a = true) ->
  In c (comps p m) -> In c' (comps p m) -> propagated p m J c c' = propFit c c'.
Proof.
  intros HJ Hu Hc Hc'. unfold propagated, propFit. cbv zeta. change (allParts p) with (flat_map partsOf (seq 0 n)).
  assert (Z : forall c k, In c (comps p m) -> In k (flat_map partsOf (seq 0 n)) -> z (fst k) = true -> jacEnt a A c k 0 = 0%R).
  { clear c c' Hc Hc'. intros c k Hc Hk Hz. rewrite comps_kept in Hc. destruct (in_flat_comps _ _ _ _ Hc) as (Lc & Zc & _). unfold jacEnt. cbv zeta.
    rewrite z_fitted in Zc by auto. apply negb_false_iff in Zc. pose proof (Hu _ Lc Zc) as Fa. 
    destruct (Nat.eqb_spec (fst k) a) as [E|E].
    - rewrite E, z_fitted, Fa in Hz by auto. discriminate.
    - destruct (Nat.eqb_spec (fst c) (fst k)) as [E'|E']; [|reflexivity]. rewrite <- E', z_fitted, Zc in Hz by auto. discriminate. }
  rewrite (sum_kept z n).
  - apply sumOver_ext. intros k Hk.
    assert (Hk' : In k (flat_map partsOf (seq 0 n))).
    { apply in_flat_map in Hk. destruct Hk as (w & Hw & Hk). apply in_flat_map. exists w. split; auto. apply kept_in in Hw. apply in_seq. lia. }
    rewrite (sum_kept z n).
    + apply sumOver_ext. intros l Hl.
      assert (Hl' : In l (flat_map partsOf (seq 0 n))).
      { apply in_flat_map in Hl. destruct Hl as (w & Hw & Hl). apply in_flat_map. exists w. split; auto. apply kept_in in Hw. apply in_seq. lia. }
      rewrite (jac_unique J c k), (jac_unique J c' l) by auto. reflexivity.
    + intros l Hl Zl. rewrite (jac_unique J c' l), (Z c' l) by auto. ring.
  - intros k Hk Zk. apply total_zero. intros x Hx. apply in_map_iff in Hx. destruct Hx as (l & <- & Hl). rewrite (jac_unique J c k), (Z c k) by auto. ring.
Qed.
Lemma red_cov V c c' : (forall w, w < n -> complexAmp p m a -> fitted b m w = true -> fitted b m a = true) -> covarianceOf p m V ->
  In c (comps p m) -> In c' (comps p m) -> redOf (pos z a c) (pos z a c') = V c c'.
Proof.
  intros Hu [(H1 & H2 & ->)|(H1 & J & HJ & ->)] Hc Hc'.
  - apply real_complex in H1. apply red_real; auto.
  - rewrite (prop_fit J) by (auto; intros w Hw F; apply (Hu w); auto). apply red_complex; auto. destruct (realAmp A cov a) eqn:E; auto. apply real_complex in E. contradiction.
Qed.

Variables (invert : nat -> mat -> mat) (uc : covUse).
Hypothesis Hinv : inverts invert.
(* the amplitudes and the inverse matrix of the mass bin *)
Lemma mass_prepared V W : (forall c c', In c (comps p m) -> In c' (comps p m) -> redOf (pos z a c) (pos z a c') = V c c') ->
  (realAmp A cov a = true -> (0 < Re (A a))%R) -> inverseOn (comps p m) (masked uc V) W ->
  exists A' X, prepareAmpMass invert uc n a lims A cov m = Some (Some (A', X)) /\ (forall w, w < n -> A' w = rotated a A w) /\
    forall c c', In c (comps p m) -> In c' (comps p m) -> X (ix c) (ix c') = W c c'.
Proof.
  intros HV Hp HW. unfold prepareAmpMass. rewrite not_bad. cbv zeta. fold z. rewrite skip_z, size_place.
  set (ps := rows n 0 0 (filter z (seq 0 n))).
  set (red1 := match uc with UseFull => redOf | _ => loops (maskStep a (z a) uc) ps redOf end).
  assert (Hred1 : forall c c', In c (comps p m) -> In c' (comps p m) -> red1 (pos z a c) (pos z a c') = masked uc V c c').
  { intros c c' Hc Hc'. unfold red1. destruct uc eqn:Eu.
    3: { cbn [masked]. apply HV; auto. }
    all: unfold ps; rewrite rows_kept; pose proof Hc as Kc; pose proof Hc' as Kc'; rewrite comps_kept in Kc, Kc';
      rewrite (mask_block z a n) by (auto; discriminate); unfold masked; rewrite (HV c c') by auto; reflexivity. }
  assert (HX : forall c c', In c (comps p m) -> In c' (comps p m) -> loops (backStep a (z a) (invert (place z a n) red1)) ps zeroMat (ix c) (ix c') = W c c').
  { intros c c' Hc Hc'. unfold ps. rewrite rows_kept. pose proof Hc as Kc; pose proof Hc' as Kc'; rewrite comps_kept in Kc, Kc'.
    rewrite (back_block z a n) by auto.
    apply (invert_W (comps p m) (pos z a) (place z a n)) with (V := masked uc V); auto.
    - rewrite comps_kept. apply pos_seq.
    - apply (inverse_places (comps p m) (pos z a) (place z a n)); auto.
      + rewrite comps_kept. apply pos_seq.
      + apply pos_inj. }
  unfold redOf in red1. cbv zeta in red1. fold ps in red1. destruct (realAmp A cov a) eqn:Er.
  - exists A, (loops (backStep a (z a) (invert (place z a n) red1)) ps zeroMat). split; [reflexivity|]. split; auto.
    intros w Hw. unfold rotated. symmetry. apply unit_rot; auto. apply real_complex in Er. unfold complexAmp in Er.
    destruct (Req_EM_T (Im (A a)) 0); auto. exfalso. apply Er. left. auto.
  - rewrite (phase_ok (A a) G0). eexists. exists (loops (backStep a (z a) (invert (place z a n) red1)) ps zeroMat). split; [reflexivity|]. split; auto.
    intros w Hw. cbv beta. replace (Nat.ltb w n) with true by (symmetry; apply Nat.ltb_lt; auto). reflexivity.
Qed.
Lemma mass_value W X A' fit ph : (forall w, w < n -> A' w = rotated a A w) -> (forall c c', In c (comps p m) -> In c' (comps p m) -> X (ix c) (ix c') = W c c') ->
  fit a <> (0%R, 0%R) -> ph = (fit a / RtoC (Cmod (fit a)))%C -> similarity (2 * n) X (diffVect n a lims m fit ph A') = quadratic p m W fit.
Proof.
  intros HA HX Hf ->. unfold similarity. rewrite sumN_sum. set (v := diffVect n a lims m fit _ A').
  assert (V0 : forall w, w < n -> fitted b m w = false -> v (2 * w) = 0%R /\ v (2 * w + 1) = 0%R).
  { intros w Hw F. assert (O : outside lims w w m = true) by (rewrite (outside_fitted b lims w m L) by auto; rewrite F; reflexivity).
    split; [rewrite <- (Nat.add_0_r (2 * w))|]; unfold v; rewrite diff_val, O by (auto; lia); reflexivity. }
  assert (Va : v (2 * a + 1) = 0%R).
  { unfold v. rewrite diff_val by (auto; lia). destruct (outside lims a a m); [reflexivity|]. cbn [Nat.eqb]. rewrite Nat.eqb_refl. reflexivity. }
  assert (Vc : forall c, In c (comps p m) -> v (ix c) = deviation p m fit c).
  { intros [w e] Hc. rewrite comps_kept in Hc. destruct (in_flat_comps _ _ _ _ Hc) as (Lw & Zw & Se). cbn [fst snd] in *. unfold ix; cbn [fst snd].
    unfold v. rewrite diff_val by (auto; lia). rewrite (outside_fitted b lims w m L) by auto. rewrite z_fitted in Zw by auto. rewrite Zw.
    unfold deviation; cbn [fst snd]. fold a A. rewrite <- HA by auto. destruct Se as [-> |[-> Hne]]; cbn [Nat.eqb part]; [reflexivity|].
    apply Nat.eqb_neq in Hne. rewrite Hne. reflexivity. }
  rewrite (sum_parts n _ (fitted b m) a).
  - unfold quadratic. change (flat_map (compsOf a) (filter (fitted b m) (seq 0 n))) with (comps p m). apply sumOver_ext. intros c Hc.
    rewrite sumN_sum, (sum_parts n _ (fitted b m) a).
    + change (flat_map (compsOf a) (filter (fitted b m) (seq 0 n))) with (comps p m). rewrite (Vc c Hc).
      transitivity (deviation p m fit c * sumOver (comps p m) (fun c' => (W c c' * deviation p m fit c')%R))%R.
      * f_equal. apply sumOver_ext. intros c' Hc'. rewrite HX, Vc by auto. reflexivity.
      * unfold sumOver. generalize (comps p m) as l. clear. intros l. induction l as [|x l IH]; [unfold total; cbn; lra|]. cbn [map]. rewrite !total_cons, <- IH. lra.
    + intros w Hw F. destruct (V0 w Hw F) as [-> ->]. split; ring.
    + intros _. rewrite Va. ring.
  - intros w Hw F. destruct (V0 w Hw F) as [-> ->]. split; ring.
  - intros _. rewrite Va. ring.
Qed.
End Mass.
