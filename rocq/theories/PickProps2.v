(* C82, continued: the other pickers, and what goes wrong. *)
From Coq Require Import List ZArith Reals Bool Lia Lra Psatz.
From Coquelicot Require Import Coquelicot.
From Verif Require Import ArrayModel CGBoxModel PhysModel PhaseModel PhaseSpec PhaseProofs PhaseProofs2 LikSetProofs ProdModel ProdSpec ProdProofs2 PickModel PickSpec PickProofs PickProofs2 PickProofs3 PickProps.
Import ListNotations.
Open Scope R_scope.

(* The mass is uniform in the mass range, and t' is then picked for it with the next random numbers. *)
Theorem C82_mass k rnd pos : ready k -> uniform rnd -> exists m, m = kMLo k + (kMHi k - kMLo k) * rnd pos /\ (kMLo k < kMHi k -> kMLo k < m <= kMHi k) /\ (kMLo k = kMHi k -> m = kMLo k)
  /\ pickExp k rnd pos = (do (ok, t, pos') <- pickTExp k m rnd (S pos); Some (ok, m, t, pos')).
Proof.
  intros RD U. pose proof (ready_inv k RD) as (I1 & _). exists (uniformIn (kMLo k) (kMHi k) (rnd pos)). destruct (U pos) as [U0 U1]. unfold pickExp. rewrite I1. cbn [negb]. unfold uniformIn.
  split; [reflexivity|]. split; [intros; nra|]. split; [intros ->; ring|reflexivity].
Qed.
Example C82_mass_case : exists k, ready k /\ kMLo k < kMHi k.
Proof. exists (Pk true 1 2 0.1 1 [(1, [-10; 2; -5])] 2 [] []). split; [apply two_ready; lra|cbn; lra]. Qed.

(* A picker can be initialised once; changing the mass range or asking for a range needs an initialised
   picker; a picker that is not initialised picks nothing. *)
Theorem C82_initialised k c : (kInit k = true ->
    initExp c k = Some (false, k) /\ initPoly c k = Some (false, k) /\ initUni c k = Some (false, k)
    /\ (exists r, massRange k = Some r) /\ forall lo hi, exists k', overrideMassRange lo hi k = Some k' /\ massRange k' = Some (lo, hi) /\ tPrimeRange k' = tPrimeRange k)
  /\ (kInit k = false -> massRange k = None /\ tPrimeRange k = None /\ (forall lo hi, overrideMassRange lo hi k = None)
      /\ forall rnd pos fuel g, (exists m t pos', pickExp k rnd pos = Some (false, m, t, pos')) /\ (exists m t pos', pickPoly fuel g k rnd pos = Some (false, m, t, pos')) /\ (exists m t pos', pickUni k rnd pos = Some (false, m, t, pos'))).
Proof.
  unfold initExp, initPoly, initUni, initRanges, massRange, tPrimeRange, overrideMassRange, pickExp, pickPoly, pickUni. split; intros ->; cbn [bnd negb].
  - split; [reflexivity|]. split; [reflexivity|]. split; [destruct (isFloat (cTMin c) && isFloat (cTMax c)); reflexivity|]. split; [eexists; reflexivity|]. intros lo hi. eexists. split; [reflexivity|]. split; reflexivity.
  - split; [reflexivity|]. split; [reflexivity|]. split; [reflexivity|]. intros rnd pos fuel g. repeat split; eexists _, _, _; reflexivity.
Qed.
Example C82_initialised_case : kInit newPk = false /\ exists k, kInit k = true.
Proof. split; [reflexivity|]. exists (Pk true 1 2 0.1 1 [] 2 [] []). reflexivity. Qed.

(* uniformMassAndTPicker: both numbers uniform in their ranges. *)
Theorem C82_uniform c lo hi tlo thi rnd pos : cMassMin c = Some (EFloat lo) -> cMassMax c = Some (EFloat hi) -> cTMin c = Some (EFloat tlo) -> cTMax c = Some (EFloat thi) -> uniform rnd ->
  exists ok k, initUni c newPk = Some (ok, k) /\ (ok = true <-> lo <= hi /\ tlo <= thi)
    /\ (ok = true -> exists m t, pickUni k rnd pos = Some (true, m, t, (pos + 2)%nat) /\ m = lo + (hi - lo) * rnd pos /\ t = tlo + (thi - tlo) * rnd (S pos) /\ lo <= m <= hi /\ tlo <= t <= thi).
Proof.
  intros E1 E2 E3 E4 U. unfold initUni, initRanges. rewrite E1, E2, E3, E4. cbn [isFloat andb negb kInit newPk lookup].
  destruct (Rlt_le_dec hi lo) as [H1|H1]; [rewrite (rltb_true _ _ H1)|rewrite (rltb_false _ _ H1)]; cbn [bnd negb].
  { eexists false, _. split; [reflexivity|]. split; [split; [discriminate|lra]|discriminate]. }
  cbn [kTLo kTHi kInit]. destruct (Rlt_le_dec thi tlo) as [H2|H2]; [rewrite (rltb_true _ _ H2)|rewrite (rltb_false _ _ H2)]; cbn [bnd negb].
  { eexists false, _. split; [reflexivity|]. split; [split; [discriminate|lra]|discriminate]. }
  eexists true, _. split; [reflexivity|]. split; [split; [intros _; split; assumption|reflexivity]|]. intros _. unfold pickUni, pickTUni. cbn [kInit negb kMLo kMHi kTLo kTHi bnd]. unfold uniformIn.
  eexists _, _. split; [f_equal; f_equal; lia|]. split; [reflexivity|]. split; [reflexivity|]. pose proof (U pos). pose proof (U (S pos)). split; split; nra.
Qed.
Example C82_uniform_case : exists c, cMassMin c = Some (EFloat 1) /\ cMassMax c = Some (EFloat 2) /\ cTMin c = Some (EFloat 0.1) /\ cTMax c = Some (EFloat 1).
Proof. exists (conf1 0.1 1 [] false). repeat split. Qed.

(* polynomialMassAndTPrimeSlopePicker: with a positive slope b at the mass, t' is the first of the
   exponential numbers with that slope which is in the range: with uniform u, t' <= T exactly if
   u >= exp(- b T). *)
Theorem C82_polynomial k m rnd pos fuel : kInit k = true -> uniform rnd -> let b := evalPoly (kCoT k) m in 0 < b ->
  (exists j, (j < fuel)%nat /\ exp (- b * kTHi k) <= rnd (pos + j)%nat <= exp (- b * kTLo k)) ->
  exists j t, pickTPoly fuel k m rnd pos = Some (true, t, S (pos + j)) /\ kTLo k <= t <= kTHi k /\ (forall T, t <= T <-> exp (- b * T) <= rnd (pos + j)%nat)
    /\ forall i, (i < j)%nat -> ~ (exp (- b * kTHi k) <= rnd (pos + i)%nat <= exp (- b * kTLo k)).
Proof.
  cbv zeta. set (b := evalPoly (kCoT k) m). intros I1 U B HJ. unfold pickTPoly. rewrite I1. cbn [negb]. fold b. rewrite rdiv_ne by lra. cbn [bnd].
  assert (forall i T, - (1 / b) * ln (rnd i) <= T <-> exp (- b * T) <= rnd i) as K.
  { intros i T. destruct (U i) as [U0 _]. split; intros H.
    - rewrite <- (exp_ln (rnd i) U0). assert (- b * T <= ln (rnd i)) as Q. { apply (Rmult_le_compat_l b) in H; [|lra]. replace (b * (- (1 / b) * ln (rnd i))) with (- ln (rnd i)) in H by (field; lra). lra. }
      destruct Q as [Q|Q]; [left; now apply exp_increasing|rewrite Q; lra].
    - assert (- b * T <= ln (rnd i)) as Q. { apply Rnot_lt_le. intros N. apply exp_increasing in N. rewrite exp_ln in N by exact U0. lra. }
      apply (Rmult_le_reg_l b); [exact B|]. replace (b * (- (1 / b) * ln (rnd i))) with (- ln (rnd i)) by (field; lra). lra. }
  assert (forall i T, T <= - (1 / b) * ln (rnd i) <-> rnd i <= exp (- b * T)) as K'.
  { intros i T. destruct (U i) as [U0 _]. split; intros H.
    - rewrite <- (exp_ln (rnd i) U0). assert (ln (rnd i) <= - b * T) as Q. { apply (Rmult_le_compat_l b) in H; [|lra]. replace (b * (- (1 / b) * ln (rnd i))) with (- ln (rnd i)) in H by (field; lra). lra. }
      destruct Q as [Q|Q]; [left; now apply exp_increasing|rewrite Q; lra].
    - assert (ln (rnd i) <= - b * T) as Q. { apply Rnot_lt_le. intros N. apply exp_increasing in N. rewrite exp_ln in N by exact U0. lra. }
      apply (Rmult_le_reg_l b); [exact B|]. replace (b * (- (1 / b) * ln (rnd i))) with (- ln (rnd i)) by (field; lra). lra. }
  assert (exists j t, drawT fuel k (1 / b) rnd pos = Some (t, S (pos + j)) /\ kTLo k <= t <= kTHi k /\ t = - (1 / b) * ln (rnd (pos + j)%nat)
    /\ forall i, (i < j)%nat -> ~ (exp (- b * kTHi k) <= rnd (pos + i)%nat <= exp (- b * kTLo k))) as (j & t & E & T1 & ET & FR).
  { revert pos HJ. induction fuel as [|fuel IH]; intros pos (j & Hj & J); [lia|]. cbn [drawT]. set (t := - (1 / b) * ln (rnd pos)).
    destruct (Rlt_le_dec t (kTLo k)) as [H1|H1]; [rewrite (rltb_true _ _ H1)|rewrite (rltb_false _ _ H1)]; [|destruct (Rlt_le_dec (kTHi k) t) as [H2|H2]; [rewrite (rltb_true _ _ H2)|rewrite (rltb_false _ _ H2)]]; cbn [orb].
    3:{ exists 0%nat, t. rewrite Nat.add_0_r. split; [reflexivity|]. split; [lra|]. split; [reflexivity|]. intros i Hi. lia. }
    all: assert (~ (exp (- b * kTHi k) <= rnd pos <= exp (- b * kTLo k))) as NI by (intros [Q1 Q2]; apply K in Q1; apply K' in Q2; fold t in Q1, Q2; lra);
      (destruct j as [|j]; [rewrite Nat.add_0_r in J; contradiction|]);
      (destruct (IH (S pos)) as (j' & t' & E & T1 & ET & FR); [exists j; split; [lia|now replace (S pos + j)%nat with (pos + S j)%nat by lia]|]);
      exists (S j'), t'; (replace (pos + S j')%nat with (S pos + j')%nat by lia); (split; [exact E|]); (split; [exact T1|]); (split; [exact ET|]);
      intros [|i] Hi; [rewrite Nat.add_0_r; exact NI|]; (replace (pos + S i)%nat with (S pos + i)%nat by lia); apply FR; lia. }
  rewrite E. cbn [bnd]. exists j, t. split; [reflexivity|]. split; [exact T1|]. split; [|exact FR]. intros T. rewrite ET. apply K.
Qed.
Example C82_polynomial_case : exists k, kInit k = true /\ 0 < evalPoly (kCoT k) 1.5 /\ exists rnd, uniform rnd /\ exists j, (j < 3)%nat /\ exp (- evalPoly (kCoT k) 1.5 * kTHi k) <= rnd (0 + j)%nat <= exp (- evalPoly (kCoT k) 1.5 * kTLo k).
Proof.
  exists (Pk true 1 2 0 1 [] 0 [1] [1; 2]). split; [reflexivity|]. cbn [kCoT evalPoly kTHi kTLo]. split; [lra|]. exists (fun _ => 1). split; [intros i; lra|]. exists 0%nat. split; [lia|].
  replace (- (1 + 1.5 * (2 + 1.5 * 0)) * 0) with 0 by lra. rewrite exp_0. split; [|lra]. apply Rle_trans with (exp 0); [left; apply exp_increasing; lra|rewrite exp_0; lra].
Qed.

(* ---- what goes wrong ---- *)
(* A slope polynomial that is negative at the mass - the sign that the exponential picker requires - is
   accepted, and with t' >= 0 the search for t' never ends. *)
Theorem C82_polynomial_negative_refuted k m : kInit k = true -> evalPoly (kCoT k) m < 0 -> 0 <= kTLo k ->
  forall rnd pos fuel, uniform rnd -> (forall i, rnd i < 1) -> pickTPoly fuel k m rnd pos = None.
Proof.
  intros I1 B T rnd pos fuel U U1. unfold pickTPoly. rewrite I1. cbn [negb]. rewrite rdiv_ne by lra. cbn [bnd]. set (tau := 1 / _).
  assert (tau < 0) as TA. { unfold tau. unfold Rdiv. rewrite Rmult_1_l. now apply Rinv_lt_0_compat. }
  revert pos. induction fuel as [|fuel IH]; intros pos; [reflexivity|]. cbn [drawT]. assert (- tau * ln (rnd pos) < kTLo k) as N.
  { assert (ln (rnd pos) < 0). { rewrite <- ln_1. apply ln_increasing; [apply U|apply U1]. } nra. }
  rewrite (rltb_true _ _ N). cbn [orb]. apply IH.
Qed.
Example C82_polynomial_negative_case : exists c k, initPoly c newPk = Some (true, k) /\ kInit k = true /\ evalPoly (kCoT k) 1.5 < 0 /\ 0 <= kTLo k.
Proof.
  exists (PConf (Some (EFloat 1)) (Some (EFloat 2)) (Some (EFloat 0)) (Some (EFloat 1)) None None (Some (EArray [EFloat 1])) (Some (EArray [EFloat (-5)]))), (Pk true 1 2 0 1 [] 0 [1] [-5]).
  split; [|cbn; split; [reflexivity|split; lra]]. unfold initPoly, initRanges. cbn [kInit newPk cMassMin cMassMax cTMin cTMax isFloat andb negb lookup kTLo kTHi kSlopes kN kCoM kCoT].
  rewrite (rltb_false 2 1), (rltb_false 1 0) by lra. reflexivity.
Qed.
(* A mass equal to the smallest of several masses makes the program use the element before the first one. *)
Theorem C82_first_mass_refuted k : ready k -> (2 <= length (kSlopes k))%nat -> forall x, hd_error (kSlopes k) = Some x -> forall rnd pos, pickTExp k (fst x) rnd pos = None.
Proof.
  intros RD L x HX rnd pos. pose proof (ready_inv k RD) as (I1 & NE & O & _). unfold pickTExp. rewrite I1. cbn [negb]. destruct (kSlopes k) as [|y [|z l]] eqn:EK; cbn in L; try lia. cbn in HX. injection HX as ->.
  cbn [length Nat.eqb]. unfold paramsFor. cbn [nth_error bnd].
  assert (exists w, nth_error (x :: z :: l) (length (x :: z :: l) - 1) = Some w) as (w & EW).
  { destruct (nth_error _ _) as [w|] eqn:E; [now exists w|]. apply nth_error_None in E. cbn in E. lia. }
  rewrite EW. cbn [bnd length Nat.eqb]. assert (fst x < fst w) as LT. { apply (ordered_le _ O 0 (length (x :: z :: l) - 1)); [cbn; lia|reflexivity|exact EW]. }
  rewrite (rltb_false (fst w) (fst x)) by lra. rewrite (rltb_false (fst x) (fst x)) by lra. cbn [neighbours]. rewrite (rltb_false (fst x) (fst x)) by lra. reflexivity.
Qed.
Example C82_first_mass_case : exists k, ready k /\ (2 <= length (kSlopes k))%nat.
Proof. destruct C82_one_exponential_case as (k & A & _ & _ & B & _). exists k. split; [exact A|]. rewrite B. apply le_n. Qed.
(* Arrays of three and of four parameters are accepted together; in between the sizes do not match (an
   assertion, or an access outside the array). *)
Theorem C82_lengths_refuted : exists c k, initExp c newPk = Some (true, k) /\ ready k /\ forall rnd pos, pickTExp k 1.5 rnd pos = None.
Proof.
  set (k := Pk true 1 2 0 1 [(1, [-10; 2; -5]); (2, [-10; 2; -5; 3])] 2 [] []).
  assert (initExp (conf1 0 1 [(1, [-10; 2; -5]); (2, [-10; 2; -5; 3])] true) newPk = Some (true, k)) as E.
  { unfold initExp, initRanges, conf1. cbn [kInit newPk cMassMin cMassMax cTMin cTMax cMasses cSlopes isFloat andb negb lookup kTLo kTHi kSlopes kN kCoM kCoT].
    rewrite (rltb_false 2 1), (rltb_false 1 0) by lra. cbn. rewrite !(rltb_true (-10) 0), !(rltb_true (-5) 0), ?(rltb_false 2 0) by lra. cbn.
    rewrite (rltb_false 2 1), (rltb_true 1 2) by lra. reflexivity. }
  eexists _, k. split; [exact E|]. split; [exact (RdInit _ _ E)|]. intros rnd pos. unfold pickTExp, k. cbn [kInit negb kSlopes length Nat.eqb]. unfold paramsFor. cbn [nth_error bnd length Nat.sub Nat.eqb fst snd].
  rewrite (rltb_false 2 1.5), (rltb_false 1.5 1) by lra. cbn [neighbours fst]. rewrite (rltb_true 1 1.5), (rltb_false 2 1.5) by lra. cbn [bnd fst snd interpolateAll]. rewrite !interpolate_ok by lra. reflexivity.
Qed.
(* With a negative lower limit of t' and several exponentials, all random numbers whose t' would be
   negative give t' = 0. *)
Theorem C82_negative_limit_refuted : exists k, ready k /\ sameLengths k /\ notFirst k 1 /\ kN k = 2%nat /\ kTLo k = -1 /\ kTHi k = 1
  /\ forall r q p, slopesAt (kSlopes k) 1 p -> quantile (intensity p) (-1) 1 r q -> 0 < r -> q < 0 -> forall rnd pos, rnd pos = r -> pickTExp k 1 rnd pos = Some (true, 0, S pos).
Proof.
  set (p0 := [-1; 1; -1]). exists (Pk true 1 2 (-1) 1 [(1, p0)] 2 [] []). split; [apply two_ready; lra|]. split; [intros x y [<-|[]] [<-|[]]; reflexivity|]. split; [intros Q; cbn in Q; lia|]. split; [reflexivity|]. split; [reflexivity|]. split; [reflexivity|].
  intros r q p SA (B & N & I1 & I2) R0 Q0 rnd pos ER. assert (p = p0) as ->.
  { cbn [kSlopes] in SA. destruct SA as [(x & [<-|[]] & <- & _)|[(x & [<-|[]] & <- & _)|(i & m1 & p1 & m2 & p2 & _ & E & _)]]; [reflexivity|reflexivity|]. destruct i; cbn in E; [discriminate|destruct i; discriminate]. }
  assert (goodParams p0) as G by (split; [discriminate|repeat constructor; cbn; lra]).
  assert (N = prim p0 1 - prim p0 (-1)) as EN. { rewrite <- (is_RInt_unique _ _ _ _ I1). exact (is_RInt_unique _ _ _ _ (int_ok p0 (-1) 1 G)). }
  assert (r * N = prim p0 q - prim p0 (-1)) as EQ. { rewrite <- (is_RInt_unique _ _ _ _ I2). exact (is_RInt_unique _ _ _ _ (int_ok p0 (-1) q G)). }
  rewrite EN in EQ. pose proof (prim_lt p0 q 0 G Q0) as LT. pose proof (intensity_pos p0 0 G) as FP.
  unfold pickTExp. cbn [kInit negb kSlopes length Nat.eqb]. change (paramsFor 1 [(1, p0)]) with (Some p0). cbn [bnd kN]. change ((length p0 + 1) / 2 =? 2)%nat with true. cbn [negb Nat.eqb kTLo kTHi].
  rewrite !(bigF_ok 2 p0 _ eq_refl G). cbn [bnd attempts]. rewrite ER.
  assert (newton 50 2 p0 (prim p0 (-1)) (prim p0 1) r 0 = Some (true, 0)) as ->; [|reflexivity].
  cbn [newton]. rewrite (bigF_ok 2 p0 0 eq_refl G), (smallf_ok 2 p0 0 eq_refl (proj1 G)). cbn [bnd]. destruct (rltb (Rabs _) _); [reflexivity|].
  rewrite rdiv_ne by lra. cbn [bnd]. destruct (rltb (Rabs _) _); [reflexivity|]. rewrite rltb_true; [reflexivity|]. apply Rdiv_lt_0_compat; [|exact FP].
  replace (prim p0 0 - r * prim p0 1 - (1 - r) * prim p0 (-1)) with (prim p0 0 - prim p0 (-1) - r * (prim p0 1 - prim p0 (-1))) by ring. lra.
Qed.
(* If the range of t' starts too far from zero, measured in units of the inverse slope, 50 steps from
   t' = 0 never reach it, and the picker fails for all random numbers. *)
Lemma far_step T t : let p := [-1; 1; -1] in prim p t <= T -> T < 0 -> 0 <= t ->
  t - (prim p t - T) / intensity p t <= t + 1.
Proof.
  cbv zeta. set (p := [-1; 1; -1]). intros H T0 t0. assert (goodParams p) as G by (split; [discriminate|repeat constructor; cbn; lra]). pose proof (intensity_pos p t G) as FP.
  assert (prim p t = - intensity p t) as EP. { unfold prim, intensity, sumTerms, p. cbn. field. }
  rewrite EP. replace ((- intensity p t - T) / intensity p t) with (-1 + (- T) / intensity p t) by (field; lra). assert (0 < - T / intensity p t) by (apply Rdiv_lt_0_compat; lra). lra.
Qed.
Lemma far_newton lo hi r : let p := [-1; 1; -1] in 52 <= lo -> lo <= hi -> 0 < r <= 1 -> forall n t, 0 <= t -> t + INR n <= 50 ->
  exists t', newton n 2 p (prim p lo) (prim p hi) r t = Some (false, t').
Proof.
  cbv zeta. set (p := [-1; 1; -1]). intros L0 LH RR. assert (goodParams p) as G by (split; [discriminate|repeat constructor; cbn; lra]).
  assert (forall t, prim p t = - intensity p t) as EP. { intros t. unfold prim, intensity, sumTerms, p. cbn. field. }
  assert (forall t, intensity p t = 2 * exp (- t)) as EI. { intros t. unfold intensity, sumTerms, p. cbn. replace (-1 * t) with (- t) by ring. ring. }
  set (T := prim p lo + r * (prim p hi - prim p lo)). pose proof (prim_le p lo hi G LH) as PL. pose proof (intensity_pos p hi G) as PH. pose proof (intensity_pos p lo G) as PLo.
  assert (prim p lo <= T) as T1 by (unfold T; nra). assert (T < 0) as T2. { unfold T. rewrite !EP. nra. }
  assert (eps < / 10000) as EE. { unfold eps. apply Rinv_lt_contravar; cbn; lra. }
  induction n as [|n IH]; intros t t0 tn; cbn [newton]; rewrite (bigF_ok 2 p t eq_refl G), (smallf_ok 2 p t eq_refl (proj1 G)); cbn [bnd]; pose proof (intensity_pos p t G) as FP;
    (assert (t <= 50) as T50 by (match type of tn with _ + INR ?j <= _ => pose proof (pos_INR j) end; lra));
    (assert (intensity p lo <= / 2 * intensity p t) as HALF
       by (rewrite !EI; replace (- lo) with (- t + (- (lo - t))) by ring; rewrite exp_plus; pose proof (exp_pos (- t)) as Q; assert (exp (- (lo - t)) <= / 2) as Q2;
           [rewrite exp_Ropp; pose proof (exp_ineq1_le (lo - t)) as Q3; apply Rinv_le_contravar; lra|nra]));
    (assert (prim p t <= - 2 * intensity p lo) as PT by (rewrite EP; lra));
    (assert (/ 2 * intensity p t <= T - prim p t) as GAP by (pose proof (EP t); pose proof (EP lo); lra));
    (assert (prim p t - r * prim p hi - (1 - r) * prim p lo = prim p t - T) as EU by (unfold T; ring)); rewrite EU, rdiv_ne by lra; cbn [bnd];
    (replace (prim p t - prim p lo - r * (prim p hi - prim p lo)) with (prim p t - T) by (unfold T; ring));
    (assert (Rabs (prim p t - T) = T - prim p t) as EA by (rewrite Rabs_left1 by lra; ring)); rewrite EA;
    (assert (Rabs ((prim p t - T) / intensity p t) = (T - prim p t) / intensity p t) as EB
       by (unfold Rdiv; rewrite Rabs_mult, EA, (Rabs_right (/ intensity p t)); [reflexivity|apply Rle_ge, Rlt_le, Rinv_0_lt_compat; exact FP])); rewrite EB;
    pose proof eps_pos as EPS;
    (rewrite rltb_false by (assert (r * (prim p hi - prim p lo) <= intensity p lo) by (rewrite !EP; nra); assert (0 <= r * (prim p hi - prim p lo)) by nra; nra));
    (assert (/ 2 <= (T - prim p t) / intensity p t) as UP by (apply (Rmult_le_reg_r (intensity p t)); [exact FP|]; unfold Rdiv; rewrite (Rmult_assoc (T - prim p t)), Rinv_l by lra; lra));
    (rewrite rltb_false by nra); (rewrite rltb_false by (replace ((prim p t - T) / intensity p t) with (- ((T - prim p t) / intensity p t)) by (unfold Rdiv; ring); lra)).
  - eexists. reflexivity.
  - apply IH.
    + replace ((prim p t - T) / intensity p t) with (- ((T - prim p t) / intensity p t)) by (unfold Rdiv; ring). lra.
    + pose proof (far_step T t ltac:(fold p; lra) T2 t0) as FS. fold p in FS. rewrite S_INR in tn. lra.
Qed.
Theorem C82_far_range_refuted lo hi : 52 <= lo -> lo <= hi -> exists k, ready k /\ sameLengths k /\ notFirst k 1 /\ kN k = 2%nat /\ kTLo k = lo /\ kTHi k = hi
  /\ forall m rnd pos, uniform rnd -> exists t, pickTExp k m rnd pos = Some (false, t, (pos + 5)%nat).
Proof.
  intros L0 LH. set (p := [-1; 1; -1]). assert (goodParams p) as G by (split; [discriminate|repeat constructor; cbn; lra]).
  exists (Pk true 1 2 lo hi [(1, p)] 2 [] []). split; [apply two_ready; lra|]. split; [intros x y [<-|[]] [<-|[]]; reflexivity|]. split; [intros Q; cbn in Q; lia|]. split; [reflexivity|]. split; [reflexivity|]. split; [reflexivity|].
  intros m rnd pos U. unfold pickTExp. cbn [kInit negb kSlopes length Nat.eqb]. change (paramsFor m [(1, p)]) with (Some p). cbn [bnd kN]. change ((length p + 1) / 2 =? 2)%nat with true. cbn [negb Nat.eqb kTLo kTHi].
  rewrite !(bigF_ok 2 p _ eq_refl G). cbn [bnd attempts].
  assert (forall i, exists t, newton 50 2 p (prim p lo) (prim p hi) (rnd i) 0 = Some (false, t)) as H. { intros i. apply far_newton; [exact L0|exact LH|apply U|lra|]. rewrite INR_IZR_INZ. cbn. lra. }
  destruct (H pos) as (t1 & ->). cbn [bnd Nat.eqb]. destruct (H (S pos)) as (t2 & ->). cbn [bnd]. destruct (H (S (S pos))) as (t3 & ->). cbn [bnd]. destruct (H (S (S (S pos)))) as (t4 & ->). cbn [bnd].
  destruct (H (S (S (S (S pos))))) as (t5 & ->). cbn [bnd]. exists t5. f_equal. f_equal. lia.
Qed.
(* After an initialisation that failed, a second one with a correct setting succeeds but does not
   replace what the first one has stored. *)
Theorem C82_failed_init_refuted : exists c1 k1 c2 k2, initExp c1 newPk = Some (false, k1) /\ initExp c2 k1 = Some (true, k2) /\ describes c2 false [(1, [-8])] /\ kSlopes k2 = [(1, [-5])].
Proof.
  set (k1 := Pk false 1 2 0 1 [(1, [-5])] 1 [] []).
  exists (conf1 0 1 [(1, [-5]); (2, [3])] false), k1, (conf1 0 1 [(1, [-8])] false), (Pk true 1 2 0 1 [(1, [-5])] 1 [] []).
  split; [|split; [|split; [|reflexivity]]].
  - unfold initExp, initRanges, conf1. cbn [kInit newPk cMassMin cMassMax cTMin cTMax cMasses cSlopes isFloat andb negb lookup kTLo kTHi kSlopes kN kCoM kCoT].
    rewrite (rltb_false 2 1), (rltb_false 1 0) by lra. cbn. rewrite (rltb_true (-5) 0), (rltb_false 3 0) by lra. reflexivity.
  - unfold initExp, initRanges, conf1, k1. cbn [kInit newPk cMassMin cMassMax cTMin cTMax cMasses cSlopes isFloat andb negb lookup kTLo kTHi kSlopes kN kCoM kCoT].
    rewrite (rltb_false 2 1), (rltb_false 1 0) by lra. cbn. rewrite (rltb_true (-8) 0) by lra. cbn. rewrite (rltb_false 1 1) by lra. reflexivity.
  - split; [reflexivity|]. split; [reflexivity|]. split; [discriminate|]. split; [intros _; repeat constructor|discriminate].
Qed.
(* A slope written as an integer passes the test for a number and terminates the program. *)
Theorem C82_integer_slope_refuted : initExp (PConf (Some (EFloat 1)) (Some (EFloat 2)) None None (Some (EArray [EFloat 1])) (Some (EList [EInt (-5)])) None None) newPk = None.
Proof.
  unfold initExp, initRanges. cbn [kInit newPk cMassMin cMassMax cTMin cTMax cMasses cSlopes isFloat andb negb lookup kTLo kTHi kSlopes kN kCoM kCoT]. rewrite (rltb_false 2 1) by lra.
  rewrite (rltb_false dblMax 0); [reflexivity|]. unfold dblMax. apply Rmult_le_pos; [|apply pow_le; lra]. assert (/ 2 ^ 52 <= 1); [|lra]. rewrite <- Rinv_1. apply Rinv_le_contravar; [lra|]. apply pow_R1_Rle. lra.
Qed.
(* A setting without both mass limits, or for the uniform picker without both limits of t', written as
   floating-point numbers, is refused, and the picker stays as it is. *)
Theorem C82_missing_limits c k : (kInit k = false -> ~ (exists lo hi, cMassMin c = Some (EFloat lo) /\ cMassMax c = Some (EFloat hi)) ->
    initExp c k = Some (false, k) /\ initPoly c k = Some (false, k) /\ initUni c k = Some (false, k))
  /\ (~ (exists lo hi, cTMin c = Some (EFloat lo) /\ cTMax c = Some (EFloat hi)) -> initUni c k = Some (false, k)).
Proof.
  assert (forall a b, ~ (exists lo hi, a = Some (EFloat lo) /\ b = Some (EFloat hi)) -> isFloat a && isFloat b = false) as F.
  { intros a b N. destruct a as [[]|], b as [[]|]; try reflexivity. exfalso. apply N. eauto. }
  split.
  - intros K N. assert (initRanges c k = Some (false, k)) as IR by (unfold initRanges; rewrite K, (F _ _ N); reflexivity).
    unfold initExp, initPoly, initUni. rewrite IR. cbn [bnd negb]. split; [reflexivity|]. split; [reflexivity|]. destruct (isFloat (cTMin c) && isFloat (cTMax c)); reflexivity.
  - intros N. unfold initUni. now rewrite (F _ _ N).
Qed.
Example C82_missing_limits_case : exists c, ~ (exists lo hi, cMassMin c = Some (EFloat lo) /\ cMassMax c = Some (EFloat hi)) /\ cMassMin c <> None.
Proof. exists (PConf (Some (EFloat 1)) (Some (EInt 2)) None None None None None None). split; [|discriminate]. intros (lo & hi & _ & E). discriminate. Qed.
