(* C86: chi-square of the resonance fit to spin-density matrices. *)
From Coq Require Import List Reals Bool Arith ZArith Lia Lra Sorted.
From Coquelicot Require Import Complex.
From Verif Require Import PhysModel ChiModel ChiSpec ChiProofs ChiProofs2 ChiProofs3 ChiProofs4 ChiProofs5.
Import ListNotations.
Open Scope R_scope.

(* what the theorems require of the data of a bin *)
Definition usable (uc : covUse) (b : binIn) : Prop := ordered b /\ rangesMeet b /\ errorsGiven uc b.

(* the value computed is the sum over all bins, all mass bins and all elements of which both waves are fitted *)
Theorem C86_chi_square : forall invert uc bins amp, inverts invert -> uc <> UseFull -> (forall b, In b bins -> usable uc b) -> length amp = length bins ->
  chiSquareSDM invert uc bins amp = Some (chiOf uc bins amp).
Proof.
  intros invert uc bins amp Hinv Hu Hb Hl. unfold chiSquareSDM.
  destruct (allLimits_ok bins) as (L & E & F); [intros b H; destruct (Hb b H) as (? & ? & ?); auto|]. rewrite E.
  pose proof (chi_main invert uc (maxNrMassBins bins) bins L amp Hinv Hu F (fun b H => proj2 (proj2 (Hb b H))) Hl 0) as G. rewrite Rplus_0_l in G. rewrite G.
  destruct uc; [reflexivity|reflexivity|congruence].
Qed.

(* ---- examples ---- *)
Definition exBin : binIn := Bin [(-1, -1); (3 / 2, -1)] [1; 2] (fun _ _ _ => (0, 0)) (fun _ r c => if Nat.eqb r c then 2 else 0) 1.
Lemma exBin_nth w : nth_error (bLimits exBin) w = Some (-1, -1) -> w = 0%nat.
Proof. destruct w as [|[|[|w]]]; cbn; auto; try discriminate. intros H. injection H. lra. Qed.
Lemma exBin_usable uc : usable uc exBin /\ errorsPositive uc exBin.
Proof.
  assert (Hk : forall m k, varRe exBin m k = 2 /\ varIm exBin m k = 2 /\ covReIm exBin m k = 0 /\ covImRe exBin m k = 0).
  { intros m k. unfold varRe, varIm, covReIm, covImRe, exBin; cbn [bCovRead bRescale]. rewrite !Nat.eqb_refl.
    replace (Nat.eqb (2 * k) (2 * k + 1)) with false by (symmetry; apply Nat.eqb_neq; lia).
    replace (Nat.eqb (2 * k + 1) (2 * k)) with false by (symmetry; apply Nat.eqb_neq; lia). repeat split; lra. }
  split; [split; [|split]|].
  - unfold ordered, exBin; cbn. repeat constructor. lra.
  - intros lim Hlim. cbn in Hlim. destruct Hlim as [<-|[<-|[]]]; cbn [fst snd]; split.
    + exists 1. split; [left; auto|lra].
    + exists 1. split; [left; auto|lra].
    + exists 2. split; [right; left; auto|lra].
    + exists 1. split; [left; auto|lra].
  - intros m k i j Hm He _ _. destruct (Hk m k) as (-> & -> & -> & ->). destruct (Nat.eqb i j); [lra|]. destruct uc; [split| |]; lra.
  - intros m k i j Hm He _ _. destruct (Hk m k) as (-> & -> & -> & ->). split; [lra|]. intros _. split; [lra|]. intros _. split; lra.
Qed.
Example C86_chi_square_example : chiSquareSDM invertRef UseComplexDiagonal [exBin] [fun _ _ => (1, 0)] = Some (chiOf UseComplexDiagonal [exBin] [fun _ _ => (1, 0)]).
Proof. apply C86_chi_square; [apply invertRef_ok|discriminate| |reflexivity]. intros b [<-|[]]. apply exBin_usable. Qed.

(* never negative when the covariances are positive definite, and zero exactly when all fitted elements agree *)
Lemma chiOf_terms uc bins amp : uc <> UseFull -> (forall b, In b bins -> errorsPositive uc b) ->
  0 <= chiOf uc bins amp /\ (chiOf uc bins amp = 0 <-> agree bins amp).
Proof.
  intros Hu Hp.
  assert (T : forall b a m x, In (b, a) (combine bins amp) -> (m < nrMassBins b)%nat -> In x (combine (seq 0 (length (elements (nrWaves b)))) (elements (nrWaves b))) ->
    forall k i j, x = (k, (i, j)) -> fitted b m i = true -> fitted b m j = true ->
    0 <= element uc b m k i j (a m i * Cconj (a m j) - bRho b m i j)%C /\
    (element uc b m k i j (a m i * Cconj (a m j) - bRho b m i j)%C = 0 <-> (let d := (a m i * Cconj (a m j) - bRho b m i j)%C in Re d = 0 /\ (i <> j -> Im d = 0)))).
  { intros b a m x Hba Hm Hx k i j -> Fi Fj.
    assert (Hk : nth_error (elements (nrWaves b)) k = Some (i, j)).
    { assert (G : forall (l : list (nat * nat)) s, In (k, (i, j)) (combine (seq s (length l)) l) -> nth_error l (k - s) = Some (i, j) /\ (s <= k)%nat).
      { induction l as [|y l IH]; intros s H; [contradiction|]. cbn [length seq combine] in H. destruct H as [H|H].
        - assert (s = k) by congruence. assert (y = (i, j)) by congruence. subst. rewrite Nat.sub_diag. split; [reflexivity|lia].
        - destruct (IH (S s) H) as [I1 I2]. split; [|lia]. replace (k - s)%nat with (S (k - S s)) by lia. exact I1. }
      destruct (G _ _ Hx) as [G1 _]. rewrite Nat.sub_0_r in G1. exact G1. }
    destruct (Hp b (in_combine_l _ _ _ _ Hba) m k i j Hm Hk Fi Fj) as [P1 P2]. apply element_sign; auto. }
  assert (N1 : forall b a m, In (b, a) (combine bins amp) -> (m < nrMassBins b)%nat -> 0 <= chiOfMass uc b m (a m)).
  { intros b a m Hba Hm. unfold chiOfMass. apply total_nonneg. intros y Hy. apply in_map_iff in Hy. destruct Hy as ([k [i j]] & <- & Hx).
    destruct (fitted b m i) eqn:Fi; [|cbn; lra]. destruct (fitted b m j) eqn:Fj; [|cbn; lra]. cbn [andb]. eapply (T b a m _ Hba Hm Hx); eauto. }
  assert (N2 : forall b a, In (b, a) (combine bins amp) -> 0 <= total (map (fun m => chiOfMass uc b m (a m)) (seq 0 (nrMassBins b)))).
  { intros b a Hba. apply total_nonneg. intros y Hy. apply in_map_iff in Hy. destruct Hy as (m & <- & Hm). apply in_seq in Hm. apply N1; auto; lia. }
  assert (N3 : forall y, In y (map (fun x => let '(b, a) := x in total (map (fun m => chiOfMass uc b m (a m)) (seq 0 (nrMassBins b)))) (combine bins amp)) -> 0 <= y).
  { intros y Hy. apply in_map_iff in Hy. destruct Hy as ([b a] & <- & Hba). apply N2; auto. }
  split; [apply total_nonneg; auto|]. split.
  - intros E b a m i j Hba Hm Hij Fi Fj.
    assert (E1 : total (map (fun m => chiOfMass uc b m (a m)) (seq 0 (nrMassBins b))) = 0).
    { apply (total_zero_inv _ N3 E). apply in_map_iff. exists (b, a). auto. }
    assert (E2 : chiOfMass uc b m (a m) = 0).
    { refine (total_zero_inv _ _ E1 _ _); [intros y Hy; apply in_map_iff in Hy; destruct Hy as (m' & <- & Hm'); apply in_seq in Hm'; apply N1; auto; lia|]. apply in_map_iff. exists m. split; auto. apply in_seq. lia. }
    destruct (In_nth_error _ _ (proj2 (elements_in _ i j) Hij)) as [k Hk].
    assert (Hin : In (k, (i, j)) (combine (seq 0 (length (elements (nrWaves b)))) (elements (nrWaves b)))).
    { assert (G : forall (l : list (nat * nat)) s k, nth_error l k = Some (i, j) -> In ((s + k)%nat, (i, j)) (combine (seq s (length l)) l)).
      { clear. induction l as [|y l IH]; intros s [|k] H; try discriminate.
        - cbn in *. injection H as ->. left. f_equal. lia.
        - cbn [length seq combine]. right. replace (s + S k)%nat with (S s + k)%nat by lia. apply IH. exact H. }
      apply (G _ 0%nat k Hk). }
    apply (T b a m _ Hba Hm Hin k i j eq_refl Fi Fj).
    assert (E3 : (fun x : nat * (nat * nat) => let '(k, (i, j)) := x in if fitted b m i && fitted b m j then element uc b m k i j (a m i * Cconj (a m j) - bRho b m i j)%C else 0) (k, (i, j)) = 0).
    { unfold chiOfMass in E2. refine (total_zero_inv _ _ E2 _ _); [|apply in_map_iff; exists (k, (i, j)); split; [reflexivity|exact Hin]].
      intros y Hy. apply in_map_iff in Hy. destruct Hy as ([k' [i' j']] & <- & Hx).
      destruct (fitted b m i') eqn:Fi'; [|cbn; lra]. destruct (fitted b m j') eqn:Fj'; [|cbn; lra]. cbn [andb]. eapply (T b a m _ Hba Hm Hx); eauto. }
    cbn in E3. rewrite Fi, Fj in E3. exact E3.
  - intros Ag. unfold chiOf. apply total_zero. intros y Hy. apply in_map_iff in Hy. destruct Hy as ([b a] & <- & Hba).
    apply total_zero. intros y Hy. apply in_map_iff in Hy. destruct Hy as (m & <- & Hm). apply in_seq in Hm.
    apply total_zero. intros y Hy. apply in_map_iff in Hy. destruct Hy as ([k [i j]] & <- & Hx).
    destruct (fitted b m i) eqn:Fi; [|reflexivity]. destruct (fitted b m j) eqn:Fj; [|reflexivity]. cbn [andb].
    pose proof (proj1 (elements_in _ i j) (in_combine_r _ _ _ _ Hx)) as Hij.
    apply (T b a m _ Hba ltac:(lia) Hx k i j eq_refl Fi Fj). apply Ag; auto; lia.
Qed.
Theorem C86_zero_iff : forall invert uc bins amp, inverts invert -> uc <> UseFull -> (forall b, In b bins -> usable uc b /\ errorsPositive uc b) -> length amp = length bins ->
  exists chi2, chiSquareSDM invert uc bins amp = Some chi2 /\ 0 <= chi2 /\ (chi2 = 0 <-> agree bins amp).
Proof.
  intros invert uc bins amp Hinv Hu Hb Hl. exists (chiOf uc bins amp). split.
  - apply C86_chi_square; auto. intros b H. apply Hb; auto.
  - apply chiOf_terms; auto. intros b H. apply Hb; auto.
Qed.
Example C86_zero_iff_example : exists chi2, chiSquareSDM invertRef UseDiagonal [exBin] [fun _ _ => (0, 0)] = Some chi2 /\ chi2 = 0.
Proof.
  destruct (C86_zero_iff invertRef UseDiagonal [exBin] [fun _ _ => (0, 0)]) as (x & E & _ & Z); [apply invertRef_ok|discriminate| |reflexivity|].
  - intros b [<-|[]]. apply exBin_usable.
  - exists x. split; auto. apply Z. intros b a m i j [H|[]] _ _ _ _. injection H as <- <-. cbn. split; [lra|intros _; lra].
Qed.

(* a common phase of all amplitudes of a mass bin, of any bin, changes nothing *)
Theorem C86_phase : forall invert uc bins amp amp',
  List.Forall2 (fun a a' : nat -> nat -> C => forall m, exists u : C, (u * Cconj u)%C = ((1)%R, (0)%R) /\ forall w, a' m w = (u * a m w)%C) amp amp' ->
  chiSquareSDM invert uc bins amp' = chiSquareSDM invert uc bins amp.
Proof.
  intros invert uc bins amp amp' F. unfold chiSquareSDM. destruct (mapO _ bins) as [lims|]; [|reflexivity].
  assert (G : forall size bl invs c, chiBins uc size bl invs amp' c = chiBins uc size bl invs amp c).
  { clear - F. induction F as [|a a' amp amp' H F IH]; intros size bl invs c.
    - destruct bl as [|[b l] bl], invs; reflexivity.
    - destruct bl as [|[b l] bl], invs as [|inv invs]; try reflexivity. cbn [chiBins]. rewrite IH. f_equal.
      generalize (massRange (massMin size (nrWaves b) l) (massMax (nrWaves b) l)). intros ms. revert c.
      induction ms as [|m ms IHm]; intros c; [reflexivity|]. cbn [fold_left]. rewrite IHm. f_equal.
      rewrite !chiMass_sum. f_equal. apply total_map_ext. intros [i j] _. cbn [fst snd].
      destruct (H m) as (u & Hu & Hw). rewrite !Hw.
      replace (u * a m i * Cconj (u * a m j))%C with (a m i * Cconj (a m j))%C; [reflexivity|].
      transitivity ((u * Cconj u) * (a m i * Cconj (a m j)))%C.
      + rewrite Hu. unfold Cmult; cbn [fst snd]. destruct (a m i), (a m j). cbn [fst snd Cconj]. f_equal; ring.
      + destruct u, (a m i), (a m j). unfold Cmult, Cconj; cbn [fst snd]. f_equal; ring. }
  destruct uc; rewrite ?G; reflexivity.
Qed.
Example C86_phase_example : chiSquareSDM invertRef UseDiagonal [exBin] [fun _ _ => (0, 1)] = chiSquareSDM invertRef UseDiagonal [exBin] [fun _ _ => (1, 0)].
Proof.
  apply C86_phase. constructor; [|constructor]. intros m. exists (0, 1). split; [unfold Cmult, Cconj; cbn; f_equal; ring|]. intros w. unfold Cmult; cbn. f_equal; ring.
Qed.

(* rescaling of the covariances divides the chi-square *)
Lemma scaled_element uc b m k i j d s : s <> 0 ->
  (if Nat.eqb i j then varRe b m k <> 0 else match uc with UseDiagonal => varRe b m k <> 0 /\ varIm b m k <> 0 | _ => varRe b m k * varIm b m k - covReIm b m k * covImRe b m k <> 0 end) ->
  element uc (scaled s b) m k i j d = element uc b m k i j d / s.
Proof.
  intros Hs H. unfold element.
  assert (E1 : varRe (scaled s b) m k = varRe b m k * s) by (unfold varRe, scaled; cbn; ring). assert (E2 : varIm (scaled s b) m k = varIm b m k * s) by (unfold varIm, scaled; cbn; ring).
  assert (E3 : covReIm (scaled s b) m k = covReIm b m k * s) by (unfold covReIm, scaled; cbn; ring). assert (E4 : covImRe (scaled s b) m k = covImRe b m k * s) by (unfold covImRe, scaled; cbn; ring).
  rewrite E1, E2, E3, E4. destruct (Nat.eqb i j); [field; auto|]. destruct uc.
  - destruct H. field; auto.
  - replace (varRe b m k * s * (varIm b m k * s) - covReIm b m k * s * (covImRe b m k * s)) with ((varRe b m k * varIm b m k - covReIm b m k * covImRe b m k) * (s * s)) by ring. field; auto.
  - replace (varRe b m k * s * (varIm b m k * s) - covReIm b m k * s * (covImRe b m k * s)) with ((varRe b m k * varIm b m k - covReIm b m k * covImRe b m k) * (s * s)) by ring. field; auto.
Qed.
Lemma scaled_usable uc s b : s <> 0 -> usable uc b -> usable uc (scaled s b).
Proof.
  intros Hs (H1 & H2 & H3). split; [exact H1|]. split; [exact H2|]. intros m k i j Hm Hk Fi Fj. specialize (H3 m k i j Hm Hk Fi Fj).
  assert (E1 : varRe (scaled s b) m k = varRe b m k * s) by (unfold varRe, scaled; cbn; ring). assert (E2 : varIm (scaled s b) m k = varIm b m k * s) by (unfold varIm, scaled; cbn; ring).
  assert (E3 : covReIm (scaled s b) m k = covReIm b m k * s) by (unfold covReIm, scaled; cbn; ring). assert (E4 : covImRe (scaled s b) m k = covImRe b m k * s) by (unfold covImRe, scaled; cbn; ring).
  rewrite E1, E2, E3, E4. destruct (Nat.eqb i j); [apply Rmult_integral_contrapositive; auto|].
  assert (D : forall v w c d, v * w - c * d <> 0 -> v * s * (w * s) - c * s * (d * s) <> 0).
  { intros v w c d Hd E. assert (E' : (v * w - c * d) * (s * s) = 0) by (rewrite <- E; ring). apply Rmult_integral in E'. destruct E' as [E'|E']; [auto|].
    apply Rmult_integral in E'. tauto. }
  destruct uc; auto. destruct H3. split; apply Rmult_integral_contrapositive; auto.
Qed.
Lemma total_div s l : total (map (fun x => x / s) l) = total l / s.
Proof. induction l as [|x l IH]; [unfold total; cbn; unfold Rdiv; ring|]. cbn [map]. rewrite !total_cons, IH. unfold Rdiv; ring. Qed.
Theorem C86_rescale : forall invert uc bins amp s, inverts invert -> uc <> UseFull -> s <> 0 -> (forall b, In b bins -> usable uc b) -> length amp = length bins ->
  exists chi2, chiSquareSDM invert uc bins amp = Some chi2 /\ chiSquareSDM invert uc (map (scaled s) bins) amp = Some (chi2 / s).
Proof.
  intros invert uc bins amp s Hinv Hu Hs Hb Hl. exists (chiOf uc bins amp). split; [apply C86_chi_square; auto|].
  rewrite C86_chi_square; auto.
  - f_equal. unfold chiOf. rewrite <- total_div, map_map. clear Hinv. revert amp Hl. induction bins as [|b bins IH]; intros amp Hl; [reflexivity|].
    destruct amp as [|a amp]; [reflexivity|]. cbn [map combine]. rewrite !total_cons. f_equal.
    + rewrite <- total_div, map_map. apply total_map_ext. intros m Hm. apply in_seq in Hm. unfold chiOfMass. rewrite <- total_div, map_map.
      apply total_map_ext. intros [k [i j]] Hin.
      change (fitted (scaled s b) m) with (fitted b m). change (bRho (scaled s b)) with (bRho b).
      destruct (fitted b m i) eqn:Fi; [|cbn; unfold Rdiv; ring]. destruct (fitted b m j) eqn:Fj; [|cbn; unfold Rdiv; ring]. cbn [andb].
      apply scaled_element; auto. destruct (Hb b (or_introl eq_refl)) as (_ & _ & H3). apply (H3 m k i j); auto; [lia|].
      change (nrWaves (scaled s b)) with (nrWaves b) in Hin.
      assert (G : forall (l : list (nat * nat)) s, In (k, (i, j)) (combine (seq s (length l)) l) -> nth_error l (k - s) = Some (i, j) /\ (s <= k)%nat).
      { induction l as [|y l IHl]; intros s0 H; [contradiction|]. cbn [length seq combine] in H. destruct H as [H|H].
        - assert (s0 = k) by congruence. assert (y = (i, j)) by congruence. subst. rewrite Nat.sub_diag. split; [reflexivity|lia].
        - destruct (IHl (S s0) H) as [I1 I2]. split; [|lia]. replace (k - s0)%nat with (S (k - S s0)) by lia. exact I1. }
      destruct (G _ _ Hin) as [G1 _]. rewrite Nat.sub_0_r in G1. exact G1.
    + apply IH; [intros; apply Hb; right; auto|]. cbn in Hl. lia.
  - intros b H. apply in_map_iff in H. destruct H as (b0 & <- & H0). apply scaled_usable; auto.
  - rewrite map_length; auto.
Qed.
Example C86_rescale_example : exists chi2, chiSquareSDM invertRef UseDiagonal [exBin] [fun _ _ => (1, 0)] = Some chi2 /\
  chiSquareSDM invertRef UseDiagonal [scaled 4 exBin] [fun _ _ => (1, 0)] = Some (chi2 / 4).
Proof. apply (C86_rescale invertRef UseDiagonal [exBin]); [apply invertRef_ok|discriminate|lra| |reflexivity]. intros b [<-|[]]. apply exBin_usable. Qed.

(* a wave is used exactly in the mass bins inside its limits *)
Theorem C86_limits : forall size b, ordered b -> rangesMeet b -> (nrMassBins b <= size)%nat ->
  exists lims, massLimits size b = Some lims /\ length lims = nrWaves b /\
    forall w m, (w < nrWaves b)%nat -> (m < nrMassBins b)%nat ->
      ((fst (nth w lims (0, 0)) <= m <= snd (nth w lims (0, 0)))%nat <-> inRange (nth w (bLimits b) (0, 0)) (nth m (bCenters b) 0)).
Proof.
  intros size b Ho Hr Hs. destruct (massLimits_ok size b Ho Hr Hs) as (lims & E & L & H). exists lims. split; auto. split; auto.
  intros w m Hw Hm. destruct (H w Hw) as (_ & _ & A). rewrite (A m Hm). unfold fitted. apply inRangeB_iff.
Qed.
Example C86_limits_example : exists lims, massLimits 2 exBin = Some lims /\ length lims = 2%nat.
Proof. destruct (C86_limits 2 exBin) as (l & E & L & _); [apply (exBin_usable UseDiagonal)|apply (exBin_usable UseDiagonal)|cbn; lia|]. exists l; auto. Qed.

(* number of data points *)
Theorem C86_points : forall bins, (forall b, In b bins -> ordered b /\ rangesMeet b /\ rangesOverlap b) -> (Z.of_nat (dataPoints bins) < 2 ^ 64)%Z ->
  nrDataPointsSDM bins = Some (Z.of_nat (dataPoints bins)).
Proof.
  intros bins H Hlt. unfold nrDataPointsSDM. destruct (allLimits_ok bins) as (L & E & F); [intros b Hb; destruct (H b Hb) as (? & ? & ?); auto|]. rewrite E. f_equal.
  rewrite <- (Z.mod_small _ _ (conj (Nat2Z.is_nonneg _) Hlt)). clear E Hlt.
  assert (G : forall z, fold_left (fun pts x => let '(b, l) := x in fold_left (fun pts i => fold_left (fun pts j => let p := pairLimits l i j in
      ((pts + (Z.of_nat (snd p) - Z.of_nat (fst p) + 1)) mod 2 ^ 64)%Z) (seq 0 (nrWaves b)) pts) (seq 0 (nrWaves b)) pts) (combine bins L) (z mod 2 ^ 64)%Z = ((z + Z.of_nat (dataPoints bins)) mod 2 ^ 64)%Z).
  { induction F as [|b lims bins L Hb F IH]; intros z.
    - cbn [combine fold_left]. change (Z.of_nat (dataPoints [])) with 0%Z. rewrite Z.add_0_r. reflexivity.
    - cbn [combine fold_left]. rewrite (bin_points b lims Hb) by (apply (H b (or_introl eq_refl))).
      rewrite IH by (intros; apply H; right; auto). unfold dataPoints. cbn [map]. rewrite ls_cons. f_equal. lia. }
  specialize (G 0%Z). rewrite Z.add_0_l in G. exact G.
Qed.
Lemma fitted_ex m : (m < 2)%nat -> fitted exBin m 0 = true /\ fitted exBin m 1 = Nat.eqb m 1.
Proof.
  intros H. assert (m = 0%nat \/ m = 1%nat) as [-> | ->] by lia; unfold fitted, inRangeB, exBin; cbn [nth bLimits bCenters fst snd Nat.eqb];
  repeat (match goal with |- context [Rlt_dec ?x ?y] => destruct (Rlt_dec x y); try lra | |- context [Rle_dec ?x ?y] => destruct (Rle_dec x y); try lra end); cbn; auto.
Qed.
Example C86_points_example : nrDataPointsSDM [exBin] = Some 5%Z.
Proof.
  assert (D : dataPoints [exBin] = 5%nat).
  { unfold dataPoints. cbn [map nrMassBins nrWaves exBin bCenters bLimits length seq list_sum fold_right filter].
    destruct (fitted_ex 0 ltac:(lia)) as [E1 E2]. destruct (fitted_ex 1 ltac:(lia)) as [E3 E4]. fold exBin. rewrite E1, E2, E3, E4. reflexivity. }
  rewrite C86_points; rewrite ?D; auto; [|lia]. intros b [<-|[]]. destruct (exBin_usable UseDiagonal) as [(A1 & A2 & _) _]. split; auto. split; auto.
  intros i j Hi Hj. exists 1%nat. cbn in Hi, Hj. destruct (fitted_ex 1 ltac:(lia)) as [E3 E4]. cbn [Nat.eqb] in E4. split; [cbn; lia|].
  assert (i = 0 \/ i = 1)%nat as [-> | ->] by lia; assert (j = 0 \/ j = 1)%nat as [-> | ->] by lia; auto.
Qed.

(* ---- where the code departs ---- *)
Ltac decR := repeat (match goal with
  | |- context [Rlt_dec ?x ?y] => destruct (Rlt_dec x y); try lra
  | |- context [Rle_dec ?x ?y] => destruct (Rle_dec x y); try lra
  | |- context [Req_EM_T ?x ?y] => destruct (Req_EM_T x y); try lra end).
(* two waves fitted in ranges that are apart: the number of data points is too small *)
Theorem C86_points_refuted : exists b, ordered b /\ rangesMeet b /\ dataPoints [b] = 2%nat /\ nrDataPointsSDM [b] = Some 0%Z.
Proof.
  exists (Bin [(1, 1); (3, 3)] [1; 2; 3] (fun _ _ _ => (0, 0)) (fun _ _ _ => 1) 1). split; [|split; [|split]].
  - unfold ordered; cbn. repeat constructor; lra.
  - intros lim Hlim. cbn in Hlim. destruct Hlim as [<-|[<-|[]]]; cbn [fst snd]; split; first [exists 1; split; [cbn; auto|lra]|exists 3; split; [cbn; auto|lra]].
  - unfold dataPoints, fitted, inRangeB. cbn [map nrMassBins nrWaves bCenters bLimits length seq list_sum fold_right filter nth fst snd]. decR. cbn. reflexivity.
  - unfold nrDataPointsSDM, massLimits, waveLimits, maxNrMassBins, nrMassBins, nrWaves.
    cbn [mapO bLimits bCenters length fold_left Nat.max Nat.eqb seq combine limitStep fst snd Nat.sub]. unfold rltb, reqb. cbn [fst snd]. decR. cbn. reflexivity.
Qed.
(* a mass range below all mass bins: the wave is used in every mass bin *)
Theorem C86_below_refuted : forall invert, inverts invert -> exists b amp, ordered b /\ errorsGiven UseDiagonal b /\
  (forall m, (m < nrMassBins b)%nat -> ~ inRange (nth 0 (bLimits b) (0, 0)) (nth m (bCenters b) 0)) /\
  chiOf UseDiagonal [b] [amp] = 0 /\ chiSquareSDM invert UseDiagonal [b] [amp] = Some 1.
Proof.
  intros invert Hinv. exists (Bin [(1, 2)] [3] (fun _ _ _ => (0, 0)) (fun _ _ _ => 1) 1), (fun _ _ => (1, 0)).
  assert (Hf : forall m, (m < 1)%nat -> fitted (Bin [(1, 2)] [3] (fun _ _ _ => (0, 0)) (fun _ _ _ => 1) 1) m 0 = false).
  { intros m Hm. assert (m = 0%nat) by lia. subst. unfold fitted, inRangeB. cbn [nth bLimits bCenters fst snd]. decR; try reflexivity. }
  split; [|split; [|split; [|split]]].
  - unfold ordered; cbn. repeat constructor.
  - intros m k i j Hm Hk Fi. exfalso. cbn in Hm. apply nth_error_In, elements_in in Hk. cbn in Hk. assert (i = 0%nat) by lia. subst. rewrite Hf in Fi by auto. discriminate.
  - intros m Hm. rewrite <- inRangeB_iff. cbn in Hm. specialize (Hf m Hm). unfold fitted in Hf. rewrite Hf. discriminate.
  - unfold chiOf. cbn [combine map nrMassBins bCenters length seq]. rewrite !total1. unfold chiOfMass. cbn [elements nrWaves bLimits length seq flat_map map app combine Nat.sub].
    rewrite total1, Hf by lia. reflexivity.
  - unfold chiSquareSDM, massLimits, waveLimits, maxNrMassBins, nrMassBins.
    cbn [mapO bLimits bCenters length fold_left Nat.max Nat.eqb seq combine limitStep fst snd Nat.sub]. unfold rltb, reqb. cbn [fst snd]. decR. cbn [Nat.ltb Nat.leb andb].
    set (b := Bin [(1, 2)] [3] (fun _ _ _ => (0, 0)) (fun _ _ _ => 1) 1) in *. cbn [combine].
    assert (Z : zeroWave 1 (bRho b 0) (bCov b 0) 0 = false).
    { unfold zeroWave, bCov, b. cbn [seq forallb Nat.leb bCovRead bRescale]. unfold reqb at 3. decR; rewrite ?andb_false_r; try reflexivity. }
    set (Rd := reducedCov UseDiagonal 1 [] (bCov b 0)).
    assert (R0 : Rd 0%nat 0%nat = 1). { unfold Rd, reducedCov, bCov, b. cbn. unfold put. cbn. lra. }
    assert (I0 : invert 1%nat Rd 0%nat 0%nat = 1).
    { assert (Ns : nonsingular 1 Rd). { intros x Hx k Hk. assert (k = 0%nat) by lia. subst. specialize (Hx 0%nat ltac:(lia)). unfold sumTo in Hx. cbn [seq map] in Hx. rewrite total1, R0 in Hx. lra. }
      pose proof (Hinv 1%nat Rd Ns 0%nat 0%nat ltac:(lia) ltac:(lia)) as HI. unfold sumTo in HI. cbn [seq map Nat.eqb] in HI. rewrite total1, R0 in HI. lra. }
    set (X := expandCov 1 [] (invert 1%nat Rd)).
    assert (P : prepareMass invert UseDiagonal 1 [(0%nat, 0%nat)] (bRho b 0) (bCov b 0) 0 = Some X).
    { unfold prepareMass. cbn [seq existsb filter]. rewrite Z. reflexivity. }
    assert (PB : prepareBins invert UseDiagonal 1 [(b, [(0%nat, 0%nat)])] = [fun k => if Nat.eqb k 0 then X else bCov b k]).
    { cbn [prepareBins]. change (massRange (massMin 1 (nrWaves b) [(0%nat, 0%nat)]) (massMax (nrWaves b) [(0%nat, 0%nat)])) with [0%nat].
      change (nrWaves b) with 1%nat. cbn [prepareMasses]. rewrite P. reflexivity. }
    rewrite PB. cbn [chiBins]. change (massRange (massMin 1 (nrWaves b) [(0%nat, 0%nat)]) (massMax (nrWaves b) [(0%nat, 0%nat)])) with [0%nat].
    change (nrWaves b) with 1%nat. cbn [fold_left Nat.eqb].
    f_equal. rewrite chiMass_sum. cbn [elements seq flat_map map app Nat.sub fst snd].
    change (outside [(0%nat, 0%nat)] 0 0 0) with false. rewrite total1. unfold chiTerm. cbn [Nat.eqb]. rewrite covIdx_0.
    assert (X0 : X 0%nat 0%nat = 1). { unfold X, expandCov. cbn [pairs1 pairs2 Nat.eqb Nat.add app fold_left expandStep]. rewrite covIdx_0, put_same. exact I0. }
    rewrite X0. unfold Cmult, Cminus, Cplus, Copp, Cconj, b; cbn [fst snd bRho]. ring.
Qed.
(* a wave without data in a mass bin of its range: the covariances of the following mass bins are used as their inverses *)
Theorem C86_zero_wave_refuted : forall invert, exists b amp, ordered b /\ rangesMeet b /\
  chiOfMass UseDiagonal b 1 (amp 1%nat) = 1 / 2 /\ chiSquareSDM invert UseDiagonal [b] [amp] = Some 2.
Proof.
  intros invert. set (b := Bin [(-1, -1)] [1; 2] (fun _ _ _ => (0, 0)) (fun m _ _ => if Nat.eqb m 0 then 0 else 2) 1). exists b, (fun _ _ => (1, 0)).
  split; [|split; [|split]].
  - unfold ordered; cbn. repeat constructor; lra.
  - intros lim [<-|[]]. split; exists 1; split; [left; reflexivity|cbn; lra|left; reflexivity|cbn; lra].
  - unfold chiOfMass. cbn [elements nrWaves b bLimits length seq flat_map map app combine Nat.sub]. rewrite total1.
    assert (F : fitted b 1 0 = true) by (unfold fitted, inRangeB, b; cbn [nth bLimits bCenters fst snd]; decR; try reflexivity). fold b. rewrite F. cbn [andb].
    unfold element, varRe. cbn [Nat.eqb Nat.mul Nat.add b bCovRead bRescale bRho]. unfold Cmult, Cminus, Cplus, Copp, Cconj, Re; cbn [fst snd]. lra.
  - unfold chiSquareSDM, massLimits, waveLimits, maxNrMassBins, nrMassBins, b.
    cbn [mapO bLimits bCenters length fold_left Nat.max Nat.eqb seq combine limitStep fst snd Nat.sub]. unfold rltb, reqb. cbn [fst snd]. decR. cbn [Nat.ltb Nat.leb andb].
    fold b. cbn [combine].
    assert (Z : zeroWave 1 (bRho b 0) (bCov b 0) 0 = true).
    { unfold zeroWave, bCov, b. cbn [seq forallb Nat.leb bCovRead bRescale bRho fst snd Nat.eqb]. unfold reqb. rewrite !Rmult_0_l. decR; try reflexivity. }
    assert (P : prepareMass invert UseDiagonal 1 [(0%nat, 1%nat)] (bRho b 0) (bCov b 0) 0 = None).
    { unfold prepareMass. cbn [seq existsb filter]. rewrite Z. reflexivity. }
    assert (PB : prepareBins invert UseDiagonal 2 [(b, [(0%nat, 1%nat)])] = [bCov b]).
    { cbn [prepareBins]. change (massRange (massMin 2 (nrWaves b) [(0%nat, 1%nat)]) (massMax (nrWaves b) [(0%nat, 1%nat)])) with [0%nat; 1%nat].
      change (nrWaves b) with 1%nat. cbn [prepareMasses]. rewrite P. reflexivity. }
    rewrite PB. cbn [chiBins]. change (massRange (massMin 2 (nrWaves b) [(0%nat, 1%nat)]) (massMax (nrWaves b) [(0%nat, 1%nat)])) with [0%nat; 1%nat].
    change (nrWaves b) with 1%nat. cbn [fold_left].
    f_equal. rewrite !chiMass_sum. cbn [elements seq flat_map map app Nat.sub fst snd].
    change (outside [(0%nat, 1%nat)] 0 0 0) with false. change (outside [(0%nat, 1%nat)] 0 0 1) with false.
    rewrite !total1. unfold chiTerm. cbn [Nat.eqb]. rewrite covIdx_0. unfold bCov, b. cbn [bCovRead bRescale bRho Nat.eqb]. unfold Cmult, Cminus, Cplus, Copp, Cconj; cbn [fst snd]. ring.
Qed.
(* a mass range above all mass bins, of the bin with most mass bins, ends the process *)
Theorem C86_above_refuted : forall invert uc b amp lim, ordered b -> In lim (bLimits b) -> 0 <= fst lim -> (forall x, In x (bCenters b) -> x < fst lim) ->
  chiSquareSDM invert uc [b] amp = None.
Proof.
  intros invert uc b amp lim Ho Hlim H0 Hlt. unfold chiSquareSDM. cbn [mapO]. unfold massLimits, maxNrMassBins. cbn [fold_left Nat.max].
  assert (W : waveLimits (nrMassBins b) (bCenters b) lim = None).
  { unfold waveLimits. destruct (Nat.eqb_spec (length (bCenters b)) 0); [reflexivity|].
    pose proof (limits_fold lim (length (bCenters b) - 1) (bCenters b) (sorted_nth _ Ho)) as F.
    destruct (fold_left (limitStep lim) _ _) as [f l]. destruct F as (F1 & F2 & _). replace (rltb (fst lim) 0) with false.
    2: { unfold rltb. destruct (Rlt_dec (fst lim) 0); [lra|reflexivity]. }
    replace (Nat.ltb f (nrMassBins b)) with false; [reflexivity|]. symmetry. apply Nat.ltb_ge. unfold nrMassBins.
    destruct (le_lt_dec (length (bCenters b)) f) as [|L]; auto. exfalso.
    pose proof (proj1 (F2 f L) (Nat.le_refl f)). specialize (Hlt _ (nth_In _ 0 L)). lra. }
  assert (M : mapO (waveLimits (nrMassBins b) (bCenters b)) (bLimits b) = None).
  { induction (bLimits b) as [|x l IH]; [contradiction|]. cbn [mapO]. destruct Hlim as [->|Hlim]; [rewrite W; reflexivity|]. rewrite (IH Hlim). destruct (waveLimits _ _ x); reflexivity. }
  rewrite M. destruct uc; reflexivity.
Qed.
Example C86_above_example : chiSquareSDM invertRef UseDiagonal [Bin [(3, -1)] [1; 2] (fun _ _ _ => (0, 0)) (fun _ _ _ => 1) 1] [fun _ _ => (1, 0)] = None.
Proof.
  apply (C86_above_refuted invertRef UseDiagonal _ _ (3, -1)); [|left; reflexivity|cbn; lra|].
  - unfold ordered; cbn. repeat constructor; lra.
  - intros x [<-|[<-|[]]]; cbn; lra.
Qed.
