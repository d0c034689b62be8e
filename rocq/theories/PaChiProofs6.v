(* Lemmas for C87, part 6: the loops over mass bins and bins, numbers of data points. *)
From Coq Require Import List Reals Bool Arith ZArith Lia Lra.
From Coquelicot Require Import Hierarchy Complex Derive.
From Verif Require Import PhysModel ChiModel ChiSpec ChiProofs ChiProofs2 ChiProofs3 ChiProofs4 ChiProofs5 PaChiModel PaChiSpec PaChiProofs PaChiProofs2 PaChiProofs3 PaChiProofs4 PaChiProofs5.
Import ListNotations.
Open Scope nat_scope.

Lemma prepareAmpMasses_ok invert uc n a lims ms : forall amp cov amp1 x, NoDup ms ->
  (forall m, In m ms -> prepareAmpMass invert uc n a lims (amp m) (cov m) m = Some (Some (amp1 m, x m))) ->
  exists amp' cov', prepareAmpMasses invert uc n a lims ms amp cov = Some (amp', cov', true) /\ forall m, In m ms -> amp' m = amp1 m /\ cov' m = x m.
Proof.
  assert (G : forall ms amp cov amp1 x, NoDup ms -> (forall m, In m ms -> prepareAmpMass invert uc n a lims (amp m) (cov m) m = Some (Some (amp1 m, x m))) ->
     exists amp' cov', prepareAmpMasses invert uc n a lims ms amp cov = Some (amp', cov', true) /\ (forall m, In m ms -> amp' m = amp1 m /\ cov' m = x m) /\
       forall m, ~ In m ms -> amp' m = amp m /\ cov' m = cov m).
  { clear ms. induction ms as [|m ms IH]; intros amp cov amp1 x Nd H; [exists amp, cov; cbn; tauto|]. apply NoDup_cons_iff in Nd. destruct Nd as [N1 N2].
    cbn [prepareAmpMasses]. rewrite (H m (or_introl eq_refl)).
    destruct (IH (fun k => if Nat.eqb k m then amp1 m else amp k) (fun k => if Nat.eqb k m then x m else cov k) amp1 x N2) as (amp' & cov' & E & I1 & I2).
    { intros m' Hm'. destruct (Nat.eqb_spec m' m); [subst; tauto|]. apply H. right; auto. }
    exists amp', cov'. split; auto. split.
    - intros m' [<-|Hm']; auto. destruct (I2 m N1) as [-> ->]. rewrite Nat.eqb_refl. auto.
    - intros m' Hn. destruct (I2 m') as [-> ->]; [intros Hc; apply Hn; right; auto|]. destruct (Nat.eqb_spec m' m); auto. subst. exfalso. apply Hn. left; auto. }
  intros amp cov amp1 x Nd H. destruct (G ms amp cov amp1 x Nd H) as (amp' & cov' & E & I1 & _). eauto.
Qed.
Lemma comps_out p size lims m : limsOk (paBin p) lims -> m < nrMassBins (paBin p) ->
  ~ In m (massRange (massMin size (nrWaves (paBin p)) lims) (massMax (nrWaves (paBin p)) lims)) -> comps p m = [].
Proof.
  intros L Hm Hn. unfold comps. replace (fittedWaves p m) with (@nil nat); [reflexivity|]. symmetry. unfold fittedWaves.
  destruct (filter _ _) as [|w l] eqn:E; auto. exfalso. assert (Hw : In w (filter (fitted (paBin p) m) (seq 0 (nrWaves (paBin p))))) by (rewrite E; left; reflexivity).
  apply filter_In in Hw. destruct Hw as [Hw F]. apply in_seq in Hw. apply Hn. destruct L as [_ L']. destruct (L' w ltac:(lia)) as (_ & _ & Q). apply (Q m Hm) in F.
  pose proof (massMin_le size (nrWaves (paBin p)) lims w ltac:(lia)). pose proof (massMax_ge (nrWaves (paBin p)) lims w ltac:(lia)). unfold massRange. apply in_seq. lia.
Qed.
Lemma chiAmpMasses_sum n a lims ms fit amp inv (q : nat -> R) :
  (forall m, In m ms -> fit m a <> (0%R, 0%R) /\ similarity (2 * n) (inv m) (diffVect n a lims m (fit m) (fit m a / RtoC (Cmod (fit m a)))%C (amp m)) = q m) ->
  forall c, chiAmpMasses n a lims ms fit amp inv c = Some (c + total (map q ms))%R.
Proof.
  induction ms as [|m ms IH]; intros H c; cbn [chiAmpMasses map]; [f_equal; unfold total; cbn; lra|].
  destruct (H m (or_introl eq_refl)) as [H1 H2]. rewrite (phase_ok _ H1), H2, IH by (intros; apply H; right; auto). rewrite total_cons. f_equal. lra.
Qed.
Section Bin.
Variables (invert : nat -> mat -> mat) (uc : covUse) (p : paIn) (lims : list (nat * nat)) (size : nat) (W : nat -> comp -> comp -> R) (fit : nat -> nat -> C).
Hypothesis Hinv : inverts invert.
Hypothesis L : limsOk (paBin p) lims.
Hypothesis G : amplitudesGiven p.
Let zz m w := zeroAmp (paAmp p m) (paCov p m) w || outside lims w w m.
Hypothesis HV : forall m, m < nrMassBins (paBin p) -> exists V,
  (forall c c', In c (comps p m) -> In c' (comps p m) -> redOf p lims m (pos (zz m) (paAnchor p) c) (pos (zz m) (paAnchor p) c') = V c c') /\
  (~ complexAmp p m (paAnchor p) -> (0 < Re (paAmp p m (paAnchor p)))%R) /\ inverseOn (comps p m) (masked uc V) (W m).
Hypothesis Hf : forall m, m < nrMassBins (paBin p) -> fit m (paAnchor p) <> (0%R, 0%R).
Let n := nrWaves (paBin p).
Let a := paAnchor p.
Let ms := massRange (massMin size n lims) (massMax n lims).
Lemma bin_chi : exists amp cov, prepareAmpMasses invert uc n a lims ms (paAmp p) (paCov p) = Some (amp, cov, true) /\
  forall c, chiAmpMasses n a lims ms fit amp cov c = Some (c + total (map (fun m => quadratic p m (W m) (fit m)) (seq 0 (nrMassBins (paBin p)))))%R.
Proof.
  destruct G as [Ga Gm].
  set (x := fun m => match prepareAmpMass invert uc n a lims (paAmp p m) (paCov p m) m with Some (Some y) => y | _ => (paAmp p m, zeroMat) end).
  assert (P : forall m, In m ms -> exists A' X, prepareAmpMass invert uc n a lims (paAmp p m) (paCov p m) m = Some (Some (A', X)) /\
     (forall w, w < n -> A' w = rotated a (paAmp p m) w) /\ forall c c', In c (comps p m) -> In c' (comps p m) -> X (ix c) (ix c') = W m c c').
  { intros m Hm. assert (Hmb : m < nrMassBins (paBin p)) by (apply (ms_in (paBin p) lims size L m); [exact Hm|unfold n in *; lia]).
    destruct (Gm m Hmb) as [G0 Gw]. destruct (HV m Hmb) as (V & CV & CR & IV).
    apply (mass_prepared p lims m L Hmb Ga G0 Gw invert uc Hinv V (W m)); auto.
    intros Hr. apply CR. apply (real_complex p lims m). exact Hr. }
  destruct (prepareAmpMasses_ok invert uc n a lims ms (paAmp p) (paCov p) (fun m => fst (x m)) (fun m => snd (x m))) as (amp & cov & E & Hc).
  - unfold ms, massRange. apply seq_NoDup.
  - intros m Hm. destruct (P m Hm) as (A' & X & EP & _). unfold x. rewrite EP. reflexivity.
  - exists amp, cov. split; auto. intros c.
    rewrite (chiAmpMasses_sum n a lims ms fit amp cov (fun m => quadratic p m (W m) (fit m))).
    + f_equal. f_equal. apply (total_window (fun m => quadratic p m (W m) (fit m)) (nrMassBins (paBin p))).
      * intros Hk. assert (massMax n lims < nrMassBins (paBin p)); [|lia]. apply massMax_lt; [unfold n; lia|]. intros w Hw. destruct L as [_ L']. apply (L' w Hw).
      * intros m Hm Hn. unfold quadratic. rewrite (comps_out p size lims m L Hm); [reflexivity|]. unfold massRange. rewrite in_seq. fold n. lia.
    + intros m Hm. assert (Hmb : m < nrMassBins (paBin p)) by (apply (ms_in (paBin p) lims size L m); [exact Hm|unfold n in *; lia]).
      split; [apply Hf; auto|]. destruct (P m Hm) as (A' & X & EP & PA & PX). destruct (Hc m Hm) as [H1 H2]. unfold x in H1, H2. rewrite EP in H1, H2. cbn [fst snd] in H1, H2.
      rewrite H1, H2. destruct (Gm m Hmb) as [G0 Gw]. apply (mass_value p lims m L Hmb Ga G0 Gw); auto; apply Hf; auto.
Qed.
End Bin.
Lemma weights_red uc p lims W : limsOk (paBin p) lims -> amplitudesGiven p -> anchorUsed p -> weights uc p W ->
  forall m, m < nrMassBins (paBin p) -> exists V,
  (forall c c', In c (comps p m) -> In c' (comps p m) ->
     redOf p lims m (pos (fun w => zeroAmp (paAmp p m) (paCov p m) w || outside lims w w m) (paAnchor p) c)
                    (pos (fun w => zeroAmp (paAmp p m) (paCov p m) w || outside lims w w m) (paAnchor p) c') = V c c') /\
  (~ complexAmp p m (paAnchor p) -> (0 < Re (paAmp p m (paAnchor p)))%R) /\ inverseOn (comps p m) (masked uc V) (W m).
Proof.
  intros L [Ga Gm] U HW m Hmb. destruct (Gm m Hmb) as [G0 Gw]. destruct (HW m Hmb) as (V & CV & IV). exists V. split; [|split; auto].
  - intros c c' Hc Hc'. apply (red_cov p lims m L Hmb Ga G0 Gw V c c'); auto. intros w Hw Hx F. exact (U m w Hmb Hx Hw F).
  - intros Hr. destruct CV as [(_ & H & _)|(H & _)]; [exact H|contradiction].
Qed.
Lemma prod_main invert uc size bins L : inverts invert -> List.Forall2 limsOk (map paBin bins) L -> forall Ws fits,
  (forall p, In p bins -> amplitudesGiven p /\ anchorUsed p) ->
  List.Forall2 (weights uc) bins Ws -> List.Forall2 (fun p (fit : nat -> nat -> C) => forall m, m < nrMassBins (paBin p) -> fit m (paAnchor p) <> (0%R, 0%R)) bins fits ->
  exists data, prepareAmps invert uc size (combine bins L) = Some data /\
    forall c, chiAmpBins size (combine bins L) data fits c = Some (c + chiProdOf bins Ws fits)%R.
Proof.
  intros Hinv. revert L. induction bins as [|p bins IH]; intros L F Ws fits Hg HW Hf.
  - exists []. split; [reflexivity|]. intros c. cbn. unfold chiProdOf. cbn. f_equal. unfold total; cbn. lra.
  - inversion F as [|b l bs ls Hl Hls]; subst. inversion HW as [|? W ? Ws' HW1 HW2]; subst. inversion Hf as [|? fit ? fits' Hf1 Hf2]; subst.
    destruct (Hg p (or_introl eq_refl)) as [Hg1 Hg2].
    destruct (bin_chi invert uc p l size W fit Hinv Hl Hg1 (weights_red uc p l W Hl Hg1 Hg2 HW1) Hf1) as (amp & cov & E & S1).
    destruct (IH ls Hls Ws' fits' (fun q Hq => Hg q (or_intror Hq)) HW2 Hf2) as (data & Ed & S2).
    exists ((amp, cov) :: data). cbn [combine prepareAmps]. rewrite E, Ed. split; [reflexivity|]. intros c. cbn [chiAmpBins]. rewrite S1, S2.
    f_equal. unfold chiProdOf. cbn [combine map]. rewrite total_cons. lra.
Qed.

(* ---- data points ---- *)
Lemma comps_length p m : length (comps p m) = list_sum (map (fun w => if fitted (paBin p) m w then if Nat.eqb w (paAnchor p) then 1 else 2 else 0) (seq 0 (nrWaves (paBin p)))).
Proof.
  unfold comps, fittedWaves. induction (seq 0 (nrWaves (paBin p))) as [|w l IH]; [reflexivity|]. cbn [filter map]. rewrite ls_cons, <- IH.
  destruct (fitted (paBin p) m w); [|reflexivity]. cbn [flat_map]. rewrite app_length. destruct (Nat.eqb w (paAnchor p)); reflexivity.
Qed.
Lemma prod_bin_points p lims : limsOk (paBin p) lims -> everyWaveFitted (paBin p) -> forall z,
  fold_left (fun pts w =>
     let q := pairLimits lims w w in
     let d := (Z.of_nat (snd q) - Z.of_nat (fst q) + 1)%Z in
     let pts := ((pts + d) mod 2 ^ 64)%Z in
     if Nat.eqb w (paAnchor p) then pts else ((pts + d) mod 2 ^ 64)%Z) (seq 0 (nrWaves (paBin p))) (z mod 2 ^ 64)%Z =
  ((z + Z.of_nat (list_sum (map (fun m => length (comps p m)) (seq 0 (nrMassBins (paBin p)))))) mod 2 ^ 64)%Z.
Proof.
  intros L Ev z. set (N := nrMassBins (paBin p)). set (cnt := fun w => length (filter (fun m => fitted (paBin p) m w) (seq 0 N))).
  set (g := fun w => if Nat.eqb w (paAnchor p) then cnt w else 2 * cnt w).
  transitivity ((z + Z.of_nat (list_sum (map g (seq 0 (nrWaves (paBin p)))))) mod 2 ^ 64)%Z.
  - rewrite <- pts_fold. assert (Gl : forall l z, (forall w, In w l -> w < nrWaves (paBin p)) -> 
      fold_left (fun pts w => let q := pairLimits lims w w in let d := (Z.of_nat (snd q) - Z.of_nat (fst q) + 1)%Z in
        let pts := ((pts + d) mod 2 ^ 64)%Z in if Nat.eqb w (paAnchor p) then pts else ((pts + d) mod 2 ^ 64)%Z) l z =
      fold_left (fun pts x => ((pts + Z.of_nat (g x)) mod 2 ^ 64)%Z) l z).
    { induction l as [|w l IH]; intros z0 Hl; [reflexivity|]. cbn [fold_left]. cbv zeta. rewrite <- IH by (intros; apply Hl; right; auto). f_equal.
      specialize (Hl w (or_introl eq_refl)). destruct L as [_ L']. destruct (L' w Hl) as (B1 & B2 & B3). destruct (Ev w Hl) as (m0 & Hm0 & F0). pose proof (proj2 (B3 m0 Hm0) F0).
      assert (E : (Z.of_nat (snd (pairLimits lims w w)) - Z.of_nat (fst (pairLimits lims w w)) + 1)%Z = Z.of_nat (cnt w)).
      { unfold cnt. rewrite (count_window _ N (fst (nth w lims (0, 0))) (snd (nth w lims (0, 0)))).
        - unfold pairLimits; cbn [fst snd]. lia.
        - unfold N. lia.
        - intros m Hm. apply (B3 m Hm). }
      rewrite E. unfold g. destruct (Nat.eqb w (paAnchor p)); [reflexivity|]. rewrite Zplus_mod_idemp_l. f_equal. lia. }
    apply Gl. intros w Hw. apply in_seq in Hw. lia.
  - f_equal. f_equal. f_equal. transitivity (list_sum (map (fun w => list_sum (map (fun m => if fitted (paBin p) m w then if Nat.eqb w (paAnchor p) then 1 else 2 else 0) (seq 0 N))) (seq 0 (nrWaves (paBin p))))).
    + apply ls_ext. intros w _. unfold g, cnt. destruct (Nat.eqb w (paAnchor p)).
      * symmetry. apply ls_count.
      * rewrite <- ls_count, <- ls_scal. apply ls_ext. intros m _. destruct (fitted (paBin p) m w); reflexivity.
    + rewrite (ls_swap (fun w m => if fitted (paBin p) m w then if Nat.eqb w (paAnchor p) then 1 else 2 else 0)). apply ls_ext. intros m _. symmetry. apply comps_length.
Qed.
