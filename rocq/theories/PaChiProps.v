(* C87: the fit of resonances to production amplitudes. *)
From Coq Require Import List Reals Bool Arith ZArith Lia Lra Sorted.
From Coquelicot Require Import Hierarchy Complex Derive.
From Verif Require Import PhysModel ChiModel ChiSpec ChiProofs ChiProofs2 ChiProofs3 ChiProofs4 ChiProofs5 PaChiModel PaChiSpec PaChiProofs PaChiProofs2 PaChiProofs3 PaChiProofs4 PaChiProofs5 PaChiProofs6.
Import ListNotations.
Open Scope R_scope.

(* the model has an anchor amplitude in every mass bin *)
Definition anchorNonzero (p : paIn) (fit : nat -> nat -> C) : Prop := forall m, (m < nrMassBins (paBin p))%nat -> fit m (paAnchor p) <> (0, 0).

(* chi-square: inverse of the used part of the covariance, propagated to the frame where the anchor wave is real *)
Theorem C87_chi_square : forall invert uc bins Ws fits, inverts invert ->
  (forall p, In p bins -> ordered (paBin p) /\ rangesMeet (paBin p) /\ amplitudesGiven p /\ anchorUsed p) ->
  List.Forall2 (weights uc) bins Ws -> List.Forall2 anchorNonzero bins fits ->
  chiSquareProd invert uc bins fits = Some (chiProdOf bins Ws fits).
Proof.
  intros invert uc bins Ws fits Hinv H HW Hf. unfold chiSquareProd.
  destruct (allLimits_ok (map paBin bins)) as (L & E & F).
  { intros b Hb. apply in_map_iff in Hb. destruct Hb as (p & <- & Hp). destruct (H p Hp) as (? & ? & _). auto. }
  rewrite E. destruct (prod_main invert uc (maxNrMassBins (map paBin bins)) bins L Hinv F Ws fits) as (data & Ed & S); auto.
  - intros p Hp. destruct (H p Hp) as (_ & _ & ? & ?). auto.
  - rewrite Ed, S. f_equal. lra.
Qed.

(* chi-square is not negative and vanishes exactly if data and model agree with the anchor wave made real and positive *)
Definition positiveOn (l : list comp) (W : comp -> comp -> R) : Prop :=
  forall f : comp -> R, 0 <= sumOver l (fun c => sumOver l (fun c' => f c * W c c' * f c')) /\
    (sumOver l (fun c => sumOver l (fun c' => f c * W c c' * f c')) = 0 -> forall c, In c l -> f c = 0).
Definition agreeProd (p : paIn) (fit : nat -> nat -> C) : Prop := forall m w, (m < nrMassBins (paBin p))%nat -> (w < nrWaves (paBin p))%nat ->
  fitted (paBin p) m w = true -> rotated (paAnchor p) (fit m) w = rotated (paAnchor p) (paAmp p m) w.
Lemma anchor_im a A : Im (rotated a A a) = 0.
Proof. unfold rotated. rewrite rot_im. unfold Rdiv. ring. Qed.
Lemma in_comps p m w e : In (w, e) (comps p m) <-> (w < nrWaves (paBin p))%nat /\ fitted (paBin p) m w = true /\ (e = 0 \/ (e = 1 /\ w <> paAnchor p))%nat.
Proof.
  unfold comps, fittedWaves. rewrite in_flat_map. split.
  - intros (v & Hv & Hc). apply filter_In in Hv. rewrite in_seq in Hv. apply (in_compsOf (paAnchor p)) in Hc. cbn [fst snd] in Hc. destruct Hc as [-> Hc]. intuition lia.
  - intros (H1 & H2 & H3). exists w. split; [apply filter_In; split; auto; apply in_seq; lia|]. apply (in_compsOf (paAnchor p)). cbn [fst snd]. tauto.
Qed.
Lemma quadratic_zero p m W fit : quadratic p m W fit = 0 -> positiveOn (comps p m) W -> forall w, (w < nrWaves (paBin p))%nat -> fitted (paBin p) m w = true ->
  rotated (paAnchor p) fit w = rotated (paAnchor p) (paAmp p m) w.
Proof.
  intros E P w Hw F. destruct (P (deviation p m fit)) as [_ Z]. unfold quadratic in E. specialize (Z E).
  assert (D0 : deviation p m fit (w, 0%nat) = 0) by (apply Z; apply in_comps; auto). unfold deviation in D0; cbn [fst snd part] in D0.
  set (x := rotated (paAnchor p) fit w) in *. set (y := rotated (paAnchor p) (paAmp p m) w) in *.
  assert (D1 : Im x = Im y).
  { destruct (Nat.eq_dec w (paAnchor p)) as [Ew|Hne].
    - unfold x, y. rewrite Ew, !anchor_im. reflexivity.
    - assert (D1 : deviation p m fit (w, 1%nat) = 0) by (apply Z; apply in_comps; auto). unfold deviation in D1; cbn [fst snd part] in D1. fold x y in D1.
      destruct x, y. cbn in *. lra. }
  destruct x as [x1 x2], y as [y1 y2]. cbn in *. f_equal; lra.
Qed.
Lemma deviation_agree p m fit c : In c (comps p m) -> rotated (paAnchor p) fit (fst c) = rotated (paAnchor p) (paAmp p m) (fst c) -> deviation p m fit c = 0.
Proof. intros _ E. unfold deviation. rewrite E. destruct (rotated _ (paAmp p m) _) as [x y]. unfold part. destruct (snd c); cbn; lra. Qed.
Lemma forall2_combine {A B C} (P : A -> B -> Prop) (Q : A -> C -> Prop) l r s : List.Forall2 P l r -> List.Forall2 Q l s ->
  forall x y z, In (x, (y, z)) (combine l (combine r s)) -> In x l /\ P x y /\ Q x z.
Proof.
  intros H. revert s. induction H as [|a b l r Hp H IH]; intros s Hq x y z Hin; [contradiction|]. inversion Hq as [|? c ? s' Q1 Q2]; subst. cbn [combine] in Hin.
  destruct Hin as [E|Hin]; [|destruct (IH _ Q2 _ _ _ Hin); split; [right; auto|auto]].
  assert (x = a) by congruence. assert (y = b) by congruence. assert (z = c) by congruence. subst. split; [left; reflexivity|auto].
Qed.
Theorem C87_zero_iff : forall invert uc bins Ws fits, inverts invert ->
  (forall p, In p bins -> ordered (paBin p) /\ rangesMeet (paBin p) /\ amplitudesGiven p /\ anchorUsed p) ->
  List.Forall2 (weights uc) bins Ws -> List.Forall2 anchorNonzero bins fits ->
  List.Forall2 (fun p W => forall m, (m < nrMassBins (paBin p))%nat -> positiveOn (comps p m) (W m)) bins Ws ->
  exists chi2, chiSquareProd invert uc bins fits = Some chi2 /\ 0 <= chi2 /\ (chi2 = 0 <-> List.Forall2 agreeProd bins fits).
Proof.
  intros invert uc bins Ws fits Hinv H HW Hf HP. exists (chiProdOf bins Ws fits). split; [apply C87_chi_square; auto|]. clear Hinv H.
  assert (G : 0 <= chiProdOf bins Ws fits /\ (chiProdOf bins Ws fits = 0 <-> List.Forall2 agreeProd bins fits)); [|exact G].
  revert Ws fits HW Hf HP. induction bins as [|p bins IH]; intros Ws fits HW Hf HP.
  - inversion Hf; subst. unfold chiProdOf. cbn. unfold total; cbn. split; [lra|]. split; [constructor|reflexivity].
  - inversion HW as [|? W ? Ws' HW1 HW2]; subst. inversion Hf as [|? fit ? fits' Hf1 Hf2]; subst. inversion HP as [|? ? ? ? HP1 HP2]; subst.
    destruct (IH Ws' fits' HW2 Hf2 HP2) as [I1 I2]. unfold chiProdOf. cbn [combine map]. rewrite total_cons. fold (chiProdOf bins Ws' fits').
    set (T := total (map (fun m => quadratic p m (W m) (fit m)) (seq 0 (nrMassBins (paBin p))))).
    assert (Q : forall x, In x (map (fun m => quadratic p m (W m) (fit m)) (seq 0 (nrMassBins (paBin p)))) -> 0 <= x).
    { intros x Hx. apply in_map_iff in Hx. destruct Hx as (m & <- & Hm). apply in_seq in Hm. apply (HP1 m ltac:(lia)). }
    assert (T0 : 0 <= T) by (apply total_nonneg; exact Q).
    split; [lra|]. split.
    + intros E. constructor; [|apply I2; lra]. intros m w Hm Hw F. apply (quadratic_zero p m (W m) (fit m)); auto.
      apply (total_zero_inv _ Q); [fold T; lra|]. apply in_map_iff. exists m. split; auto. apply in_seq. lia.
    + intros A. inversion A as [|? ? ? ? A1 A2]; subst. apply I2 in A2. rewrite A2. replace T with 0; [lra|]. symmetry. apply total_zero.
      intros x Hx. apply in_map_iff in Hx. destruct Hx as (m & <- & Hm). apply in_seq in Hm. unfold quadratic, sumOver. apply total_zero.
      intros x Hx. apply in_map_iff in Hx. destruct Hx as ([w e] & <- & Hc). apply total_zero. intros x Hx. apply in_map_iff in Hx. destruct Hx as ([w' e'] & <- & Hc').
      rewrite (deviation_agree p m (fit m) (w, e)); [ring|auto|]. apply in_comps in Hc. cbn [fst]. apply A1; [lia|tauto|tauto].
Qed.

(* a common phase of the model amplitudes of a mass bin does not matter *)
Definition rephased (u : nat -> C) (fit : nat -> nat -> C) : nat -> nat -> C := fun m w => (u m * fit m w)%C.
Lemma diffVect_ext n a lims m fit fit' ph ph' amp : (forall w, (fit w / ph = fit' w / ph')%C) -> diffVect n a lims m fit ph amp = diffVect n a lims m fit' ph' amp.
Proof.
  intros H. unfold diffVect. generalize (fun _ : nat => 0). induction (seq 0 n) as [|w l IH]; intros v; [reflexivity|]. cbn [fold_left].
  rewrite (H w). apply IH.
Qed.
Lemma rephased_masses n a lims ms fit u amp inv : (forall m, Cmod (u m) = 1) -> forall c,
  chiAmpMasses n a lims ms (rephased u fit) amp inv c = chiAmpMasses n a lims ms fit amp inv c.
Proof.
  intros Hu. induction ms as [|m ms IH]; intros c; [reflexivity|]. cbn [chiAmpMasses]. unfold phaseOf, rephased at 1 2 3.
  rewrite Cmod_mult, Hu, Rmult_1_l. destruct (reqb (Cmod (fit m a)) 0) eqn:E; [reflexivity|]. apply reqb_f in E.
  rewrite (diffVect_ext n a lims m (rephased u fit m) (fit m) (u m * fit m a / RtoC (Cmod (fit m a)))%C (fit m a / RtoC (Cmod (fit m a)))%C (amp m)).
  - apply IH.
  - intros w. unfold rephased. field.
    assert (Hz : fit m a <> RtoC 0) by (intros Z; apply E; rewrite Z; apply Cmod_0). assert (Hum : u m <> RtoC 0) by (intros Z; specialize (Hu m); rewrite Z, Cmod_0 in Hu; lra).
    assert (RtoC (Cmod (fit m a)) <> RtoC 0) by (intros Z; apply E; injection Z; auto).
    repeat split; auto.
Qed.
Theorem C87_model_phase : forall invert uc bins fits us, length us = length fits -> List.Forall (fun u : nat -> C => forall m, Cmod (u m) = 1) us ->
  chiSquareProd invert uc bins (map (fun x => rephased (fst x) (snd x)) (combine us fits)) = chiSquareProd invert uc bins fits.
Proof.
  intros invert uc bins fits us Hl Hu. unfold chiSquareProd. destruct (mapO _ _) as [L|]; [|reflexivity]. destruct (prepareAmps _ _ _ _) as [data|]; [|reflexivity].
  generalize (combine bins L) as bl. generalize (maxNrMassBins (map paBin bins)) as size. intros size bl. generalize 0. revert data fits us Hl Hu.
  induction bl as [|[p lims] bl IH]; intros data fits us Hl Hu c; [reflexivity|]. destruct data as [|[amp inv] data]; [reflexivity|].
  destruct us as [|u us], fits as [|fit fits]; try discriminate; [reflexivity|]. inversion Hu; subst. cbn [combine map chiAmpBins fst snd].
  rewrite rephased_masses by auto. destruct (chiAmpMasses _ _ _ _ fit _ _ _); [|reflexivity]. apply IH; auto.
Qed.

(* number of data points *)
Theorem C87_points : forall bins, (forall p, In p bins -> ordered (paBin p) /\ rangesMeet (paBin p) /\ everyWaveFitted (paBin p)) ->
  (Z.of_nat (dataPointsProd bins) < 2 ^ 64)%Z -> nrDataPointsProd bins = Some (Z.of_nat (dataPointsProd bins)).
Proof.
  intros bins H Hlt. unfold nrDataPointsProd. destruct (allLimits_ok (map paBin bins)) as (L & E & F).
  { intros b Hb. apply in_map_iff in Hb. destruct Hb as (p & <- & Hp). destruct (H p Hp) as (? & ? & _). auto. }
  rewrite E. f_equal. rewrite <- (Z.mod_small _ _ (conj (Nat2Z.is_nonneg _) Hlt)). clear E Hlt.
  revert L F. 
  assert (G : forall L, List.Forall2 limsOk (map paBin bins) L -> forall z, fold_left (fun pts x => let '(p, l) := x in fold_left (fun pts w =>
                let q := pairLimits l w w in
                let d := (Z.of_nat (snd q) - Z.of_nat (fst q) + 1)%Z in
                let pts := ((pts + d) mod 2 ^ 64)%Z in
                if Nat.eqb w (paAnchor p) then pts else ((pts + d) mod 2 ^ 64)%Z) (seq 0 (nrWaves (paBin p))) pts) (combine bins L) (z mod 2 ^ 64)%Z = ((z + Z.of_nat (dataPointsProd bins)) mod 2 ^ 64)%Z).
  { induction bins as [|p bins IH]; intros L F z.
    - cbn [combine fold_left]. change (Z.of_nat (dataPointsProd [])) with 0%Z. rewrite Z.add_0_r. reflexivity.
    - inversion F as [|b l bs ls Hl Hls]; subst. cbn [combine fold_left]. rewrite (prod_bin_points p l Hl) by (apply (H p (or_introl eq_refl))).
      rewrite (IH (fun q Hq => H q (or_intror Hq)) ls Hls). unfold dataPointsProd. cbn [map]. rewrite ls_cons. f_equal. lia. }
  intros L F. specialize (G L F 0%Z). rewrite Z.add_0_l in G. exact G.
Qed.
