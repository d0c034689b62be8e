(* C87: an example, and where the code departs. *)
From Coq Require Import List Reals Bool Arith ZArith Lia Lra Sorted.
From Coquelicot Require Import Hierarchy Complex Derive.
From Verif Require Import PhysModel ChiModel ChiSpec ChiProofs ChiProofs2 ChiProofs3 ChiProofs4 ChiProofs5 PaChiModel PaChiSpec PaChiProofs PaChiProofs2 PaChiProofs3 PaChiProofs4 PaChiProofs5 PaChiProofs6 PaChiProps.
Import ListNotations.
Open Scope R_scope.

Ltac decR := repeat (match goal with
  | |- context [Rlt_dec ?x ?y] => destruct (Rlt_dec x y); try lra
  | |- context [Rle_dec ?x ?y] => destruct (Rle_dec x y); try lra
  | |- context [Req_EM_T ?x ?y] => destruct (Req_EM_T x y); try lra end).

(* ---- two waves, two mass bins, an imaginary anchor wave, covariance 1 ---- *)
Definition exAmp : nat -> nat -> C := fun _ w => if Nat.eqb w 0 then (0, 1) else (1, 0).
Definition exP (lims : list (R * R)) : paIn :=
  PaBin (Bin lims [1; 2] (fun _ _ _ => (0, 0)) (fun _ _ _ => 0) 1) 0 exAmp (fun _ r c => if Nat.eqb r c then 1 else 0).
Definition exAll : list (R * R) := [(-1, -1); (-1, -1)].
(* the anchor wave is fitted in the first mass bin only *)
Definition exFirst : list (R * R) := [(-1, 1); (-1, -1)].
Definition exJ (c k : comp) : R :=
  match c, k with
  | (O, O), (O, S O) => 1
  | (S O, O), (O, O) => 1
  | (S O, O), (S O, S O) => 1
  | (S O, S O), (S O, O) => -1
  | _, _ => 0
  end.
Definition exV (c c' : comp) : R := if Nat.eqb (fst c) (fst c') && Nat.eqb (snd c) (snd c') then if Nat.eqb (fst c) 1 && Nat.eqb (snd c) 0 then 2 else 1 else 0.
Definition exW (c c' : comp) : R := if Nat.eqb (fst c) (fst c') && Nat.eqb (snd c) (snd c') then if Nat.eqb (fst c) 1 && Nat.eqb (snd c) 0 then 1 / 2 else 1 else 0.
Definition ex3 : list comp := [(0, 0); (1, 0); (1, 1)]%nat.
Lemma exJ_ent c k : In c ex3 -> In k [(0, 0); (0, 1); (1, 0); (1, 1)]%nat -> jacEnt 0 (exAmp 0%nat) c k 0 = exJ c k.
Proof.
  assert (M : Cmod (0, 1) = 1) by (unfold Cmod; cbn [fst snd]; replace (0 ^ 2 + 1 ^ 2) with 1 by ring; apply sqrt_1).
  intros Hc Hk. destruct Hc as [<-|[<-|[<-|[]]]]; destruct Hk as [<-|[<-|[<-|[<-|[]]]]];
    unfold jacEnt, exAmp, exJ; cbn [fst snd Nat.eqb]; rewrite ?M; field.
Qed.
Lemma ex_comps lims m : length lims = 2%nat -> forall c, In c (comps (exP lims) m) -> In c ex3.
Proof.
  intros L [w e] Hc. apply in_comps in Hc. destruct Hc as (H1 & _ & H3). change (nrWaves (paBin (exP lims))) with (length lims) in H1. rewrite L in H1. change (paAnchor (exP lims)) with 0%nat in H3.
  destruct w as [|[|w]]; [|  |lia]; destruct H3 as [-> |[-> H3]]; cbn; auto; try congruence.
Qed.
Lemma ex_parts lims : length lims = 2%nat -> allParts (exP lims) = [(0, 0); (0, 1); (1, 0); (1, 1)]%nat.
Proof. intros L. unfold allParts. change (nrWaves (paBin (exP lims))) with (length lims). rewrite L. reflexivity. Qed.
Lemma exJ_ok lims m : length lims = 2%nat -> isJacobian (exP lims) m exJ.
Proof.
  intros L c k Hc Hk. pose proof (ex_comps lims m L c Hc) as Hc3. rewrite ex_parts in Hk by auto. rewrite <- exJ_ent by auto.
  apply jac_derive.
  - change (paAmp (exP lims) m (paAnchor (exP lims))) with (0, 1). intros E. injection E. lra.
  - cbn in Hk. destruct Hk as [<-|[<-|[<-|[<-|[]]]]]; cbn; auto.
  - cbn in Hc3. destruct Hc3 as [<-|[<-|[<-|[]]]]; cbn; auto.
Qed.
Lemma exV_ok lims m c c' : length lims = 2%nat -> In c ex3 -> In c' ex3 -> propagated (exP lims) m exJ c c' = exV c c'.
Proof.
  intros L Hc Hc'. unfold propagated, sumOver. rewrite (ex_parts lims L). unfold measured, exP; cbn [paCovRead paBin bRescale].
  destruct Hc as [<-|[<-|[<-|[]]]]; destruct Hc' as [<-|[<-|[<-|[]]]]; unfold exJ, exV; cbn [map fst snd Nat.eqb Nat.mul Nat.add andb]; rewrite !total_cons; unfold total; cbn [fold_right]; lra.
Qed.
Lemma total3 x y z : total [x; y; z] = x + (y + z). Proof. rewrite total_cons, total2. reflexivity. Qed.
Lemma exW_inv lims m l : length lims = 2%nat -> (l = ex3 \/ l = [(1, 0); (1, 1)]%nat) -> inverseOn l (masked UseFull (propagated (exP lims) m exJ)) exW.
Proof.
  intros L Hl. assert (Sub : forall c, In c l -> In c ex3) by (destruct Hl as [-> | ->]; cbn; tauto). intros c c' Hc Hc'. cbv zeta. cbn [masked].
  rewrite (sumOver_ext l _ (fun k => exV c k * exW k c')) by (intros k Hk; rewrite exV_ok by auto; reflexivity).
  rewrite (sumOver_ext l (fun k => exW c k * propagated (exP lims) m exJ k c') (fun k => exW c k * exV k c')) by (intros k Hk; rewrite exV_ok by auto; reflexivity).
  clear - Hl Hc Hc'. destruct Hl as [-> | ->].
  - destruct Hc as [<-|[<-|[<-|[]]]]; destruct Hc' as [<-|[<-|[<-|[]]]]; unfold sumOver, ex3, exV, exW; cbn [map fst snd Nat.eqb andb]; rewrite !total3; split; lra.
  - destruct Hc as [<-|[<-|[]]]; destruct Hc' as [<-|[<-|[]]]; unfold sumOver, exV, exW; cbn [map fst snd Nat.eqb andb]; rewrite !total2; split; lra.
Qed.
Lemma ex_fit_all m w : (m < 2)%nat -> (w < 2)%nat -> fitted (paBin (exP exAll)) m w = true.
Proof. intros Hm Hw. destruct w as [|[|w]]; [| |lia]; unfold fitted, inRangeB, exP, exAll; cbn [paBin nth bLimits bCenters fst snd]; decR; reflexivity. Qed.
Lemma ex_fit_first m w : (m < 2)%nat -> (w < 2)%nat -> fitted (paBin (exP exFirst)) m w = (Nat.eqb w 1 || Nat.eqb m 0).
Proof.
  intros Hm Hw. destruct m as [|[|m]]; [| |lia]; (destruct w as [|[|w]]; [| |lia]); unfold fitted, inRangeB, exP, exFirst; cbn [paBin nth bLimits bCenters fst snd Nat.eqb orb]; decR; reflexivity.
Qed.
Lemma ex_comps_all m : (m < 2)%nat -> comps (exP exAll) m = ex3.
Proof.
  intros Hm. unfold comps, fittedWaves. change (nrWaves (paBin (exP exAll))) with 2%nat. cbn [seq filter]. rewrite !ex_fit_all by lia. reflexivity.
Qed.
Lemma ex_comps_first m : (m < 2)%nat -> comps (exP exFirst) m = if Nat.eqb m 0 then ex3 else [(1, 0); (1, 1)]%nat.
Proof.
  intros Hm. unfold comps, fittedWaves. change (nrWaves (paBin (exP exFirst))) with 2%nat. cbn [seq filter]. rewrite !ex_fit_first by lia. cbn [Nat.eqb orb].
  destruct m as [|[|m]]; [| |lia]; reflexivity.
Qed.
Lemma ex_ordered lims : ordered (paBin (exP lims)).
Proof. unfold ordered; cbn. repeat constructor; lra. Qed.
Lemma ex_ranges_all : rangesMeet (paBin (exP exAll)).
Proof. intros lim [<-|[<-|[]]]; split; exists 1; cbn [fst snd]; (split; [left; reflexivity|lra]). Qed.
Lemma ex_ranges_first : rangesMeet (paBin (exP exFirst)).
Proof. intros lim [<-|[<-|[]]]; split; exists 1; cbn [fst snd]; (split; [left; reflexivity|lra]). Qed.
Lemma ex_given lims : length lims = 2%nat -> amplitudesGiven (exP lims).
Proof.
  intros L. split; [change (nrWaves (paBin (exP lims))) with (length lims); rewrite L; cbn; lia|]. intros m Hm. split.
  - change (paAmp (exP lims) m (paAnchor (exP lims))) with (0, 1). intros E. injection E. lra.
  - intros w Hw Hne. left. right. right. right. unfold measured, exP; cbn [paCovRead paBin bRescale fst snd]. rewrite Nat.eqb_refl. lra.
Qed.
Lemma ex_complex lims m : complexAmp (exP lims) m 0.
Proof. left. cbn. lra. Qed.
Lemma ex_weights_all : weights UseFull (exP exAll) (fun _ => exW).
Proof.
  intros m Hm. cbn in Hm. exists (propagated (exP exAll) m exJ). split.
  - right. split; [apply ex_complex|]. exists exJ. split; [apply exJ_ok; reflexivity|reflexivity].
  - rewrite ex_comps_all by lia. apply exW_inv; auto.
Qed.
Lemma ex_weights_first : weights UseFull (exP exFirst) (fun _ => exW).
Proof.
  intros m Hm. cbn in Hm. exists (propagated (exP exFirst) m exJ). split.
  - right. split; [apply ex_complex|]. exists exJ. split; [apply exJ_ok; reflexivity|reflexivity].
  - rewrite ex_comps_first by lia. apply exW_inv; auto. destruct (Nat.eqb m 0); auto.
Qed.
(* the model: as measured in the first mass bin; in the second the rotated wave 1 is larger by 1 *)
Definition exFit : nat -> nat -> C := fun m w => if Nat.eqb w 0 then (0, 1) else if Nat.eqb m 0 then (1, 0) else (1, 1).
Lemma ex_rot A : A 0%nat = (0, 1) -> forall w, rotated 0 A w = (snd (A w), - fst (A w)).
Proof.
  intros E w. unfold rotated. pose proof (rot_re (A w) (A 0%nat)) as H1. pose proof (rot_im (A w) (A 0%nat)) as H2. rewrite E in *. cbn [fst snd] in *.
  replace (0 ^ 2 + 1 ^ 2) with 1 in * by ring. rewrite sqrt_1 in *. destruct (A w / ((0, 1) / RtoC (Cmod (0, 1))))%C as [u v]. cbn in H1, H2. destruct (A w) as [x1 x2]. cbn [fst snd] in *. f_equal; lra.
Qed.
Lemma ex_dev lims m c : In c ex3 -> deviation (exP lims) m (exFit m) c = if Nat.eqb m 0 then 0 else if Nat.eqb (fst c) 1 && Nat.eqb (snd c) 0 then 1 else 0.
Proof.
  intros Hc. unfold deviation. change (paAnchor (exP lims)) with 0%nat. change (paAmp (exP lims) m) with (exAmp 0%nat).
  rewrite !(ex_rot) by reflexivity. destruct Hc as [<-|[<-|[<-|[]]]]; unfold exFit, exAmp; cbn [fst snd Nat.eqb andb part]; destruct (Nat.eqb m 0); cbn [fst snd Re Im Cminus Cplus Copp]; lra.
Qed.
Lemma ex_quadratic lims m l W : comps (exP lims) m = l -> (l = ex3 \/ l = [(1, 0); (1, 1)]%nat) -> W (1%nat, 0%nat) (1%nat, 0%nat) = 1 / 2 \/ W (1%nat, 0%nat) (1%nat, 0%nat) = 1 ->
  quadratic (exP lims) m W (exFit m) = if Nat.eqb m 0 then 0 else W (1%nat, 0%nat) (1%nat, 0%nat).
Proof.
  intros El Hl _. unfold quadratic. rewrite El. assert (Sub : forall c, In c l -> In c ex3) by (destruct Hl as [-> | ->]; cbn; tauto).
  set (d := fun c : comp => if Nat.eqb m 0 then 0 else if Nat.eqb (fst c) 1 && Nat.eqb (snd c) 0 then 1 else 0).
  rewrite (sumOver_ext l _ (fun c => sumOver l (fun c' => d c * W c c' * d c'))).
  2: { intros c Hc. apply sumOver_ext. intros c' Hc'. rewrite !ex_dev by auto. reflexivity. }
  destruct Hl as [E | E]; rewrite E; unfold sumOver, ex3, d; cbn [map fst snd Nat.eqb andb]; rewrite ?total3, ?total2; destruct (Nat.eqb m 0); ring.
Qed.
Lemma ex_anchor lims : anchorNonzero (exP lims) exFit.
Proof. intros m Hm. change (exFit m (paAnchor (exP lims))) with (0, 1). intros E. injection E. lra. Qed.
Lemma ex_chi lims l (W : nat -> comp -> comp -> R) : comps (exP lims) 1 = l -> (l = ex3 \/ l = [(1, 0); (1, 1)]%nat) -> comps (exP lims) 0 = ex3 ->
  (forall m, W m (1%nat, 0%nat) (1%nat, 0%nat) = 1 / 2 \/ W m (1%nat, 0%nat) (1%nat, 0%nat) = 1) ->
  chiProdOf [exP lims] [W] [exFit] = W 1%nat (1%nat, 0%nat) (1%nat, 0%nat).
Proof.
  intros El Hl E0 HW. unfold chiProdOf. cbn [combine map]. change (nrMassBins (paBin (exP lims))) with 2%nat. cbn [seq map]. rewrite total1, total2.
  rewrite (ex_quadratic lims 0 ex3) by auto. rewrite (ex_quadratic lims 1 l) by auto. cbn [Nat.eqb]. lra.
Qed.
Example C87_chi_square_example : chiSquareProd invertRef UseFull [exP exAll] [exFit] = Some (1 / 2).
Proof.
  rewrite (C87_chi_square invertRef UseFull [exP exAll] [fun _ => exW] [exFit]).
  - f_equal. rewrite (ex_chi exAll ex3 (fun _ => exW) (ex_comps_all 1 ltac:(lia)) (or_introl eq_refl) (ex_comps_all 0 ltac:(lia)) (fun _ => or_introl eq_refl)). reflexivity.
  - apply invertRef_ok.
  - intros p [<-|[]]. split; [apply ex_ordered|]. split; [apply ex_ranges_all|]. split; [apply ex_given; reflexivity|].
    intros m w Hm _ _ _. apply ex_fit_all; cbn in *; lia.
  - constructor; [apply ex_weights_all|constructor].
  - constructor; [apply ex_anchor|constructor].
Qed.
Lemma exW_pos : positiveOn ex3 exW.
Proof.
  intros f. assert (E : sumOver ex3 (fun c => sumOver ex3 (fun c' => f c * exW c c' * f c')) = f (0, 0)%nat * f (0, 0)%nat + (f (1, 0)%nat * f (1, 0)%nat / 2 + f (1, 1)%nat * f (1, 1)%nat)).
  { unfold sumOver, ex3, exW. cbn [map fst snd Nat.eqb andb]. rewrite !total3. field. }
  rewrite E. pose proof (Rle_0_sqr (f (0, 0)%nat)) as P1. pose proof (Rle_0_sqr (f (1, 0)%nat)) as P2. pose proof (Rle_0_sqr (f (1, 1)%nat)) as P3. unfold Rsqr in *.
  split; [lra|]. intros E0 c [<-|[<-|[<-|[]]]]; apply Rsqr_0_uniq; unfold Rsqr; lra.
Qed.
Example C87_zero_iff_example : exists chi2, chiSquareProd invertRef UseFull [exP exAll] [exAmp] = Some chi2 /\ chi2 = 0.
Proof.
  destruct (C87_zero_iff invertRef UseFull [exP exAll] [fun _ => exW] [exAmp]) as (chi2 & E & _ & Z).
  - apply invertRef_ok.
  - intros p [<-|[]]. split; [apply ex_ordered|]. split; [apply ex_ranges_all|]. split; [apply ex_given; reflexivity|].
    intros m w Hm _ _ _. apply ex_fit_all; cbn in *; lia.
  - constructor; [apply ex_weights_all|constructor].
  - constructor; [|constructor]. intros m Hm. change (exAmp m (paAnchor (exP exAll))) with (0, 1). intros Q. injection Q. lra.
  - constructor; [|constructor]. intros m Hm. cbn in Hm. rewrite ex_comps_all by lia. apply exW_pos.
  - exists chi2. split; auto. apply Z. constructor; [|constructor]. intros m w _ _ _. reflexivity.
Qed.
Example C87_model_phase_example : chiSquareProd invertRef UseFull [exP exAll] [rephased (fun _ => (0, 1)) exFit] = Some (1 / 2).
Proof.
  rewrite <- C87_chi_square_example. apply (C87_model_phase invertRef UseFull [exP exAll] [exFit] [fun _ => (0, 1)]); [reflexivity|].
  repeat constructor. intros _. unfold Cmod; cbn [fst snd]. replace (0 ^ 2 + 1 ^ 2) with 1 by ring. apply sqrt_1.
Qed.
Example C87_points_example : nrDataPointsProd [exP exFirst] = Some 5%Z.
Proof.
  assert (D : dataPointsProd [exP exFirst] = 5%nat).
  { unfold dataPointsProd. cbn [map]. change (nrMassBins (paBin (exP exFirst))) with 2%nat. cbn [seq map]. rewrite !ex_comps_first by lia. reflexivity. }
  rewrite C87_points; rewrite ?D; auto; [|lia]. intros p [<-|[]]. split; [apply ex_ordered|]. split; [apply ex_ranges_first|].
  intros w Hw. exists 0%nat. split; [cbn; lia|]. rewrite ex_fit_first by (cbn in *; lia). apply orb_true_r.
Qed.
