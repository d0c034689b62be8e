(* C87: where the code departs. *)
From Coq Require Import List Reals Bool Arith ZArith Lia Lra Sorted.
From Coquelicot Require Import Hierarchy Complex Derive.
From Verif Require Import PhysModel ChiModel ChiSpec ChiProofs ChiProofs2 ChiProofs3 ChiProofs4 ChiProofs5 PaChiModel PaChiSpec PaChiProofs PaChiProofs2 PaChiProofs3 PaChiProofs4 PaChiProofs5 PaChiProofs6 PaChiProps PaChiProps2.
Import ListNotations.
Open Scope R_scope.

Lemma single_limits p : ordered (paBin p) -> rangesMeet (paBin p) -> exists lims, mapO (massLimits (maxNrMassBins (map paBin [p]))) (map paBin [p]) = Some [lims] /\ limsOk (paBin p) lims.
Proof.
  intros Ho Hr. destruct (allLimits_ok (map paBin [p])) as (L & E & F); [intros b [<-|[]]; auto|]. cbn [map] in *. inversion F as [|? l ? ls H1 H2]; subst. inversion H2; subst. eauto.
Qed.
Lemma single_chi invert uc p fit lims amp cov T : mapO (massLimits (maxNrMassBins (map paBin [p]))) (map paBin [p]) = Some [lims] ->
  (let n := nrWaves (paBin p) in let ms := massRange (massMin (nrMassBins (paBin p)) n lims) (massMax n lims) in
   prepareAmpMasses invert uc n (paAnchor p) lims ms (paAmp p) (paCov p) = Some (amp, cov, true) /\ chiAmpMasses n (paAnchor p) lims ms fit amp cov 0 = T) ->
  chiSquareProd invert uc [p] [fit] = T.
Proof.
  cbv zeta. intros E [H1 H2]. unfold chiSquareProd. rewrite E. change (maxNrMassBins (map paBin [p])) with (nrMassBins (paBin p)). cbn [combine prepareAmps].
  rewrite H1. cbn [chiAmpBins]. rewrite H2. destruct T; reflexivity.
Qed.

(* a complex anchor wave outside of its fit range: the error of its phase is not propagated *)
Definition exWc (m : nat) (c c' : comp) : R := if Nat.eqb m 0 then exW c c' else if Nat.eqb (fst c) (fst c') && Nat.eqb (snd c) (snd c') then 1 else 0.
Theorem C87_anchor_range_refuted : forall invert, inverts invert -> exists p W fit, ordered (paBin p) /\ rangesMeet (paBin p) /\ amplitudesGiven p /\
  weights UseFull p W /\ anchorNonzero p fit /\ chiProdOf [p] [W] [fit] = 1 / 2 /\ chiSquareProd invert UseFull [p] [fit] = Some 1.
Proof.
  intros invert Hinv. exists (exP exFirst), (fun _ => exW), exFit. split; [apply ex_ordered|]. split; [apply ex_ranges_first|]. split; [apply ex_given; reflexivity|].
  split; [apply ex_weights_first|]. split; [apply ex_anchor|]. 
  assert (E1 : comps (exP exFirst) 1 = [(1, 0); (1, 1)]%nat) by (rewrite ex_comps_first by lia; reflexivity).
  assert (E0 : comps (exP exFirst) 0 = ex3) by (rewrite ex_comps_first by lia; reflexivity).
  split; [rewrite (ex_chi exFirst _ (fun _ => exW) E1 (or_intror eq_refl) E0 (fun _ => or_introl eq_refl)); reflexivity|].
  destruct (single_limits (exP exFirst) (ex_ordered _) ex_ranges_first) as (lims & El & L).
  pose proof (ex_given exFirst eq_refl) as G.
  destruct (bin_chi invert UseFull (exP exFirst) lims (nrMassBins (paBin (exP exFirst))) exWc exFit Hinv L G) as (amp & cov & P1 & P2); [|apply ex_anchor|].
  - intros m Hm. destruct G as [Ga Gm]. destruct (Gm m Hm) as [G0 Gw]. exists (propFit (exP exFirst) lims m). split; [|split].
    + intros c c' Hc Hc'. apply (red_complex (exP exFirst) lims m L Hm Ga G0 Gw); auto.
      destruct (realAmp (paAmp (exP exFirst) m) (paCov (exP exFirst) m) (paAnchor (exP exFirst))) eqn:Er; auto.
      exfalso. apply (proj1 (real_complex (exP exFirst) lims m (paAnchor (exP exFirst))) Er). apply ex_complex.
    + intros H. exfalso. apply H, ex_complex.
    + assert (Hm2 : (m < 2)%nat) by exact Hm.
      assert (EV : forall c c', In c (comps (exP exFirst) m) -> In c' (comps (exP exFirst) m) -> propFit (exP exFirst) lims m c c' =
         if Nat.eqb m 0 then exV c c' else if Nat.eqb (fst c) (fst c') && Nat.eqb (snd c) (snd c') then 1 else 0).
      { intros c c' Hc Hc'. destruct (Nat.eqb_spec m 0) as [->|Hm0].
        - rewrite <- (exV_ok exFirst 0) by (auto; rewrite E0 in Hc, Hc'; auto). symmetry.
          apply (prop_fit (exP exFirst) lims 0 L Hm Ga G0 Gw); auto; [apply exJ_ok; reflexivity|]. intros w Hw _. apply ex_fit_first; cbn; lia.
        - assert (m = 1%nat) by lia. subst m. rewrite E1 in Hc, Hc'. unfold propFit. rewrite (kept_fitted (exP exFirst) lims 1 L Hm Ga G0 Gw).
          assert (EF : fittedWaves (exP exFirst) 1 = [1%nat]) by (unfold fittedWaves; change (nrWaves (paBin (exP exFirst))) with 2%nat; cbn [seq filter]; rewrite !ex_fit_first by lia; reflexivity).
          rewrite EF. cbn [flat_map partsOf app]. change (paAmp (exP exFirst) 1) with (exAmp 0). change (paAnchor (exP exFirst)) with 0%nat.
          assert (S3 : forall c, In c [(1, 0); (1, 1)]%nat -> In c ex3) by (cbn; tauto). assert (S4 : forall c, In c [(1, 0); (1, 1)]%nat -> In c [(0, 0); (0, 1); (1, 0); (1, 1)]%nat) by (cbn; tauto).
          cbv zeta. rewrite (sumOver_ext _ _ (fun k => sumOver [(1, 0); (1, 1)]%nat (fun l => exJ c k * measured (exP exFirst) 1 k l * exJ c' l))).
          2: { intros k Hk. apply sumOver_ext. intros l Hl. rewrite !exJ_ent by auto. reflexivity. }
          unfold sumOver. unfold measured, exP; cbn [paCovRead paBin bRescale].
          destruct Hc as [<-|[<-|[]]]; destruct Hc' as [<-|[<-|[]]]; unfold exJ; cbn [map fst snd Nat.eqb Nat.mul Nat.add andb]; rewrite !total2; lra. }
      intros c c' Hc Hc'. cbv zeta. cbn [masked].
      set (g := fun c c' : comp => if Nat.eqb m 0 then exV c c' else if Nat.eqb (fst c) (fst c') && Nat.eqb (snd c) (snd c') then 1 else 0) in *.
      rewrite (sumOver_ext _ _ (fun k => g c k * exWc m k c')) by (intros k Hk; rewrite EV by auto; reflexivity).
      rewrite (sumOver_ext _ (fun k => exWc m c k * propFit (exP exFirst) lims m k c') (fun k => exWc m c k * g k c')) by (intros k Hk; rewrite EV by auto; reflexivity).
      clear EV. unfold g, exWc. destruct (Nat.eqb_spec m 0) as [->|Hm0].
      * rewrite E0 in *. destruct Hc as [<-|[<-|[<-|[]]]]; destruct Hc' as [<-|[<-|[<-|[]]]]; unfold sumOver, ex3, exV, exW; cbn [map fst snd Nat.eqb andb]; rewrite !total3; split; lra.
      * assert (m = 1%nat) by lia. subst m. rewrite E1 in *. destruct Hc as [<-|[<-|[]]]; destruct Hc' as [<-|[<-|[]]]; unfold sumOver; cbn [map fst snd Nat.eqb andb]; rewrite !total2; split; lra.
  - apply (single_chi invert UseFull (exP exFirst) exFit lims amp cov _ El). split; [exact P1|]. rewrite P2. f_equal.
    rewrite Rplus_0_l. pose proof (ex_chi exFirst _ exWc E1 (or_intror eq_refl) E0) as X. unfold chiProdOf in X. cbn [combine map] in X. rewrite total1 in X.
    rewrite X; [reflexivity|]. intros m. unfold exWc. destruct (Nat.eqb m 0); [left|right]; reflexivity.
Qed.

(* the model has no anchor amplitude in a mass bin with a fitted wave: chi-square is not a number *)
Theorem C87_model_anchor_zero_refuted : forall invert uc p W fit m w, inverts invert -> ordered (paBin p) -> rangesMeet (paBin p) -> amplitudesGiven p -> anchorUsed p ->
  weights uc p W -> (m < nrMassBins (paBin p))%nat -> (w < nrWaves (paBin p))%nat -> fitted (paBin p) m w = true -> fit m (paAnchor p) = (0, 0) ->
  chiSquareProd invert uc [p] [fit] = None.
Proof.
  intros invert uc p W fit m w Hinv Ho Hr G U HW Hm Hw F Hz. destruct (single_limits p Ho Hr) as (lims & El & L).
  destruct (bin_chi invert uc p lims (nrMassBins (paBin p)) W (fun _ _ => (1, 0)) Hinv L G (weights_red uc p lims W L G U HW)) as (amp & cov & P1 & _).
  { intros m' _ E. injection E. lra. }
  apply (single_chi invert uc p fit lims amp cov None El). split; [exact P1|].
  set (ms := massRange _ _). assert (Hin : In m ms).
  { destruct (in_dec Nat.eq_dec m ms) as [|Hn]; auto. exfalso. pose proof (comps_out p _ lims m L Hm Hn) as E.
    assert (In (w, 0%nat) (comps p m)) by (apply in_comps; auto). rewrite E in H. contradiction. }
  assert (Q : forall c, chiAmpMasses (nrWaves (paBin p)) (paAnchor p) lims ms fit amp cov c = None); [|apply Q].
  clear P1. induction ms as [|m' ms IH]; [contradiction|]. intros c. cbn [chiAmpMasses]. destruct Hin as [->|Hin].
  - rewrite Hz. unfold phaseOf. change (0, 0) with (RtoC 0). rewrite Cmod_0. unfold reqb. destruct (Req_EM_T 0 0); [reflexivity|contradiction].
  - destruct (phaseOf (fit m' (paAnchor p))); [|reflexivity]. apply IH. auto.
Qed.
Example C87_model_anchor_zero_example : chiSquareProd invertRef UseFull [exP exAll] [fun m _ => if Nat.eqb m 0 then (1, 0) else (0, 0)] = None.
Proof.
  apply (C87_model_anchor_zero_refuted invertRef UseFull (exP exAll) (fun _ => exW) _ 1 0).
  - apply invertRef_ok.
  - apply ex_ordered.
  - apply ex_ranges_all.
  - apply ex_given; reflexivity.
  - intros m w Hm _ _ _. apply ex_fit_all; cbn in *; lia.
  - apply ex_weights_all.
  - cbn; lia.
  - cbn; lia.
  - apply ex_fit_all; lia.
  - reflexivity.
Qed.

(* one mass bin, no limits *)
Definition onePa (k : nat) (amp : nat -> C) (cov : mat) : paIn :=
  PaBin (Bin (repeat (-1, -1) k) [1] (fun _ _ _ => (0, 0)) (fun _ _ _ => 0) 1) 0 (fun _ => amp) (fun _ => cov).
Lemma one_limits k amp cov : mapO (massLimits (maxNrMassBins (map paBin [onePa k amp cov]))) (map paBin [onePa k amp cov]) = Some [repeat (0, 0)%nat k].
Proof.
  cbn [map mapO]. change (maxNrMassBins [paBin (onePa k amp cov)]) with 1%nat. unfold massLimits. cbn [paBin onePa bCenters bLimits].
  assert (W : waveLimits 1 [1] (-1, -1) = Some (0, 0)%nat).
  { unfold waveLimits. cbn [length Nat.eqb seq combine fold_left limitStep fst snd Nat.sub]. unfold rltb, reqb. decR. cbn. reflexivity. }
  assert (M : mapO (waveLimits 1 [1]) (repeat (-1, -1) k) = Some (repeat (0, 0)%nat k)); [|rewrite M; reflexivity].
  induction k as [|k IH]; [reflexivity|]. cbn [repeat mapO]. rewrite W, IH. reflexivity.
Qed.
Lemma one_inv invert red : inverts invert -> red 0%nat 0%nat = 1 -> invert 1%nat red 0%nat 0%nat = 1.
Proof.
  intros Hinv R0. assert (Ns : nonsingular 1 red).
  { intros x Hx k Hk. assert (k = 0%nat) by lia. subst. specialize (Hx 0%nat ltac:(lia)). unfold sumTo in Hx. cbn [seq map] in Hx. rewrite total1, R0 in Hx. lra. }
  pose proof (Hinv 1%nat red Ns 0%nat 0%nat ltac:(lia) ltac:(lia)) as HI. unfold sumTo in HI. cbn [seq map Nat.eqb] in HI. rewrite total1, R0 in HI. lra.
Qed.
Lemma neg_phase : phaseOf (-2, 0) = Some (-1, 0).
Proof.
  unfold phaseOf. assert (M : Cmod (-2, 0) = 2) by (unfold Cmod; cbn [fst snd]; replace ((-2) ^ 2 + 0 ^ 2) with (2 * 2) by ring; apply sqrt_square; lra).
  rewrite M. unfold reqb. destruct (Req_EM_T 2 0); [lra|]. f_equal. unfold Cdiv, Cinv, RtoC, Cmult; cbn [fst snd]. f_equal; field.
Qed.
(* a real anchor amplitude that is negative: data and model are the same, chi-square is 16 standard deviations squared *)
Theorem C87_negative_anchor_refuted : forall invert uc, inverts invert -> exists p fit, ordered (paBin p) /\ rangesMeet (paBin p) /\ amplitudesGiven p /\
  fit = paAmp p /\ measured p 0 (0, 0)%nat (0, 0)%nat = 1 /\ chiSquareProd invert uc [p] [fit] = Some 16.
Proof.
  intros invert uc Hinv. set (amp := fun _ : nat => ((-2, 0) : C)). set (cv := fun r c : nat => if Nat.eqb r 0 && Nat.eqb c 0 then 1 else 0).
  set (p := onePa 1 amp cv). exists p, (paAmp p).
  split; [unfold ordered; cbn; repeat constructor|]. split; [intros lim [<-|[]]; split; exists 1; cbn [fst snd]; (split; [left; reflexivity|lra])|].
  split. { split; [cbn; lia|]. intros m _. split; [intros E; injection E; lra|]. intros w Hw Hne. cbn in Hw, Hne. lia. }
  split; [reflexivity|]. split; [unfold measured, p, onePa, cv; cbn; lra|].
  set (red := loops (realStep 0 false (paCov p 0)) [(0, 0)%nat] zeroMat).
  assert (R0 : red 0%nat 0%nat = 1) by (unfold red, paCov, p, onePa, cv; cbn; unfold put; cbn; lra).
  set (red1 := match uc with UseFull => red | _ => loops (maskStep 0 false uc) [(0, 0)%nat] red end).
  assert (R1 : red1 0%nat 0%nat = 1) by (unfold red1; destruct uc; exact R0).
  set (X := loops (backStep 0 false (invert 1%nat red1)) [(0, 0)%nat] zeroMat).
  assert (X0 : X 0%nat 0%nat = 1) by (unfold X; cbn; unfold put; cbn; apply one_inv; auto).
  apply (single_chi invert uc p _ [(0, 0)%nat] (fun k => if Nat.eqb k 0 then amp else amp) (fun k => if Nat.eqb k 0 then X else paCov p k) _ (one_limits 1 amp cv)).
  cbv zeta. change (nrWaves (paBin p)) with 1%nat. change (nrMassBins (paBin p)) with 1%nat. change (paAnchor p) with 0%nat.
  change (massRange (massMin 1 1 [(0, 0)%nat]) (massMax 1 [(0, 0)%nat])) with [0%nat].
  assert (Z : zeroAmp amp (paCov p 0) 0 = false).
  { unfold zeroAmp, amp. cbn [fst snd]. unfold reqb at 1. destruct (Req_EM_T (-2) 0); [lra|reflexivity]. }
  assert (Rl : realAmp amp (paCov p 0) 0 = true).
  { unfold realAmp, amp, paCov, p, onePa, cv. cbn. unfold reqb. decR; reflexivity. }
  split.
  - cbn [prepareAmpMasses]. change (paAmp p 0) with amp. unfold prepareAmpMass.
    assert (B : badMass 1 0 [(0, 0)%nat] amp (paCov p 0) 0 = false) by (unfold badMass; cbn [seq existsb]; rewrite Z; reflexivity).
    rewrite B. cbn [seq filter]. rewrite Z. cbn [orb]. change (outside [(0, 0)%nat] 0 0 0) with false. cbn [existsb length rows Nat.mul Nat.sub Nat.add]. rewrite Rl. reflexivity.
  - cbn [chiAmpMasses]. change (paAmp p 0 0%nat) with (-2, 0). rewrite neg_phase. f_equal.
    unfold similarity, sumN, diffVect. cbn [seq fold_left Nat.mul Nat.add Nat.eqb]. change (outside [(0, 0)%nat] 0 0 0) with false. cbn [Nat.eqb Nat.mul Nat.add].
    rewrite X0. change (paAmp p 0 0%nat) with (-2, 0). unfold amp. 
    assert (D : fst (Cminus (Cdiv (-2, 0) (-1, 0)) (-2, 0)) = 4) by (unfold Cdiv, Cinv, Cmult, Cminus, Cplus, Copp; cbn [fst snd]; field).
    rewrite D. ring.
Qed.
(* a real-valued wave besides the anchor wave: reading stops with false, which is not looked at, and the covariance
   matrix is used instead of its inverse *)
Theorem C87_real_wave_refuted : exists p fit, ordered (paBin p) /\ rangesMeet (paBin p) /\ ~ complexAmp p 0 1 /\
  (forall r c, paCovRead p 0%nat r c = if Nat.eqb r c && negb (Nat.eqb r 3) then 4 else 0) /\
  (rotated 0 (fit 0%nat) 0 = (2, 0) /\ paAmp p 0%nat 0%nat = (1, 0) /\ rotated 0 (fit 0%nat) 1 = paAmp p 0%nat 1%nat) /\
  forall invert uc, chiSquareProd invert uc [p] [fit] = Some 4.
Proof.
  set (amp := fun w : nat => ((1, 0) : C)). set (cv := fun r c : nat => if Nat.eqb r c && negb (Nat.eqb r 3) then 4 else 0).
  set (p := onePa 2 amp cv). set (fit := fun _ w : nat => if Nat.eqb w 0 then (2, 0) else ((1, 0) : C)). exists p, fit.
  split; [unfold ordered; cbn; repeat constructor|]. split; [intros lim [<-|[<-|[]]]; split; exists 1; cbn [fst snd]; (split; [left; reflexivity|lra])|].
  assert (NC : ~ complexAmp p 0 1). { unfold complexAmp, measured, p, onePa, cv, amp. cbn. lra. }
  split; [exact NC|]. split; [reflexivity|].
  assert (Rot : forall x : C, (x / ((2, 0) / RtoC (Cmod (2, 0))))%C = x) by (intros x; apply unit_rot; cbn; lra).
  split; [split; [|split]|].
  - unfold rotated. change (fit 0%nat 0%nat) with (2, 0). apply Rot.
  - reflexivity.
  - unfold rotated. change (fit 0%nat 0%nat) with (2, 0). apply Rot.
  - intros invert uc. unfold chiSquareProd. pose proof (one_limits 2 amp cv) as El. fold p in El. rewrite El. change (maxNrMassBins (map paBin [p])) with 1%nat.
    cbn [repeat combine prepareAmps]. change (nrWaves (paBin p)) with 2%nat. change (paAnchor p) with 0%nat.
    change (massRange (massMin 1 2 [(0, 0)%nat; (0, 0)%nat]) (massMax 2 [(0, 0)%nat; (0, 0)%nat])) with [0%nat]. cbn [prepareAmpMasses]. unfold prepareAmpMass.
    assert (Z : zeroAmp amp (paCov p 0) 1 = false) by (unfold zeroAmp, amp; cbn [fst snd]; unfold reqb at 1; destruct (Req_EM_T 1 0); [lra|reflexivity]).
    assert (Rl : realAmp amp (paCov p 0) 1 = true) by (apply (real_complex p [] 0 1); exact NC).
    assert (B : badMass 2 0 [(0, 0)%nat; (0, 0)%nat] amp (paCov p 0) 0 = true).
    { unfold badMass. cbn [seq existsb]. rewrite Rl, Z. cbn [Nat.eqb negb andb orb]. rewrite !orb_true_r. reflexivity. }
    change (paAmp p 0) with amp. rewrite B. cbn [map chiAmpBins].
    change (nrWaves (paBin p)) with 2%nat. change (paAnchor p) with 0%nat.
    change (massRange (massMin 1 2 [(0, 0)%nat; (0, 0)%nat]) (massMax 2 [(0, 0)%nat; (0, 0)%nat])) with [0%nat]. cbn [chiAmpMasses].
    change (fit 0%nat 0%nat) with (2, 0). rewrite phase_ok by (intros E; injection E; lra). f_equal.
    unfold similarity. rewrite sumN_sum. set (v := diffVect _ _ _ _ _ _ _).
    assert (V0 : v 0%nat = 1 /\ v 1%nat = 0 /\ v 2%nat = 0 /\ v 3%nat = 0).
    { unfold v. pose proof (diff_val 2 0 [(0, 0)%nat; (0, 0)%nat] 0 (fit 0%nat) ((2, 0) / RtoC (Cmod (2, 0)))%C (paAmp p 0)) as D.
      pose proof (D 0%nat 0%nat ltac:(lia) ltac:(lia)) as D0. pose proof (D 0%nat 1%nat ltac:(lia) ltac:(lia)) as D1. pose proof (D 1%nat 0%nat ltac:(lia) ltac:(lia)) as D2. pose proof (D 1%nat 1%nat ltac:(lia) ltac:(lia)) as D3.
      cbn [Nat.mul Nat.add] in *. change (outside [(0, 0)%nat; (0, 0)%nat] 0 0 0) with false in *. change (outside [(0, 0)%nat; (0, 0)%nat] 1 1 0) with false in *. cbn [Nat.eqb] in *.
      unfold Cminus in *. rewrite Rot in *. change (paAmp p 0 0%nat) with (1, 0) in *. change (paAmp p 0 1%nat) with (1, 0) in *. unfold fit in *. cbn [Nat.eqb Cplus Copp fst snd] in *.
      rewrite D0, D1, D2, D3. repeat split; lra. }
    destruct V0 as (V0 & V1 & V2 & V3). unfold sumTo. cbn [Nat.mul Nat.add seq map]. rewrite V0, V1, V2, V3. rewrite !sumN_sum. unfold sumTo. cbn [seq map].
    rewrite V0, V1, V2, V3. unfold paCov, p, onePa, cv. cbn [paCovRead paBin bRescale Nat.eqb negb andb]. rewrite !total_cons. unfold total; cbn [fold_right]. ring.
Qed.
