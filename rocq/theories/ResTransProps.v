(* C65: the cache of the resonance fit does not change any result. *)
From Coq Require Import String Ascii List ZArith Bool Reals Lia Lra FunctionalExtensionality.
From Coquelicot Require Import Complex.
From Verif Require Import PathModel StrModel CGBoxModel ParticleModel AmpIntModel AmpIntProps ResCacheModel LikSetProofs ResCacheProps ResTransSpec ResTransProofs.
Import ListNotations.
Open Scope list_scope. Open Scope nat_scope.

(* Every history of parameter imports and amplitude evaluations on the objects of a new thread runs
   without leaving the arrays, and every evaluation returns the amplitude of the last imported vector,
   computed without a cache. *)
Theorem C65_cache_transparent : forall md nm mc nw nch nmass h, wfFit md nm mc nw nch nmass -> Forall (validCall md nm) h ->
  exists st, rrun md mc h (fresh md nm nw nch nmass) = Some (expected md mc newParams h, st).
Proof.
  intros md nm mc nw nch nmass h WF H.
  destruct (rrun_ok md nm mc nw nch nmass WF h H newParams (snd (fresh md nm nw nch nmass))) as (st & E & _).
  - now left.
  - apply (inv_fresh md nm mc nw nch nmass).
  - exists st. exact E.
Qed.

Lemma expected_app md mc h1 : forall p h2, expected md mc p (h1 ++ h2) = expected md mc p h1 ++
  expected md mc (fold_left (fun p c => match c with Import par => paramsOf md par | _ => p end) h1 p) h2.
Proof.
  induction h1 as [|c h IH]; intros p h2; [reflexivity|]. destruct c; cbn; rewrite IH; reflexivity.
Qed.

(* What was imported and evaluated before does not matter: the last evaluation returns what a new
   thread returns after importing the same vector. *)
Theorem C65_history_free : forall md nm mc nw nch nmass h par es w b m, wfFit md nm mc nw nch nmass ->
  Forall (validCall md nm) h -> Forall (validCall md nm) es -> Forall (fun c => forall par', c <> Import par') es -> validCall md nm (Eval w b m) ->
  exists rs v st st', rrun md mc (h ++ Import par :: es ++ [Eval w b m]) (fresh md nm nw nch nmass) = Some (rs ++ [v], st) /\
    rrun md mc [Import par; Eval w b m] (fresh md nm nw nch nmass) = Some ([v], st').
Proof.
  intros md nm mc nw nch nmass h par es w b m WF Hh He Hn Hq.
  destruct (C65_cache_transparent md nm mc nw nch nmass (h ++ Import par :: es ++ [Eval w b m]) WF) as (st & E).
  { apply Forall_app. split; [exact Hh|]. constructor; [exact I|]. apply Forall_app. auto. }
  destruct (C65_cache_transparent md nm mc nw nch nmass [Import par; Eval w b m] WF) as (st' & E').
  { constructor; [exact I|]. auto. }
  rewrite expected_app in E. cbn [expected] in E. rewrite expected_app in E.
  assert (F : fold_left (fun p c => match c with Import par => paramsOf md par | _ => p end) es (paramsOf md par) = paramsOf md par).
  { clear - Hn. induction es as [|c es IH]; [reflexivity|]. apply Forall_cons_iff in Hn as [H1 H2]. cbn. destruct c; [now destruct (H1 par0)| |]; now apply IH. }
  rewrite F in E. cbn [expected] in E. rewrite app_assoc in E. cbn [expected] in E'. eauto 6.
Qed.

(* ---------------- layout of the parameter vector ---------------- *)
Lemma takePairs_nth par l : forall off j i k b, nth_error l j = Some (i, k, b) ->
  nth_error (takePairs par off l) j = Some (AC i k b (par (off + 2 * j), par (off + 2 * j + 1))).
Proof.
  induction l as [|[[i' k'] b'] l IH]; intros off j i k b H; [destruct j; discriminate|]. destruct j as [|j].
  - cbn in H. injection H as -> -> ->. cbn [takePairs nth_error]. now rewrite Nat.mul_0_r, Nat.add_0_r.
  - cbn in H. cbn [takePairs nth_error]. rewrite (IH (off + 2) j i k b H). do 3 f_equal; f_equal; lia.
Qed.
Lemma takeSingle_nth par l : forall off j i k, nth_error l j = Some (i, k) -> nth_error (takeSingle par off l) j = Some (AP i k (par (off + j))).
Proof.
  induction l as [|[i' k'] l IH]; intros off j i k H; [destruct j; discriminate|]. destruct j as [|j].
  - cbn in H. injection H as -> ->. cbn [takeSingle nth_error]. now rewrite Nat.add_0_r.
  - cbn in H. cbn [takeSingle nth_error]. rewrite (IH (off + 1) j i k H). do 3 f_equal; lia.
Qed.
Lemma takeBran_nth par l : forall off j i k f, nth_error l j = Some (i, k, f) -> nth_error (takeBran par off l) j =
  Some (AB i k (if f then RtoC 1 else (par (off + 2 * nFree (firstn j l)), par (off + 2 * nFree (firstn j l) + 1)))).
Proof.
  induction l as [|[[i' k'] f'] l IH]; intros off j i k f H; [destruct j; discriminate|]. destruct j as [|j].
  - cbn in H. injection H as -> -> ->. destruct f; cbn [takeBran nth_error]; [reflexivity|]. cbn [firstn nFree filter length]. now rewrite Nat.mul_0_r, Nat.add_0_r.
  - cbn in H. cbn [firstn]. destruct f'; cbn [takeBran nth_error].
    + rewrite (IH off j i k f H). unfold nFree. cbn [filter negb snd]. reflexivity.
    + rewrite (IH (off + 2) j i k f H). unfold nFree. cbn [filter negb snd length]. do 2 f_equal. destruct f; [reflexivity|]. f_equal; f_equal; lia.
Qed.
(* a cell assigned once has that value *)
Lemma assign_once l : forall j a p, NoDup (map cellOf l) -> nth_error l j = Some a ->
  match a with
  | AC i k b v => pCoup (assignAll l p) i k b = v
  | AB i k v => pBran (assignAll l p) i k = v
  | AP i k v => pPar (assignAll l p) i k = v
  end.
Proof.
  induction l as [|x l IH]; intros j a p HN H; [destruct j; discriminate|]. cbn [map] in HN. apply NoDup_cons_iff in HN as [H1 H2].
  destruct j as [|j]; [|cbn in H; cbn [assignAll fold_left]; apply (IH j a (doAssign p x) H2 H)].
  cbn in H. injection H as ->. cbn [assignAll fold_left]. change (fold_left doAssign ?l ?p) with (assignAll l p).
  destruct (assignAll_off l (doAssign p a)) as (O1 & O2 & O3). destruct a as [i k b v|i k v|i k v]; cbn [cellOf] in H1.
  - rewrite O1 by exact H1. cbn. unfold upd3. now rewrite !Nat.eqb_refl.
  - rewrite O2 by exact H1. cbn. now rewrite !Nat.eqb_refl.
  - rewrite O3 by exact H1. cbn. now rewrite !Nat.eqb_refl.
Qed.
Lemma NoDup_app' {A} (l1 l2 : list A) : NoDup l1 -> NoDup l2 -> (forall x, In x l1 -> ~ In x l2) -> NoDup (l1 ++ l2).
Proof.
  induction l1 as [|x l IH]; intros H1 H2 H; [exact H2|]. apply NoDup_cons_iff in H1 as [Hx H1]. cbn. constructor.
  - intros X. apply in_app_iff in X as [X|X]; [tauto|]. apply (H x); [now left|exact X].
  - apply IH; auto. intros y Hy. apply H. now right.
Qed.
Lemma NoDup_flat_map {A B} (f : A -> list B) l : NoDup l -> (forall x, In x l -> NoDup (f x)) ->
  (forall x y z, In x l -> In y l -> In z (f x) -> In z (f y) -> x = y) -> NoDup (flat_map f l).
Proof.
  induction l as [|x l IH]; intros HN H1 H2; [constructor|]. apply NoDup_cons_iff in HN as [Hx HN]. cbn. apply NoDup_app'.
  - apply H1. now left.
  - apply IH; [exact HN|intros; apply H1; now right|intros; eapply H2; eauto; now right].
  - intros z Hz X. apply in_flat_map in X as (y & Hy & Hzy). apply Hx. rewrite (H2 x y z); auto; [now left|now right].
Qed.
Lemma NoDup_map_inj' {A B} (f : A -> B) l : (forall x y, In x l -> In y l -> f x = f y -> x = y) -> NoDup l -> NoDup (map f l).
Proof.
  induction l as [|x l IH]; intros Hf H; [constructor|]. apply NoDup_cons_iff in H as [Hx H]. cbn. constructor.
  - intros X. apply in_map_iff in X as (y & Ey & Hy). apply Hx. rewrite <- (Hf y x); auto; [now right|now left].
  - apply IH; [|exact H]. intros y z Hy Hz. apply Hf; now right.
Qed.
Lemma upTo_NoDup n : NoDup (upTo n). Proof. apply seq_NoDup. Qed.
Lemma comps_distinct md nm mc nw nch nmass : wfFit md nm mc nw nch nmass -> NoDup (mComps md) /\ (forall o, In o (mComps md) -> oId o < length (mComps md)) /\ forall o o', In o (mComps md) -> In o' (mComps md) -> oId o = oId o' -> o = o'.
Proof.
  intros WF. pose proof (wfIds _ _ _ _ _ _ WF) as W. split; [|split].
  - apply NoDup_nth_error. intros i j Hi E. destruct (nth_error (mComps md) i) as [o|] eqn:Ei; [|apply nth_error_None in Ei; lia].
    symmetry in E. apply W in Ei. apply W in E. congruence.
  - intros o Ho. apply In_nth_error in Ho as [n Hn]. rewrite (W n o Hn). apply nth_error_Some. congruence.
  - intros o o' Ho Ho' E. apply In_nth_error in Ho as [n Hn], Ho' as [n' Hn']. pose proof (W n o Hn). pose proof (W n' o' Hn'). assert (n = n') by congruence. subst n'. congruence.
Qed.
Lemma cells_distinct md nm mc nw nch nmass : wfFit md nm mc nw nch nmass -> forall par, NoDup (map cellOf (assigns md par)).
Proof.
  intros WF par. destruct (comps_distinct md nm mc nw nch nmass WF) as (D1 & D2 & D3). unfold assigns. cbn zeta.
  rewrite !map_app, takePairs_cells, takeBran_cells, takeSingle_cells. apply NoDup_app'; [|apply NoDup_app'|].
  - apply NoDup_map_inj'; [intros [[i k] b] [[i' k'] b'] _ _ H; cbn in H; injection H as -> -> ->; reflexivity|].
    unfold couplingCells. apply NoDup_flat_map; [exact D1| |].
    + intros o Ho. unfold compCoup. apply NoDup_flat_map; [apply upTo_NoDup| |].
      * intros k _. destruct (nth_error (oFromCoup o) k) as [ms|]; [|constructor]. destruct (nth_error (oChans o) ms) as [chan|]; [|constructor].
        apply NoDup_map_inj'; [intros x y _ _ H; now injection H|]. unfold getBins. apply NoDup_filter, upTo_NoDup.
      * intros k k' z _ _ Hz Hz'. destruct (nth_error (oFromCoup o) k) as [ms|]; [|destruct Hz]. destruct (nth_error (oChans o) ms) as [chan|]; [|destruct Hz].
        destruct (nth_error (oFromCoup o) k') as [ms'|]; [|destruct Hz']. destruct (nth_error (oChans o) ms') as [chan'|]; [|destruct Hz'].
        apply in_map_iff in Hz as (b & <- & _), Hz' as (b' & E & _). now injection E.
    + intros o o' z Ho Ho' Hz Hz'. apply D3; auto. unfold compCoup in *. apply in_flat_map in Hz as (k & _ & Hz), Hz' as (k' & _ & Hz').
      destruct (nth_error (oFromCoup o) k) as [ms|]; [|destruct Hz]. destruct (nth_error (oChans o) ms) as [chan|]; [|destruct Hz].
      destruct (nth_error (oFromCoup o') k') as [ms'|]; [|destruct Hz']. destruct (nth_error (oChans o') ms') as [chan'|]; [|destruct Hz'].
      apply in_map_iff in Hz as (b & <- & _), Hz' as (b' & E & _). now injection E.
  - apply NoDup_map_inj'.
    + intros [[i k] f] [[i' k'] f'] Hx Hy H. cbn in H. injection H as -> ->. unfold branchingCells in *. apply in_flat_map in Hx as (o & Ho & Hx), Hy as (o' & Ho' & Hy).
      unfold compBran in *. apply in_map_iff in Hx as (a & Ea & _), Hy as (a' & Ea' & _). injection Ea as E1 -> <-. injection Ea' as E2 -> <-. rewrite (D3 o o'); auto; congruence.
    + unfold branchingCells. apply NoDup_flat_map; [exact D1| |].
      * intros o _. apply NoDup_map_inj'; [intros x y _ _ H; now injection H|apply upTo_NoDup].
      * intros o o' z Ho Ho' Hz Hz'. apply D3; auto. apply in_map_iff in Hz as (b & <- & _), Hz' as (b' & E & _). now injection E.
  - apply NoDup_map_inj'; [intros [i k] [i' k'] _ _ H; cbn in H; injection H as -> ->; reflexivity|]. unfold parameterCells. apply NoDup_app'.
    + apply NoDup_flat_map; [exact D1| |].
      * intros o _. apply NoDup_map_inj'; [intros x y _ _ H; now injection H|apply upTo_NoDup].
      * intros o o' z Ho Ho' Hz Hz'. apply D3; auto. apply in_map_iff in Hz as (b & <- & _), Hz' as (b' & E & _). now injection E.
    + destruct (mFsmd md); [|constructor]. apply NoDup_map_inj'; [intros x y _ _ H; now injection H|apply upTo_NoDup].
    + intros z Hz Hz'. apply in_flat_map in Hz as (o & Ho & Hz). apply in_map_iff in Hz as (b & <- & _). destruct (mFsmd md); [|destruct Hz'].
      apply in_map_iff in Hz' as (b' & E & _). injection E as E _. apply D2 in Ho. lia.
  - intros x Hx Hy. apply in_map_iff in Hx as (y & <- & _), Hy as (z & E & _). discriminate E.
  - intros x Hx Hy. apply in_map_iff in Hx as (y & <- & _). apply in_app_iff in Hy as [Hy|Hy]; apply in_map_iff in Hy as (z & E & _); discriminate E.
Qed.

(* Meaning of the imported vector: two elements per coupling, then two per free branching, then one per
   parameter of a component, then those of the final-state mass-dependence; fixed branchings are 1. *)
Theorem C65_parameter_layout : forall md nm mc nw nch nmass par, wfFit md nm mc nw nch nmass ->
  let p := paramsOf md par in let o1 := 2 * length (couplingCells md) in let o2 := o1 + 2 * nFree (branchingCells md) in
  (forall j i k b, nth_error (couplingCells md) j = Some (i, k, b) -> pCoup p i k b = (par (2 * j), par (2 * j + 1))) /\
  (forall j i k, nth_error (branchingCells md) j = Some (i, k, true) -> pBran p i k = RtoC 1) /\
  (forall j i k, nth_error (branchingCells md) j = Some (i, k, false) ->
     let o := o1 + 2 * nFree (firstn j (branchingCells md)) in pBran p i k = (par o, par (o + 1))) /\
  (forall j i k, nth_error (parameterCells md) j = Some (i, k) -> pPar p i k = par (o2 + j)).
Proof.
  intros md nm mc nw nch nmass par WF p o1 o2. pose proof (cells_distinct md nm mc nw nch nmass WF par) as HN.
  assert (G : forall j a, nth_error (assigns md par) j = Some a -> match a with AC i k b v => pCoup p i k b = v | AB i k v => pBran p i k = v | AP i k v => pPar p i k = v end).
  { intros j a H. exact (assign_once (assigns md par) j a newParams HN H). }
  assert (L1 : length (takePairs par 0 (couplingCells md)) = length (couplingCells md)) by (rewrite <- (map_length cellOf), takePairs_cells; apply map_length).
  assert (L2 : length (takeBran par o1 (branchingCells md)) = length (branchingCells md)) by (rewrite <- (map_length cellOf), takeBran_cells; apply map_length).
  assert (N1 : forall j a, nth_error (takePairs par 0 (couplingCells md)) j = Some a -> nth_error (assigns md par) j = Some a).
  { intros j a H. unfold assigns. cbn zeta. rewrite nth_error_app1; [exact H|]. apply nth_error_Some. congruence. }
  assert (N2 : forall j a, nth_error (takeBran par o1 (branchingCells md)) j = Some a -> nth_error (assigns md par) (length (couplingCells md) + j) = Some a).
  { intros j a H. unfold assigns. cbn zeta. rewrite nth_error_app2, L1 by lia. rewrite nth_error_app1; fold o1.
    - now replace (length (couplingCells md) + j - length (couplingCells md)) with j by lia.
    - replace (length (couplingCells md) + j - length (couplingCells md)) with j by lia. apply nth_error_Some. congruence. }
  assert (N3 : forall j a, nth_error (takeSingle par o2 (parameterCells md)) j = Some a -> nth_error (assigns md par) (length (couplingCells md) + (length (branchingCells md) + j)) = Some a).
  { intros j a H. unfold assigns. cbn zeta. rewrite nth_error_app2, L1 by lia. fold o1 o2. rewrite nth_error_app2, L2 by lia.
    now replace (length (couplingCells md) + (length (branchingCells md) + j) - length (couplingCells md) - length (branchingCells md)) with j by lia. }
  split; [|split; [|split]].
  - intros j i k b H. exact (G _ _ (N1 j _ (takePairs_nth par _ 0 j i k b H))).
  - intros j i k H. exact (G _ _ (N2 j _ (takeBran_nth par _ o1 j i k true H))).
  - intros j i k H. exact (G _ _ (N2 j _ (takeBran_nth par _ o1 j i k false H))).
  - intros j i k H. exact (G _ _ (N3 j _ (takeSingle_nth par _ o2 j i k H))).
Qed.

(* ---------------- a concrete fit; two function objects in one thread ---------------- *)
(* one wave in one bin with one mass bin; a component of constant value v *)
Definition exName : str := lit "1-(1++)"%string.
Definition exComp (v : C) : component :=
  Comp 0 [Chan exName [Some 0] (fun _ _ => 1%R) (fun _ _ => 1%R)] [0] [0] [0] [true] 0 (fun _ _ _ => v) (singleBins 1).
Definition exModel (v : C) : model := MD [exComp v] None [[exName]].
Definition exFun (v : C) : rfunction := RF (exModel v) (fun _ _ => 1%R) 1 1 1 1.
Definition exPar (i : nat) : R := match i with 0 => 1%R | _ => 0%R end.
Lemma exWf v : wfFit (exModel v) [1] (fun _ _ => 1%R) 1 1 1.
Proof.
  constructor.
  - intros i o H. destruct i as [|i]; [injection H as <-; reflexivity|]. destruct i; discriminate H.
  - reflexivity.
  - repeat constructor.
  - repeat constructor. intros [].
  - constructor; [|constructor]. unfold wfComp. cbn. repeat (split; [lia|]). split; [repeat constructor|]. split; [|now left].
    constructor; [|constructor]. reflexivity.
  - intros f H. discriminate H.
Qed.
(* the same history on a non-trivial fit *)
Example C65_ex : wfFit (exModel (RtoC 2)) [1] (fun _ _ => 1%R) 1 1 1 /\
  Forall (validCall (exModel (RtoC 2)) [1]) [Import exPar; Eval 0 0 0; EvalAt 0 0 3%R; Import (fun _ => 2%R); Eval 0 0 0].
Proof. split; [apply exWf|]. repeat (apply Forall_cons || apply Forall_nil); cbn; lia. Qed.
(* two bins with equal mass binning, shared line shape, two components sharing a wave, mass-dependence per bin *)
Definition exChan2 := Chan exName [Some 0; Some 0] (fun _ _ => 1%R) (fun _ _ => 1%R).
Definition exModel2 : model :=
  MD [Comp 0 [exChan2] [0] [0] [0] [true] 2 (fun q _ x => RtoC (q 0 + q 1 * x)) (massBinning [2; 2] (fun _ m => INR m));
      Comp 1 [exChan2] [0] [0] [0] [false] 0 (fun _ b _ => RtoC (INR b)) (singleBins 2)]
     (Some (fsmdPerBin 2 [fun q _ => RtoC (q 0); fun _ x => RtoC x] [1; 0])) [[exName]; [exName; lit "x"%string]].
Example C65_ex2 : wfFit exModel2 [2; 2] (fun _ m => INR m) 2 1 2.
Proof.
  constructor.
  - intros i o H. destruct i as [|[|i]]; [injection H as <-; reflexivity|injection H as <-; reflexivity|]. destruct i; discriminate H.
  - reflexivity.
  - repeat constructor.
  - repeat constructor; cbn; try lia; try tauto. intros [H|[]]. discriminate H.
  - constructor; [|constructor; [|constructor]]; unfold wfComp; cbn -[massBinning INR]; (split; [lia|]; split; [reflexivity|]; split; [reflexivity|]; split; [repeat constructor|]; split; [repeat constructor|]).
    + right. split; reflexivity.
    + now left.
  - intros f H. injection H as <-. right. eexists _, _. split; [reflexivity|]. split; [reflexivity|]. split; [reflexivity|].
    intros b fn H q q' x Hq. destruct b as [|[|b]]; cbn in H; [injection H as <-; cbn in Hq; now rewrite Hq by lia|injection H as <-; reflexivity|destruct b; discriminate H].
Qed.

Lemma Ceqb_t x y : x = y -> Ceqb x y = true. Proof. apply Ceqb_eq. Qed.
Lemma Ceqb_f x y : x <> y -> Ceqb x y = false.
Proof. intros H. apply not_true_iff_false. intros X. apply H. now apply Ceqb_eq. Qed.
Lemma C1_neq_C0 : RtoC 1 <> RtoC 0. Proof. intros H. injection H. lra. Qed.
(* an evaluation at a mass-bin centre leaves its result in the cache *)
Lemma eval_stores md p w b x mi c v c' : w < xWaves c -> b < xBins c -> mi < xMass c -> productionAmplitude md p w b x (Some mi) c = Some (v, c') -> cProd c' w b mi = v.
Proof.
  intros Hw Hb Hm H. unfold productionAmplitude in H. destruct (Ceqb (cProd c w b mi) (RtoC 0)); cbn [negb] in H; [|congruence].
  match type of H with bnd ?e _ = _ => destruct e as [[t c1]|]; [|discriminate H] end. cbn [bnd fst snd setProdAmp] in H. unfold wrProd in H.
  destruct ((w <? xWaves c1) && (b <? xBins c1) && (mi <? xMass c1)); [|discriminate H]. cbn [bnd] in H. injection H as <- <-. cbn. unfold upd3. now rewrite !Nat.eqb_refl.
Qed.
Lemma ex_import_again v p c : pCoup p 0 0 0 = RtoC 1 -> pBran p 0 0 = RtoC 1 -> importAll (exModel v) exPar (p, c) = Some (p, c).
Proof.
  intros H1 H2. unfold importAll, importLoop, importCouplings, importBranchings, importParameters. cbn -[Ceqb RtoC].
  rewrite H1. rewrite (Ceqb_t (RtoC 1)) by reflexivity. cbn -[Ceqb RtoC]. rewrite H2. rewrite (Ceqb_t (RtoC 1)) by reflexivity. reflexivity.
Qed.
Lemma ex_params v : pCoup (paramsOf (exModel v) exPar) 0 0 0 = RtoC 1 /\ pBran (paramsOf (exModel v) exPar) 0 0 = RtoC 1.
Proof. split; reflexivity. Qed.
Lemma ex_direct v : directAmp (exModel v) (paramsOf (exModel v) exPar) 0 0 1 (Some 0) = v.
Proof.
  unfold directAmp, csum. replace (waveComponentChannel (exModel v) 0 0) with [(0, 0)] by reflexivity. cbn [map fold_left fst snd].
  unfold directComp, directCoup, directFsmd. cbn [mComps exModel nth_error exComp oVal oChans oChCoup oChBran nth mFsmd]. destruct (ex_params v) as [-> ->].
  cbn [phaseSpaceAt chPS]. ring.
Qed.

(* The parameters and the cache are shared by all function objects of a thread: a second object, whose only
   difference is the line shape of its component, returns the amplitude of the first one. *)
Theorem C65_two_functions_one_thread_refuted : exists (f g : rfunction) (par : nat -> R) (q : nat * nat * nat) tl a b,
  chiSquareAmps f par [q] None = Some ([a], tl) /\ chiSquareAmps g par [q] tl = Some ([a], tl) /\
  (exists tl', chiSquareAmps g par [q] None = Some ([b], tl')) /\ a <> b.
Proof.
  assert (F : forall v, exists st, rrun (exModel v) (fun _ _ => 1%R) [Import exPar; Eval 0 0 0] (fresh (exModel v) [1] 1 1 1) = Some ([v], st)
    /\ (v <> RtoC 0 -> pCoup (fst st) 0 0 0 = RtoC 1 /\ pBran (fst st) 0 0 = RtoC 1 /\ cProd (snd st) 0 0 0 = v)).
  { intros v. cbn [rrun rstep]. unfold fresh.
    destruct (importAll_ok (exModel v) [1] (fun _ _ => 1%R) 1 1 1 (exWf v) exPar newParams (newCache 1 2 1 1 1)) as (c1 & E1 & I1).
    { exact (inv_fresh (exModel v) [1] (fun _ _ => 1%R) 1 1 1). }
    change (length (mComps (exModel v)) + 1) with 2. change (length [1]) with 1. rewrite E1. cbn [bnd fst snd]. change (assignAll (assigns (exModel v) exPar) newParams) with (paramsOf (exModel v) exPar) in *.
    destruct (prodAmp_ok (exModel v) [1] (fun _ _ => 1%R) 1 1 1 (exWf v) (paramsOf (exModel v) exPar) 0 0 1%R (Some 0) c1) as (c2 & E2 & I2); [cbn; lia|cbn; lia|cbn; auto|exact I1|].
    rewrite E2. cbn [bnd fst snd app]. rewrite ex_direct. eexists. split; [reflexivity|]. intros _. cbn [fst snd]. destruct (ex_params v) as [-> ->].
    split; [reflexivity|]. split; [reflexivity|]. pose proof (proj1 I1) as X. apply ext_E0 in X as (A1 & A2 & A3 & A4 & A5). cbn in A4.
    transitivity (directAmp (exModel v) (paramsOf (exModel v) exPar) 0 0 1 (Some 0)); [|apply ex_direct]. apply eval_stores with (md := exModel v) (p := paramsOf (exModel v) exPar) (x := 1%R) (c := c1); try lia. exact E2. }
  destruct (F (RtoC 1)) as (st & E & H). destruct (H C1_neq_C0) as (P1 & P2 & P3).
  destruct (F (RtoC 2)) as (st' & E' & _).
  exists (exFun (RtoC 1)), (exFun (RtoC 2)), exPar, (0, 0, 0), (Some st), (RtoC 1), (RtoC 2). split; [|split; [|split]].
  - unfold chiSquareAmps. cbn [map fst snd rfModel rfMc exFun rfInit rfWaves rfChans rfBins rfMass]. fold (fresh (exModel (RtoC 1)) [1] 1 1 1) in *.
    unfold fresh in E. cbn [length Nat.add mComps exModel] in *. rewrite E. reflexivity.
  - unfold chiSquareAmps. cbn [map fst snd rfModel rfMc exFun rfInit rrun rstep]. destruct st as [p c]. cbn [fst snd] in *.
    rewrite ex_import_again by assumption. cbn [bnd fst snd]. unfold productionAmplitude. rewrite P3, (Ceqb_f _ _ C1_neq_C0). cbn [negb bnd fst snd app]. reflexivity.
  - exists (Some st'). unfold chiSquareAmps. cbn [map fst snd rfModel rfMc exFun rfInit rfWaves rfChans rfBins rfMass].
    unfold fresh in E'. cbn [length Nat.add mComps exModel] in *. rewrite E'. reflexivity.
  - intros X. injection X. lra.
Qed.
