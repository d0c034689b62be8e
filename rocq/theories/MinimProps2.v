(* C91: start values and steps of the minimisation of the resonance fit. *)
From Coq Require Import String Ascii List ZArith Bool Reals Lia Lra.
From Coquelicot Require Import Complex.
From Verif Require Import PathModel StrModel DecModel CGBoxModel ParticleModel ParticleProps AmpIntModel ResCacheModel ResTransSpec ResTransProofs ResTransProps MinimModel MinimSpec MinimProofs MinimProps.
Import ListNotations.
Open Scope list_scope. Open Scope nat_scope.

Lemma layout_any md nm mc nw nch nmass par Q : wfFit md nm mc nw nch nmass ->
  let p := assignAll (assigns md par) Q in let o1 := 2 * length (couplingCells md) in let o2 := o1 + 2 * nFree (branchingCells md) in
  (forall j i k b, nth_error (couplingCells md) j = Some (i, k, b) -> pCoup p i k b = (par (2 * j), par (2 * j + 1))) /\
  (forall j i k, nth_error (branchingCells md) j = Some (i, k, true) -> pBran p i k = RtoC 1) /\
  (forall j i k, nth_error (branchingCells md) j = Some (i, k, false) ->
     let o := o1 + 2 * nFree (firstn j (branchingCells md)) in pBran p i k = (par o, par (o + 1))) /\
  (forall j i k, nth_error (parameterCells md) j = Some (i, k) -> pPar p i k = par (o2 + j)).
Proof.
  intros WF p o1 o2. pose proof (cells_distinct md nm mc nw nch nmass WF par) as HN.
  assert (G : forall j a, nth_error (assigns md par) j = Some a -> match a with AC i k b v => pCoup p i k b = v | AB i k v => pBran p i k = v | AP i k v => pPar p i k = v end).
  { intros j a H. exact (assign_once (assigns md par) j a Q HN H). }
  assert (L1 : length (takePairs par 0 (couplingCells md)) = length (couplingCells md)) by (rewrite <- (map_length cellOf), takePairs_cells; apply map_length).
  assert (L2 : length (takeBran par o1 (branchingCells md)) = length (branchingCells md)) by (rewrite <- (map_length cellOf), takeBran_cells; apply map_length).
  assert (N1 : forall j a, nth_error (takePairs par 0 (couplingCells md)) j = Some a -> nth_error (assigns md par) j = Some a).
  { intros j a H. unfold assigns. cbn zeta. rewrite nth_error_app1; [exact H|]. apply nth_error_Some. congruence. }
  assert (N2 : forall j a, nth_error (takeBran par o1 (branchingCells md)) j = Some a -> nth_error (assigns md par) (length (couplingCells md) + j) = Some a).
  { intros j a H. unfold assigns. cbn zeta. rewrite nth_error_app2, L1 by lia. rewrite nth_error_app1; fold o1.
    - now replace (length (couplingCells md) + j - length (couplingCells md)) with j by lia.
    - replace (length (couplingCells md) + j - length (couplingCells md)) with j by lia. apply nth_error_Some. congruence. }
  assert (N3 : forall j a, nth_error (takeSingle par o2 (parameterCells md)) j = Some a -> nth_error (assigns md par) (length (couplingCells md) + (length (branchingCells md) + j)) = Some a).
  { intros j a H. unfold assigns. cbn zeta. rewrite nth_error_app2, L1 by lia. fold o1 o2. rewrite nth_error_app2, L2 by lia.
    now replace (length (couplingCells md) + (length (branchingCells md) + j) - length (couplingCells md) - length (branchingCells md)) with j by lia. }
  split; [|split; [|split]].
  - intros j i k b H. exact (G _ _ (N1 j _ (takePairs_nth par _ 0 j i k b H))).
  - intros j i k H. exact (G _ _ (N2 j _ (takeBran_nth par _ o1 j i k true H))).
  - intros j i k H. exact (G _ _ (N2 j _ (takeBran_nth par _ o1 j i k false H))).
  - intros j i k H. exact (G _ _ (N3 j _ (takeSingle_nth par _ o2 j i k H))).
Qed.
Lemma import_any f nm mc nw nch nmass par Q : wfMin f nm mc nw nch nmass -> importPars f par Q = Some (assignAll (assigns (fmModel f) par) Q).
Proof.
  intros WF. unfold importPars. destruct (importAll_ok (fmModel f) nm mc nw nch nmass (wmFit _ _ _ _ _ _ WF) par Q (fmCache f)) as (c & E & _).
  - rewrite (wmCache _ _ _ _ _ _ WF). split; [reflexivity|]. intros k _. left. destruct k; reflexivity.
  - rewrite E. reflexivity.
Qed.

Lemma fsmd_cell f d b k : mFsmd (fmModel f) = Some d -> b < (if fSame d then 1 else length (fFun d)) -> k < nth b (fNPar d) 0 ->
  let m := list_sum (firstn b (fNPar d)) + k in nth_error (parameterCells (fmModel f)) (length (flat_map compPars (mComps (fmModel f))) + m) = Some (length (mComps (fmModel f)), m).
Proof.
  intros D Hb Hk. cbv zeta. set (m := list_sum (firstn b (fNPar d)) + k). unfold parameterCells. rewrite nth_error_app2 by lia. replace (_ + m - _) with m by lia. rewrite D. unfold fsmdPars. rewrite nth_error_map. unfold upTo.
    assert (m < (if fSame d then nth 0 (fNPar d) 0 else fold_left Nat.add (fNPar d) 0)) as Lm.
    { subst m. destruct (fSame d) eqn:FS0.
      - assert (b = 0) as -> by lia. exact Hk.
      - pose proof (foldl_sum (fun x : nat => x) (fNPar d) 0) as G. rewrite map_id in G. cbn [Nat.add] in G. change (fold_left Nat.add (fNPar d) 0) with (fold_left (fun n x => n + x) (fNPar d) 0). rewrite G.
        rewrite <- (firstn_skipn b (fNPar d)) at 2. rewrite list_sum_app. assert (b < length (fNPar d)) as Lb by (destruct (lt_dec b (length (fNPar d))) as [|Q']; [assumption|rewrite nth_overflow in Hk by lia; lia]).
        destruct (skipn b (fNPar d)) as [|x l] eqn:E; [apply (f_equal (@length nat)) in E; rewrite skipn_length in E; cbn in E; lia|].
        assert (nth b (fNPar d) 0 = x) as Ex. { rewrite <- (firstn_skipn b (fNPar d)), E, app_nth2 by (rewrite firstn_length; lia). now rewrite firstn_length, Nat.min_l, Nat.sub_diag by lia. }
        change (list_sum (x :: l)) with (x + list_sum l). lia. }
    rewrite (nth_error_nth' _ 0) by (now rewrite seq_length). now rewrite seq_nth.
Qed.

(* The start values are the parameters: if the minimizer changes nothing, the parameters stay, in whatever object they are
   imported; only the imaginary parts of anchor couplings become zero, and fixed branchings one *)
Theorem C91_start f nm mc nw nch nmass P rel vs X Q : wfMin f nm mc nw nch nmass -> accepted f -> initParameters f P rel = Some vs ->
  (forall j v, nth_error vs j = Some v -> X j = vStart v) -> exists P', importPars f X Q = Some P' /\
  (forall i k b o c chan, In (i, k, b) (couplingCells (fmModel f)) -> coupChan f i k o c chan ->
     (isAnchorCoupling f b c chan -> pCoup P' i k b = RtoC (fst (pCoup P i k b))) /\ (~ isAnchorCoupling f b c chan -> pCoup P' i k b = pCoup P i k b))
  /\ (forall i k, In (i, k, true) (branchingCells (fmModel f)) -> pBran P' i k = RtoC 1) /\ (forall i k, In (i, k, false) (branchingCells (fmModel f)) -> pBran P' i k = pBran P i k)
  /\ (forall i k o, nth_error (mComps (fmModel f)) i = Some o -> k < oNPar o -> pPar P' i k = pPar P i k)
  /\ forall d b k, mFsmd (fmModel f) = Some d -> b < (if fSame d then 1 else length (fFun d)) -> k < nth b (fNPar d) 0 ->
       pPar P' (length (mComps (fmModel f))) (list_sum (firstn b (fNPar d)) + k) = pPar P (length (mComps (fmModel f))) (list_sum (firstn b (fNPar d)) + k).
Proof.
  intros WF A HV HX. exists (assignAll (assigns (fmModel f) X) Q). split; [now apply (import_any f nm mc nw nch nmass)|].
  destruct (layout_any (fmModel f) nm mc nw nch nmass X Q (wmFit _ _ _ _ _ _ WF)) as (LC & LB1 & LB2 & LP). split; [|split; [|split; [|split]]].
  - intros i k b o c chan HI HC. apply In_nth_error in HI as [j Hj]. destruct (C91_couplings f nm mc nw nch nmass P rel vs WF HV j i k b o c chan Hj HC) as (w & re & im & _ & T). cbv zeta in T. destruct T as (N0 & N1 & _ & _ & S0 & _ & _ & SA & SN).
    rewrite (LC j i k b Hj), (HX _ _ N0), (HX _ _ N1), S0. split; intros HA.
    + destruct (SA A HA) as [-> _]. reflexivity.
    + destruct (SN A HA) as [-> _]. now destruct (pCoup P i k b).
  - intros i k HI. apply In_nth_error in HI as [j Hj]. now apply (LB1 j).
  - intros i k HI. pose proof (branCell_ok f nm mc nw nch nmass WF i k false HI) as (o & c & ms & chan & E1 & E2 & E3 & E4 & _). apply In_nth_error in HI as [j Hj].
    destruct (C91_branchings f nm mc nw nch nmass P rel vs WF HV j i k o c chan Hj) as (w & d & re & im & _ & T); [split; [exact E1|split; [exact E2|eauto]]|]. cbv zeta in T. destruct T as (N0 & N1 & _ & _ & S0 & S1 & _).
    rewrite (LB2 j i k Hj). cbv zeta. rewrite (HX _ _ N0), (HX _ _ N1), S0, S1. now destruct (pBran P i k).
  - intros i k o Ho Hk. assert (In (i, k) (flat_map compPars (mComps (fmModel f)))) as HI.
    { apply in_flat_map. exists o. split; [eapply nth_error_In; eauto|]. unfold compPars. apply in_map_iff. exists k. rewrite (ids f nm mc nw nch nmass WF i o Ho). split; [reflexivity|]. now apply in_upTo. }
    pose proof (parCell_ok f nm mc nw nch nmass WF i k HI) as (o' & c & p & E1 & E2 & E3). apply In_nth_error in HI as [j Hj].
    destruct (C91_parameters f nm mc nw nch nmass P rel vs WF HV j i k c p Hj E2 E3) as (v & N0 & _ & S0 & _).
    rewrite (LP j i k), (HX _ _ N0); [exact S0|]. unfold parameterCells. rewrite nth_error_app1; [exact Hj|]. apply nth_error_Some. congruence.
  - intros d b k D Hb Hk. pose proof (wmFsmd _ _ _ _ _ _ WF d D b Hb) as L. destruct (nth_error (nth b (fmFsmd f) []) k) as [p|] eqn:Hp; [|apply nth_error_None in Hp; lia].
    destruct (C91_fsmd f nm mc nw nch nmass P rel vs WF HV d b k p D Hb Hp) as (v & N0 & _ & S0 & _). set (m := list_sum (firstn b (fNPar d)) + k) in *.
    rewrite (LP (length (flat_map compPars (mComps (fmModel f))) + m) (length (mComps (fmModel f))) m).
    + rewrite Nat.add_assoc, (HX _ _ N0). exact S0.
    + now apply (fsmd_cell f d b k).
Qed.

(* ---- steps ---- *)
Lemma nth_error_skipn' {A} (l : list A) : forall m k, nth_error (skipn m l) k = nth_error l (m + k).
Proof. induction l as [|x l IH]; intros [|m] k; try reflexivity; [destruct k; reflexivity|]. cbn. apply IH. Qed.
Lemma dropDone_ok : forall k rel removed t, nth_error rel k = Some t ->
  dropDone k rel removed = if str_eqb t (lit "hesse") then Some (rel, removed) else Some (skipn k rel, removed + k).
Proof.
  induction k as [|k IH]; intros rel removed t H; cbn [dropDone].
  - cbn [skipn]. rewrite Nat.add_0_r. now destruct (str_eqb t (lit "hesse")).
  - rewrite H. destruct (str_eqb t (lit "hesse")) eqn:E; [reflexivity|]. destruct rel as [|x rel]; [discriminate|]. cbn in H. cbn [tl]. rewrite (IH rel (S removed) t H), E. cbn [skipn]. do 2 f_equal. lia.
Qed.
Lemma firstn_app_le {A} (l : list A) r t : t <= length l -> firstn t (l ++ r) = firstn t l.
Proof. intros H. rewrite firstn_app. replace (t - length l) with 0 by lia. cbn. apply app_nil_r. Qed.
Section Steps.
Variables (f : fitModel) (nm : list nat) (mc : nat -> nat -> R) (nw nch nmass : nat).
Hypothesis WF : wfMin f nm mc nw nch nmass.
Variables (run : list request -> outcome) (orders : list str) (maxCalls : nat) (P E : params).
Lemma outAt_app reqs r t : t < length reqs -> outAt run (reqs ++ r) t = outAt run reqs t.
Proof. intros H. unfold outAt. now rewrite firstn_app_le by lia. Qed.
Lemma used_app reqs r t : t <= length reqs -> used run (reqs ++ r) t = used run reqs t.
Proof. induction t as [|t IH]; intros H; [reflexivity|]. cbn. rewrite IH, outAt_app by lia. reflexivity. Qed.
Lemma after_app sel reqs r Q0 t Q : t <= length reqs -> after f run sel reqs Q0 t Q -> after f run sel (reqs ++ r) Q0 t Q.
Proof. intros H A. induction A as [|t Q Q' A IH HI]; [constructor|]. econstructor; [apply IH; lia|]. rewrite outAt_app by lia. exact HI. Qed.
Lemma outAt_last reqs r : outAt run (reqs ++ [r]) (length reqs) = run (reqs ++ [r]).
Proof. unfold outAt. rewrite firstn_all2; [reflexivity|]. rewrite app_length. cbn. lia. Qed.
Definition requestOk (reqs : list request) (t : nat) : Prop := exists order Q v, nth_error orders t = Some order /\ after f run oX reqs P t Q /\ nth_error reqs t = Some (maxCalls - used run reqs t, v)
  /\ (t = 0 \/ used run reqs t < maxCalls) /\ ((order = lit "hesse" /\ v = None) \/ (order <> lit "hesse" /\ exists vs, v = Some vs /\ initParameters f Q order = Some vs)).
Definition remains (s : mst) : Prop := exists m order n, m < length (msReqs s) /\ msRemoved s = m /\ msRel s = skipn m orders /\ nth_error orders m = Some order /\ order <> lit "hesse"
  /\ (forall t, m < t < length (msReqs s) -> nth_error orders t = Some (lit "hesse")) /\ nth_error (msReqs s) m = Some (n, Some (msVars s)).
Definition good (s : mst) : Prop := let n := length (msReqs s) in n <= length orders /\ after f run oX (msReqs s) P n (msPar s) /\ after f run oErr (msReqs s) E n (msErr s)
  /\ (forall t, t < n -> requestOk (msReqs s) t) /\ (n = 0 -> msRel s = orders /\ msRemoved s = 0) /\ (0 < n -> remains s).
Definition running (s : mst) : Prop := msStop s = false /\ msBudget s = maxCalls - used run (msReqs s) (length (msReqs s)) /\ (length (msReqs s) = 0 \/ used run (msReqs s) (length (msReqs s)) < maxCalls)
  /\ (0 < length (msReqs s) -> msCov s = Some (oCov (run (msReqs s)))).
Definition stopped (s : mst) : Prop := msStop s = true /\ msBudget s = 0 /\ msCov s = None /\ maxCalls <= used run (msReqs s) (length (msReqs s)).
Lemma requestOk_app reqs r t : t < length reqs -> requestOk reqs t -> requestOk (reqs ++ [r]) t.
Proof.
  intros H (order & Q & v & A1 & A2 & A3 & A4 & A5). exists order, Q, v. split; [exact A1|]. split; [apply after_app; [lia|exact A2]|]. rewrite used_app by lia. split; [now rewrite nth_error_app1|]. auto.
Qed.
Lemma step_ok s : good s -> running s -> length (msReqs s) < length orders -> (length (msReqs s) = 0 -> nth_error orders 0 <> Some (lit "hesse")) ->
  exists s', minStep f run (length (msReqs s)) s = Some s' /\ good s' /\ length (msReqs s') = S (length (msReqs s)) /\ (running s' \/ stopped s').
Proof.
  intros (G1 & G2 & G3 & G4 & G5 & G6) (R1 & R2 & R3 & R4) HL HH. set (step := length (msReqs s)) in *.
  destruct (nth_error orders step) as [order|] eqn:EO; [|apply nth_error_None in EO; lia].
  assert (nth_error (msRel s) (step - msRemoved s) = Some order) as EN.
  { destruct (Nat.eq_dec step 0) as [Z|NZ]; [destruct (G5 Z) as [-> ->]; now rewrite Nat.sub_0_r|]. destruct (G6 ltac:(lia)) as (m & om & nn & M1 & M2 & M3 & _). rewrite M3, M2, nth_error_skipn'. fold step in M1. now replace (m + (step - m)) with step by lia. }
  unfold minStep. rewrite EN. rewrite (dropDone_ok _ _ (msRemoved s) order EN).
  assert (exists v vars, (if str_eqb order (lit "hesse") then if step =? 0 then None else Some (None, msVars s) else do vs <- initParameters f (msPar s) order; Some (Some vs, vs)) = Some (v, vars)
     /\ ((order = lit "hesse" /\ v = None /\ vars = msVars s /\ 0 < step) \/ (order <> lit "hesse" /\ v = Some vars /\ initParameters f (msPar s) order = Some vars))) as (v & vars & EV & HV).
  { destruct (str_eqb order (lit "hesse")) eqn:E2.
    - apply str_eqb_eq in E2. destruct (Nat.eqb_spec step 0) as [Z|NZ]; [exfalso; apply (HH Z); rewrite <- Z; congruence|]. exists None, (msVars s). split; [reflexivity|]. left. auto with arith.
      split; [exact E2|]. split; [reflexivity|]. split; [reflexivity|lia].
    - destruct (C91_variables f nm mc nw nch nmass (msPar s) order WF) as (vs & EI & _). exists (Some vs), vs. rewrite EI. split; [reflexivity|]. right. split; [|auto]. intros F. subst order. rewrite str_eqb_refl in E2. discriminate. }
  rewrite EV. cbn [bnd fst snd]. set (r := (msBudget s, v)). set (reqs := msReqs s ++ [r]).
  rewrite !(import_any f nm mc nw nch nmass _ _ WF). cbn [bnd].
  assert (length reqs = S step) as LR by (unfold reqs; rewrite app_length; cbn; fold step; lia).
  assert (used run reqs (S step) = used run (msReqs s) step + oCalls (run reqs)) as EU. { cbn [used]. unfold reqs. rewrite used_app by (fold step; lia). f_equal. now rewrite <- outAt_last. }
  assert (requestOk reqs step) as RK.
  { exists order, (msPar s), v. split; [exact EO|]. split; [apply after_app; [fold step; lia|exact G2]|]. split; [unfold reqs; rewrite nth_error_app2 by (fold step; lia); fold step; rewrite Nat.sub_diag; cbn; rewrite used_app by (fold step; lia); unfold r; now rewrite R2|].
    split; [unfold reqs; rewrite used_app by (fold step; lia); exact R3|]. destruct HV as [(A & B & _)|(A & B & D)]; [left; auto|right; eauto]. }
  set (d := if str_eqb order (lit "hesse") then (msRel s, msRemoved s) else (skipn (step - msRemoved s) (msRel s), msRemoved s + (step - msRemoved s))).
  assert ((if str_eqb order (lit "hesse") then Some (msRel s, msRemoved s) else Some (skipn (step - msRemoved s) (msRel s), msRemoved s + (step - msRemoved s))) = Some d) as -> by (unfold d; now destruct (str_eqb order (lit "hesse"))). cbn [bnd].
  assert (forall b cv st, good (MSt (fst d) (snd d) b (assignAll (assigns (fmModel f) (oX (run reqs))) (msPar s)) (assignAll (assigns (fmModel f) (oErr (run reqs))) (msErr s)) cv reqs vars st)) as GG.
  { intros b cv st. unfold good. cbn [msReqs msPar msErr]. rewrite LR. split; [lia|]. split; [|split; [|split; [|split; [discriminate|]]]].
    - econstructor; [apply after_app; [fold step; lia|exact G2]|]. unfold reqs. rewrite <- outAt_last. now apply (import_any f nm mc nw nch nmass).
    - econstructor; [apply after_app; [fold step; lia|exact G3]|]. unfold reqs. rewrite <- outAt_last. now apply (import_any f nm mc nw nch nmass).
    - intros t Ht. destruct (Nat.eq_dec t step) as [->|]; [exact RK|]. apply requestOk_app; [fold step; lia|]. apply G4. lia.
    - intros _. unfold remains. cbn [msReqs msRemoved msRel msVars]. rewrite LR. unfold d. destruct HV as [(A & B & D & F)|(A & B & D)].
      + rewrite A, str_eqb_refl. cbn [fst snd]. destruct (G6 F) as (m & om & nn & M1 & M2 & M3 & M4 & M5 & M6 & M7). exists m, om, nn. fold step in M1. split; [lia|]. split; [exact M2|]. split; [exact M3|]. split; [exact M4|]. split; [exact M5|]. split.
        * intros t Ht. destruct (Nat.eq_dec t step) as [->|]; [congruence|]. apply M6. fold step. lia.
        * unfold reqs. rewrite nth_error_app1 by (fold step; lia). now rewrite D.
      + destruct (str_eqb order (lit "hesse")) eqn:E2; [apply str_eqb_eq in E2; contradiction|]. cbn [fst snd].
        assert (msRemoved s + (step - msRemoved s) = step /\ skipn (step - msRemoved s) (msRel s) = skipn step orders) as [Q1 Q2].
        { destruct (Nat.eq_dec step 0) as [Z|NZ]; [destruct (G5 Z) as [-> ->]; rewrite Nat.sub_0_r; auto|]. destruct (G6 ltac:(lia)) as (m & om & nn & M1 & M2 & M3 & _). fold step in M1. rewrite M2, M3. split; [lia|].
          assert (forall (l : list str) a b0, skipn a (skipn b0 l) = skipn (b0 + a) l) as SS. { induction l as [|x l IH]; intros [|a] [|b0]; try reflexivity; cbn; [now rewrite Nat.add_0_r|]. rewrite <- (IH (S a) b0). reflexivity. }
          rewrite SS. f_equal. lia. }
        exists step, order, (msBudget s). rewrite Q1, Q2. split; [lia|]. split; [reflexivity|]. split; [reflexivity|]. split; [exact EO|]. split; [exact A|]. split; [intros t Ht; lia|].
        unfold reqs. rewrite nth_error_app2 by (fold step; lia). fold step. rewrite Nat.sub_diag. cbn. unfold r. now rewrite B. }
  destruct (Nat.leb_spec (msBudget s) (oCalls (run reqs))) as [LE|LT].
  - eexists. split; [reflexivity|]. split; [apply GG|]. cbn [msReqs]. split; [exact LR|]. right. unfold stopped. cbn [msStop msBudget msCov msReqs]. rewrite LR, EU. repeat split; try reflexivity. lia.
  - eexists. split; [reflexivity|]. split; [apply GG|]. cbn [msReqs]. split; [exact LR|]. left. unfold running. cbn [msStop msBudget msCov msReqs]. rewrite LR, EU. split; [reflexivity|]. split; [lia|]. split; [lia|]. reflexivity.
Qed.
Lemma steps_ok : forall todo s, good s -> running s -> length (msReqs s) + todo = length orders -> (length (msReqs s) = 0 -> nth_error orders 0 <> Some (lit "hesse")) ->
  exists s', minSteps f run todo (length (msReqs s)) s = Some s' /\ good s' /\ ((running s' /\ length (msReqs s') = length orders) \/ (stopped s' /\ 0 < length (msReqs s'))).
Proof.
  induction todo as [|todo IH]; intros s G Rn HL HH; cbn [minSteps].
  - exists s. split; [reflexivity|]. split; [exact G|]. left. split; [exact Rn|lia].
  - destruct (step_ok s G Rn ltac:(lia) HH) as (s' & ES & G' & L' & C'). rewrite ES. cbn [bnd]. destruct C' as [C'|C'].
    + destruct C' as (S1 & C'). rewrite S1. rewrite <- L'. apply IH; [exact G'|split; [exact S1|exact C']|lia|lia].
    + destruct C' as (S1 & C'). rewrite S1. exists s'. split; [reflexivity|]. split; [exact G'|]. right. split; [split; [exact S1|exact C']|lia].
Qed.
End Steps.
