(* C91: the minimisation of the resonance fit. *)
From Coq Require Import String Ascii List ZArith Bool Reals Lia Lra.
From Coquelicot Require Import Complex.
From Verif Require Import PathModel StrModel DecModel CGBoxModel ParticleModel ParticleProps AmpIntModel ResCacheModel ResTransSpec ResTransProofs ResTransProps MinimModel MinimSpec MinimProofs MinimProps MinimProps2.
Import ListNotations.
Open Scope list_scope. Open Scope nat_scope.

Definition ordersOf (rel : list str) : list str :=
  match rel with [] => [lit "coupling branching"; lit "coupling branching mass m0"; lit "*"; lit "hesse"] | _ => rel end.
Lemma minimize_run f nm mc nw nch nmass run chi2 nPoint maxCalls rel P E : wfMin f nm mc nw nch nmass -> nth_error (ordersOf rel) 0 <> Some (lit "hesse") ->
  exists s, minimize f run chi2 nPoint maxCalls rel P E = Some (s, fitQuality s (run (msReqs s)) chi2 nPoint) /\ good f run (ordersOf rel) maxCalls P E s
   /\ ((running run maxCalls s /\ length (msReqs s) = length (ordersOf rel)) \/ (stopped run maxCalls s /\ 0 < length (msReqs s))).
Proof.
  intros WF H0. unfold minimize. change (match rel with [] => defaultOrder | _ => rel end) with (ordersOf rel). cbv zeta.
  destruct (steps_ok f nm mc nw nch nmass WF run (ordersOf rel) maxCalls P E (length (ordersOf rel)) (MSt (ordersOf rel) 0 maxCalls P E None [] [] false)) as (s & ES & G & C').
  - unfold good. cbn [msReqs length msPar msErr msRel msRemoved]. split; [lia|]. split; [constructor|]. split; [constructor|]. split; [intros t Ht; lia|]. split; [auto|lia].
  - unfold running. cbn [msReqs length msStop msBudget used]. split; [reflexivity|]. split; [lia|]. split; [auto|lia].
  - reflexivity.
  - intros _. exact H0.
  - cbn [msReqs length] in ES. rewrite ES. exists s. auto.
Qed.
Lemma orders_pos rel : 0 < length (ordersOf rel).
Proof. unfold ordersOf. destruct rel; cbn; lia. Qed.

(* minimize ends the program exactly if the first step is to calculate the Hessian matrix *)
Theorem C91_hesse_first f nm mc nw nch nmass run chi2 nPoint maxCalls rel P E : wfMin f nm mc nw nch nmass ->
  (minimize f run chi2 nPoint maxCalls rel P E = None <-> exists r, rel = lit "hesse" :: r).
Proof.
  intros WF. split.
  - intros H. destruct (nth_error (ordersOf rel) 0) as [t|] eqn:E0; [|pose proof (orders_pos rel); apply nth_error_None in E0; lia].
    destruct (str_eqb t (lit "hesse")) eqn:ET.
    + apply str_eqb_eq in ET. subst t. destruct rel as [|x r]; [cbn in E0; discriminate|]. cbn in E0. injection E0 as ->. eauto.
    + destruct (minimize_run f nm mc nw nch nmass run chi2 nPoint maxCalls rel P E WF) as (s & ES & _); [intros F; assert (t = lit "hesse") as -> by congruence; rewrite str_eqb_refl in ET; discriminate|]. congruence.
  - intros [r ->]. reflexivity.
Qed.

(* The steps: each works on the parameters imported from the result of the step before, with the variables of its release
   order or asking for the Hessian matrix, and with the calls that are left; they stop early exactly if none are left *)
Theorem C91_steps f nm mc nw nch nmass run chi2 nPoint maxCalls rel P E s q : wfMin f nm mc nw nch nmass -> minimize f run chi2 nPoint maxCalls rel P E = Some (s, q) ->
  let reqs := msReqs s in let n := length reqs in
  0 < n <= length (ordersOf rel) /\ after f run oX reqs P n (msPar s) /\ after f run oErr reqs E n (msErr s)
  /\ (forall t, t < n -> exists order Q v, nth_error (ordersOf rel) t = Some order /\ after f run oX reqs P t Q /\ nth_error reqs t = Some (maxCalls - used run reqs t, v)
        /\ (t = 0 \/ used run reqs t < maxCalls) /\ ((order = lit "hesse" /\ v = None) \/ (order <> lit "hesse" /\ exists vs, v = Some vs /\ initParameters f Q order = Some vs)))
  /\ ((n = length (ordersOf rel) /\ used run reqs n < maxCalls /\ msBudget s = maxCalls - used run reqs n /\ msCov s = Some (oCov (run reqs)))
      \/ (maxCalls <= used run reqs n /\ msBudget s = 0 /\ msCov s = None)).
Proof.
  intros WF H. assert (nth_error (ordersOf rel) 0 <> Some (lit "hesse")) as H0.
  { intros F. assert (minimize f run chi2 nPoint maxCalls rel P E = None) as N; [|congruence]. apply (C91_hesse_first f nm mc nw nch nmass); [exact WF|]. destruct rel as [|x r]; [discriminate|]. cbn in F. injection F as ->. eauto. }
  destruct (minimize_run f nm mc nw nch nmass run chi2 nPoint maxCalls rel P E WF H0) as (s' & ES & (G1 & G2 & G3 & G4 & G5 & G6) & C'). assert (s' = s) as -> by congruence. clear ES. pose proof (orders_pos rel) as OP. cbv zeta.
  assert (0 < length (msReqs s)) as LP by (destruct C' as [[_ C']|[_ C']]; lia).
  split; [lia|]. split; [exact G2|]. split; [exact G3|]. split; [exact G4|]. destruct C' as [[(R1 & R2 & R3 & R4) L]|[(R1 & R2 & R3 & R4) L]].
  - left. split; [exact L|]. split; [lia|]. split; [exact R2|]. now apply R4.
  - right. auto.
Qed.
(* The release orders that are kept: those from the last one carried out that is not the Hessian matrix; so the fit can be
   continued with them, and a continued fit never starts with the Hessian matrix *)
Theorem C91_rest f nm mc nw nch nmass run chi2 nPoint maxCalls rel P E s q : wfMin f nm mc nw nch nmass -> minimize f run chi2 nPoint maxCalls rel P E = Some (s, q) ->
  exists m order, m < length (msReqs s) /\ msRel s = skipn m (ordersOf rel) /\ nth_error (ordersOf rel) m = Some order /\ order <> lit "hesse"
    /\ (forall t, m < t < length (msReqs s) -> nth_error (ordersOf rel) t = Some (lit "hesse"))
    /\ forall run' chi2' nPoint' maxCalls' P' E', minimize f run' chi2' nPoint' maxCalls' (msRel s) P' E' <> None.
Proof.
  intros WF H. assert (nth_error (ordersOf rel) 0 <> Some (lit "hesse")) as H0.
  { intros F. assert (minimize f run chi2 nPoint maxCalls rel P E = None) as N; [|congruence]. apply (C91_hesse_first f nm mc nw nch nmass); [exact WF|]. destruct rel as [|x r]; [discriminate|]. cbn in F. injection F as ->. eauto. }
  destruct (minimize_run f nm mc nw nch nmass run chi2 nPoint maxCalls rel P E WF H0) as (s' & ES & (G1 & G2 & G3 & G4 & G5 & G6) & C'). assert (s' = s) as -> by congruence. clear ES. pose proof (orders_pos rel) as OP.
  assert (0 < length (msReqs s)) as LP by (destruct C' as [[_ C']|[_ C']]; lia). destruct (G6 LP) as (m & order & nn & M1 & M2 & M3 & M4 & M5 & M6 & _).
  exists m, order. split; [exact M1|]. split; [exact M3|]. split; [exact M4|]. split; [exact M5|]. split; [exact M6|]. intros run' chi2' nPoint' maxCalls' P' E' F.
  apply (C91_hesse_first f nm mc nw nch nmass run' chi2' nPoint' maxCalls' (msRel s) P' E' WF) in F. destruct F as [r F]. rewrite M3 in F. pose proof (nth_error_skipn' (ordersOf rel) m 0) as Q. rewrite F in Q. rewrite Nat.add_0_r in Q. rewrite M4 in Q. change (nth_error (lit "hesse" :: r) 0) with (Some (lit "hesse")) in Q. apply M5. congruence.
Qed.
(* What is reported: chi-square at the final values; the degrees of freedom are data points minus variables free in the last
   minimisation; a result that was cut short is marked, and the status of the Hessian matrix is there exactly if the last order
   asked for it and was reached *)
Theorem C91_quality f nm mc nw nch nmass run chi2 nPoint maxCalls rel P E s q : wfMin f nm mc nw nch nmass -> minimize f run chi2 nPoint maxCalls rel P E = Some (s, q) ->
  let out := run (msReqs s) in let over := maxCalls <= used run (msReqs s) (length (msReqs s)) in
  exists m order Q vs, msRel s = skipn m (ordersOf rel) /\ nth_error (ordersOf rel) m = Some order /\ after f run oX (msReqs s) P m Q /\ initParameters f Q order = Some vs
    /\ (forall t, m < t < length (msReqs s) -> nth_error (ordersOf rel) t = Some (lit "hesse"))
    /\ qMin q = Z.rem (oStatus out) 10 /\ (qContinue q = true <-> over)
    /\ (~ over /\ last (ordersOf rel) [] = lit "hesse" -> qHesse q = Some (Z.quot (oStatus out) 100) /\ qCov q = Some (oCovStatus out))
    /\ (over \/ last (ordersOf rel) [] <> lit "hesse" -> qHesse q = None /\ qCov q = None)
    /\ qChi2 q = chi2 (oX out)
    /\ let nFree := length (filter (fun v => match vSet v with Fixed => false | _ => true end) vs) in
       (nFree <= nPoint -> (Z.of_nat nPoint < 2 ^ 32)%Z -> qNdf q = INR (nPoint - nFree) /\ (nFree < nPoint -> qRedChi2 q = Some (chi2 (oX out) / INR (nPoint - nFree))%R)
          /\ (nFree = nPoint -> qRedChi2 q = None)).
Proof.
  intros WF H. assert (nth_error (ordersOf rel) 0 <> Some (lit "hesse")) as H0.
  { intros F. assert (minimize f run chi2 nPoint maxCalls rel P E = None) as N; [|congruence]. apply (C91_hesse_first f nm mc nw nch nmass); [exact WF|]. destruct rel as [|x r]; [discriminate|]. cbn in F. injection F as ->. eauto. }
  destruct (minimize_run f nm mc nw nch nmass run chi2 nPoint maxCalls rel P E WF H0) as (s' & ES & (G1 & G2 & G3 & G4 & G5 & G6) & C'). rewrite H in ES. injection ES as <- EQ. pose proof (orders_pos rel) as OP. cbv zeta.
  assert (0 < length (msReqs s)) as LP by (destruct C' as [[_ C']|[_ C']]; lia). destruct (G6 LP) as (m & order & nn & M1 & M2 & M3 & M4 & M5 & M6 & M7).
  destruct (G4 m M1) as (o2 & Q & v & K1 & K2 & K3 & _ & K5). assert (o2 = order) as -> by congruence. destruct K5 as [[F _]|(_ & vs & Ev & K5)]; [contradiction|]. assert (vs = msVars s) as -> by congruence.
  exists m, order, Q, (msVars s). split; [exact M3|]. split; [exact M4|]. split; [exact K2|]. split; [exact K5|]. split; [exact M6|]. subst q. unfold fitQuality. cbn [qMin qContinue qHesse qCov qChi2 qNdf qRedChi2].
  assert (last (msRel s) [] = last (ordersOf rel) []) as EL.
  { rewrite M3. assert (m < length (ordersOf rel)) as Lm by lia. clear - Lm. revert m Lm. generalize (ordersOf rel). intros l. induction l as [|x l IH]; intros [|m] L; cbn in L; try lia; [reflexivity|]. cbn [skipn]. rewrite IH by lia. destruct l; [cbn in L; lia|reflexivity]. }
  assert ((msBudget s =? 0) = true <-> maxCalls <= used run (msReqs s) (length (msReqs s))) as EB.
  { rewrite Nat.eqb_eq. destruct C' as [[(R1 & R2 & R3 & R4) L]|[(R1 & R2 & R3 & R4) L]]; lia. }
  split; [reflexivity|]. split; [exact EB|]. rewrite EL. split; [|split; [|split; [reflexivity|]]].
  - intros [NO LH]. rewrite LH, str_eqb_refl. destruct (msBudget s =? 0); [exfalso; apply NO; now apply EB|]. auto.
  - intros [O|NL].
    + apply EB in O. rewrite O. now rewrite andb_false_r.
    + destruct (str_eqb (last (ordersOf rel) []) (lit "hesse")) eqn:F; [apply str_eqb_eq in F; contradiction|]. auto.
  - intros LE SM. change (nFreeVars (msVars s)) with (length (filter (fun v => match vSet v with Fixed => false | _ => true end) (msVars s))). set (nF := length (filter _ (msVars s))) in *.
    assert (IZR ((Z.of_nat nPoint - Z.of_nat nF) mod 2 ^ 32) = INR (nPoint - nF)) as EN. { rewrite Z.mod_small by lia. rewrite <- Nat2Z.inj_sub by lia. now rewrite <- INR_IZR_INZ. }
    rewrite EN. split; [reflexivity|]. split.
    + intros L. destruct (Req_EM_T (INR (nPoint - nF)) 0) as [Z|NZ]; [|reflexivity]. apply (INR_eq _ 0) in Z. lia.
    + intros L. replace (nPoint - nF) with 0 by lia. cbn [INR]. destruct (Req_EM_T 0 0); [reflexivity|lra].
Qed.

Lemma firstn_next {A} (l : list A) : forall t x, nth_error l t = Some x -> firstn (S t) l = firstn t l ++ [x].
Proof. induction l as [|y l IH]; intros [|t] x H; try discriminate; [cbn in H; injection H as ->; reflexivity|]. cbn in H. change (firstn (S (S t)) (y :: l)) with (y :: firstn (S t) l). rewrite (IH t x H). reflexivity. Qed.
(* a number read from one position of the vector of values keeps its value, if the variable at this position is fixed at it in
   every minimisation *)
Lemma kept f nm mc nw nch nmass run rel chi2 nPoint maxCalls P E s q (read : params -> R) (pos : nat) : wfMin f nm mc nw nch nmass ->
  minimize f run chi2 nPoint maxCalls rel P E = Some (s, q) -> respects run ->
  (forall X Q, read (assignAll (assigns (fmModel f) X) Q) = X pos) ->
  (forall order Q vs, In order (ordersOf rel) -> initParameters f Q order = Some vs -> exists v, nth_error vs pos = Some v /\ vSet v = Fixed /\ vStart v = read Q) ->
  read (msPar s) = read P.
Proof.
  intros WF H [R1 R2] HR HV. destruct (C91_steps f nm mc nw nch nmass run chi2 nPoint maxCalls rel P E s q WF H) as (LN & A & _ & HT & _). cbv zeta in *. set (reqs := msReqs s) in *.
  assert (forall t Q, after f run oX reqs P t Q -> t <= length reqs -> read Q = read P /\ (0 < t -> oX (outAt run reqs (t - 1)) pos = read P)) as K; [|now apply (K _ _ A)].
  assert (forall t Q, after f run oX reqs P t Q -> forall Q2, after f run oX reqs P t Q2 -> Q = Q2) as UN.
  { intros t Q HA. induction HA as [|t Q Q' HA IH HI]; intros Q2 H2; inversion H2; subst; [reflexivity|]. rewrite (IH _ H1) in HI. congruence. }
  intros t Q HA. induction HA as [|t Q Q' HA IH HI]; intros LT; [split; [reflexivity|lia]|]. destruct (IH ltac:(lia)) as [I1 I2]. rewrite (import_any f nm mc nw nch nmass _ _ WF) in HI. injection HI as <-. rewrite HR.
  replace (S t - 1) with t by lia. assert (oX (outAt run reqs t) pos = read P) as G; [|auto].
  destruct (HT t ltac:(lia)) as (order & Q2 & v & E1 & E2 & E3 & _ & E5). rewrite <- (UN _ _ HA _ E2) in *.
  assert (firstn (S t) reqs = firstn t reqs ++ [(maxCalls - used run reqs t, v)]) as EF.
  { now apply firstn_next. }
  unfold outAt. rewrite EF. destruct E5 as [[EH ->]|(NH & vs & -> & EI)].
  - assert (0 < t) as Lt. { destruct t; [|lia]. exfalso. subst order. assert (minimize f run chi2 nPoint maxCalls rel P E = None) as N; [|congruence]. apply (C91_hesse_first f nm mc nw nch nmass); [exact WF|]. destruct rel as [|x r]; [discriminate|]. cbn in E1. injection E1 as ->. eauto. }
    rewrite R2 by (intros F; apply (f_equal (@length request)) in F; rewrite firstn_length in F; cbn in F; lia). specialize (I2 Lt). unfold outAt in I2. replace (S (t - 1)) with t in I2 by lia. exact I2.
  - destruct (HV order Q vs (nth_error_In _ _ E1) EI) as (w & W1 & W2 & W3). rewrite (R1 _ _ _ _ _ W1 W2). congruence.
Qed.
(* With a minimizer that keeps fixed variables, parameters that are fixed, or that no order names, have their start values at
   the end, and the anchor couplings of an accepted model are real *)
Theorem C91_fixed f nm mc nw nch nmass run chi2 nPoint maxCalls rel P E s q : wfMin f nm mc nw nch nmass -> minimize f run chi2 nPoint maxCalls rel P E = Some (s, q) -> respects run ->
  (forall i k o c p, nth_error (mComps (fmModel f)) i = Some o -> nth_error (fmComps f) i = Some c -> nth_error (mcPars c) k = Some p ->
     mpFixed p = true \/ (forall order, In order (ordersOf rel) -> ~ listedIn order [lit "*"; mcName c; mpName p; mcName c ++ lit "__" ++ mpName p]) -> pPar (msPar s) i k = pPar P i k)
  /\ (forall d b k p, mFsmd (fmModel f) = Some d -> b < (if fSame d then 1 else length (fFun d)) -> nth_error (nth b (fmFsmd f) []) k = Some p -> mpFixed p = true ->
        pPar (msPar s) (length (mComps (fmModel f))) (list_sum (firstn b (fNPar d)) + k) = pPar P (length (mComps (fmModel f))) (list_sum (firstn b (fNPar d)) + k))
  /\ (accepted f -> forall i k b o c chan, In (i, k, b) (couplingCells (fmModel f)) -> coupChan f i k o c chan -> isAnchorCoupling f b c chan -> snd (pCoup (msPar s) i k b) = 0%R)
  /\ (forall i k, In (i, k, true) (branchingCells (fmModel f)) -> pBran (msPar s) i k = RtoC 1).
Proof.
  intros WF H R. pose proof (C91_steps f nm mc nw nch nmass run chi2 nPoint maxCalls rel P E s q WF H) as ST. cbv zeta in ST. destruct ST as (LN & A & _ & HT & _).
  split; [|split; [|split]].
  - intros i k o c p Ho Hc Hp HF. destruct (wmPars _ _ _ _ _ _ WF i o c Ho Hc) as (L & _).
    assert (In (i, k) (flat_map compPars (mComps (fmModel f)))) as HI.
    { apply in_flat_map. exists o. split; [eapply nth_error_In; eauto|]. unfold compPars. apply in_map_iff. exists k. rewrite (ids f nm mc nw nch nmass WF i o Ho). split; [reflexivity|]. apply in_upTo. rewrite <- L. apply nth_error_Some. congruence. }
    apply In_nth_error in HI as [j Hj].
    apply (kept f nm mc nw nch nmass run rel chi2 nPoint maxCalls P E s q (fun Q => pPar Q i k) (2 * length (couplingCells (fmModel f)) + 2 * nFree (branchingCells (fmModel f)) + j) WF H R).
    + intros X Q. destruct (layout_any (fmModel f) nm mc nw nch nmass X Q (wmFit _ _ _ _ _ _ WF)) as (_ & _ & _ & LP). apply LP. unfold parameterCells. rewrite nth_error_app1; [exact Hj|]. apply nth_error_Some. congruence.
    + intros order Q vs HIo HV. destruct (C91_parameters f nm mc nw nch nmass Q order vs WF HV j i k c p Hj Hc Hp) as (v & N0 & _ & S0 & _ & SF). exists v. split; [exact N0|]. split; [|exact S0]. apply SF. destruct HF as [HF|HF]; [now left|right; now apply HF].
  - intros d b k p D Hb Hp HF. assert (k < nth b (fNPar d) 0) as Hk by (rewrite <- (wmFsmd _ _ _ _ _ _ WF d D b Hb); apply nth_error_Some; congruence).
    pose proof (fsmd_cell f d b k D Hb Hk) as Hcell. cbv zeta in Hcell. set (m := list_sum (firstn b (fNPar d)) + k) in *.
    apply (kept f nm mc nw nch nmass run rel chi2 nPoint maxCalls P E s q (fun Q => pPar Q (length (mComps (fmModel f))) m) (2 * length (couplingCells (fmModel f)) + 2 * nFree (branchingCells (fmModel f)) + length (flat_map compPars (mComps (fmModel f))) + m) WF H R).
    + intros X Q. destruct (layout_any (fmModel f) nm mc nw nch nmass X Q (wmFit _ _ _ _ _ _ WF)) as (_ & _ & _ & LP). rewrite (LP _ _ _ Hcell). f_equal. lia.
    + intros order Q vs HIo HV. destruct (C91_fsmd f nm mc nw nch nmass Q order vs WF HV d b k p D Hb Hp) as (v & N0 & _ & S0 & _ & SF). exists v. split; [exact N0|]. split; [now apply SF|exact S0].
  - intros Acc i k b o c chan HI HC HA. apply In_nth_error in HI as [j Hj].
    assert (forall t Q, after f run oX (msReqs s) P t Q -> t <= length (msReqs s) -> 0 < t -> oX (outAt run (msReqs s) (t - 1)) (2 * j + 1) = 0%R /\ snd (pCoup Q i k b) = 0%R) as K; [|apply (K _ _ A); lia].
    intros t Q AQ. induction AQ as [|t Q Q' AQ IH HIm]; intros LT Lt; [lia|]. rewrite (import_any f nm mc nw nch nmass _ _ WF) in HIm. injection HIm as <-.
    destruct (layout_any (fmModel f) nm mc nw nch nmass (oX (outAt run (msReqs s) t)) Q (wmFit _ _ _ _ _ _ WF)) as (LC & _). rewrite (LC j i k b Hj). cbn [snd]. replace (S t - 1) with t by lia.
    assert (oX (outAt run (msReqs s) t) (2 * j + 1) = 0%R) as G; [|auto].
    destruct (HT t ltac:(lia)) as (order & Q2 & v & E1 & E2 & E3 & _ & E5).
    assert (firstn (S t) (msReqs s) = firstn t (msReqs s) ++ [(maxCalls - used run (msReqs s) t, v)]) as EF.
    { now apply firstn_next. }
    unfold outAt. rewrite EF. destruct R as [R1 R2]. destruct E5 as [[EH ->]|(NH & vs & -> & EI)].
    + assert (0 < t) as Lt'. { destruct t; [|lia]. exfalso. subst order. assert (minimize f run chi2 nPoint maxCalls rel P E = None) as N; [|congruence]. apply (C91_hesse_first f nm mc nw nch nmass); [exact WF|]. destruct rel as [|x r]; [discriminate|]. cbn in E1. injection E1 as ->. eauto. }
      rewrite R2 by (intros F; apply (f_equal (@length request)) in F; rewrite firstn_length in F; cbn in F; lia). destruct (IH ltac:(lia) Lt') as [I1 _]. unfold outAt in I1. replace (S (t - 1)) with t in I1 by lia. exact I1.
    + destruct (C91_couplings f nm mc nw nch nmass Q2 order vs WF EI j i k b o c chan Hj HC) as (w & re & im & _ & T). cbv zeta in T. destruct T as (_ & N1 & _ & _ & _ & _ & _ & SA & _). destruct (SA Acc HA) as [S1 S2]. rewrite (R1 _ _ _ _ _ N1 S2). exact S1.
  - intros i k HI. apply In_nth_error in HI as [j Hj]. destruct (length (msReqs s)) as [|n] eqn:EL; [lia|]. inversion A as [|t Q Q' AQ HIm]; subst. rewrite (import_any f nm mc nw nch nmass _ _ WF) in HIm. injection HIm as <-.
    destruct (layout_any (fmModel f) nm mc nw nch nmass (oX (outAt run (msReqs s) n)) Q (wmFit _ _ _ _ _ _ WF)) as (_ & LB & _). now apply (LB j).
Qed.
(* More free variables than data points: the difference of unsigned numbers wraps around, and the reduced chi-square is that of
   more than a thousand million degrees of freedom *)
Theorem C91_ndf_refuted f nm mc nw nch nmass run chi2 nPoint maxCalls rel P E s q : wfMin f nm mc nw nch nmass -> minimize f run chi2 nPoint maxCalls rel P E = Some (s, q) ->
  let nF := length (filter (fun v => match vSet v with Fixed => false | _ => true end) (msVars s)) in
  nPoint < nF -> (Z.of_nat nF < 2 ^ 31)%Z -> (qNdf q > 1000000000)%R /\ qRedChi2 q = Some (qChi2 q / qNdf q)%R.
Proof.
  intros WF H nF L SM. assert (nth_error (ordersOf rel) 0 <> Some (lit "hesse")) as H0.
  { intros F. assert (minimize f run chi2 nPoint maxCalls rel P E = None) as N; [|congruence]. apply (C91_hesse_first f nm mc nw nch nmass); [exact WF|]. destruct rel as [|x r]; [discriminate|]. cbn in F. injection F as ->. eauto. }
  destruct (minimize_run f nm mc nw nch nmass run chi2 nPoint maxCalls rel P E WF H0) as (s' & ES & _). rewrite H in ES. injection ES as <- ->. unfold fitQuality. cbn [qNdf qRedChi2 qChi2].
  change (nFreeVars (msVars s)) with nF. assert (((Z.of_nat nPoint - Z.of_nat nF) mod 2 ^ 32 = 2 ^ 32 + Z.of_nat nPoint - Z.of_nat nF)%Z) as EM. { symmetry. apply (Z.mod_unique _ _ (-1)); [left; lia|lia]. }
  rewrite EM. assert (IZR (2 ^ 32 + Z.of_nat nPoint - Z.of_nat nF) > 1000000000)%R as G by (apply Rlt_gt, IZR_lt; lia). split; [exact G|]. destruct (Req_EM_T _ 0); [lra|reflexivity].
Qed.
(* a release order that names nothing leaves the parameters of the final-state mass dependence free *)
Theorem C91_release_refuted f nm mc nw nch nmass P d b k p : wfMin f nm mc nw nch nmass -> mFsmd (fmModel f) = Some d -> b < (if fSame d then 1 else length (fFun d)) ->
  nth_error (nth b (fmFsmd f) []) k = Some p -> mpFixed p = false -> exists vs v, initParameters f P [] = Some vs /\ In v vs /\ vName v = lit "fsmd__bin" ++ dec b ++ lit "__" ++ mpName p /\ vSet v <> Fixed.
Proof.
  intros WF D Hb Hp HF. destruct (C91_variables f nm mc nw nch nmass P [] WF) as (vs & EI & _). destruct (C91_fsmd f nm mc nw nch nmass P [] vs WF EI d b k p D Hb Hp) as (v & N0 & NN & _ & S1 & _).
  exists vs, v. split; [exact EI|]. split; [eapply nth_error_In; eauto|]. split; [exact NN|]. rewrite (S1 HF). discriminate.
Qed.
