(* C93: integrals put into fit results, and removed from them. *)
From Coq Require Import String Ascii List ZArith Bool Reals Lia Lra.
From Coquelicot Require Import Complex.
From Verif Require Import PathModel StrModel CGBoxModel ParticleModel AmpIntModel AmpIntProofs LikSetModel LikSetProofs LikSetProps LikNormProps LikScaleProps LikIntProps FitResultModel FitStoreProps AddIntModel AddIntSpec AddIntProofs.
Import ListNotations.
Open Scope list_scope. Open Scope nat_scope.

(* C93: if all fit results have usable integrals, all are written, in order, with the same content but with the integrals of the two
   matrices; the acceptance of the last wave is the ratio of the numbers of events for the first fit result only *)
Theorem C93_added : forall force N A rs, (forall r, In r rs -> stored r /\ (force = true \/ without r) /\ exists ws last, wavesAre r ws last /\ usable N ws /\ covers A ws) ->
  exists outs, addToAll force N A rs = Done outs /\ length outs = length rs
  /\ forall k r ws last, nth_error rs k = Some r -> wavesAre r ws last -> exists s, nth_error outs k = Some s /\ stored s /\ sameFit r s /\ sameCov r s
       /\ integralsAre N A ws (if k =? 0 then IZR (nmbEvents A) / IZR (nmbEvents N) else 1)%R s.
Proof.
  intros force N A rs. revert A. induction rs as [|r rs IH]; intros A H.
  - exists []. split; [reflexivity|]. split; [reflexivity|]. intros [|k]; discriminate.
  - destruct (H r (or_introl eq_refl)) as (Hs & Hw & ws & last & Hwv & Hu & Hc). destruct (add_one force N A r ws last Hs Hw Hwv Hu Hc) as (s & E & P1 & P2 & P3 & P4).
    destruct (IH (setNmbEvents A (nmbEvents N))) as (outs & E' & L & K).
    { intros r' Hr'. destruct (H r' (or_intror Hr')) as (Q1 & Q2 & ws' & last' & Q3 & Q4 & Q5). split; [exact Q1|]. split; [exact Q2|]. exists ws', last'. split; [exact Q3|]. split; [exact Q4|]. exact Q5. }
    exists (s :: outs). cbn [addToAll]. rewrite E. cbn [andThen]. rewrite E'. cbn [andThen]. split; [reflexivity|]. split; [cbn; now rewrite L|].
    intros [|k] r' ws' last' Hk Hr'.
    + injection Hk as <-. exists s. cbn [nth_error Nat.eqb]. split; [reflexivity|]. destruct Hwv as [W1 W2], Hr' as [W1' W2']. rewrite W1 in W1'. apply app_inj_tail in W1' as [<- <-]. auto.
    + cbn [nth_error] in Hk. destruct (K k r' ws' last' Hk Hr') as (s' & K1 & K2 & K3 & K4 & K5). exists s'. cbn [nth_error Nat.eqb]. split; [exact K1|]. split; [exact K2|]. split; [exact K3|]. split; [exact K4|].
      replace (if k =? 0 then (IZR (nmbEvents (setNmbEvents A (nmbEvents N))) / IZR (nmbEvents N))%R else 1%R) with 1%R in K5; [exact K5|].
      cbn [nmbEvents setNmbEvents]. destruct (k =? 0); [|reflexivity]. field. apply not_0_IZR. destruct Hu as [Hu _]. lia.
Qed.

Lemma all_bad force N r : (forall A x, addToOne force N A r <> Done x) -> forall rs A outs, In r rs -> addToAll force N A rs <> Done outs.
Proof.
  intros B. induction rs as [|x rs IH]; intros A outs Hr H; [destruct Hr|]. cbn [addToAll] in H. destruct (addToOne force N A x) as [| |[s A']] eqn:E; try discriminate. cbn [andThen] in H.
  destruct (addToAll force N A' rs) as [| |o] eqn:E'; try discriminate. destruct Hr as [->|Hr]; [eapply B; eauto|eapply IH; eauto].
Qed.
(* C93: a fit result that has integrals is not overwritten without -f: nothing is written at all *)
Theorem C93_existing_kept : forall N A rs r outs, In r rs -> rows (frNorm r) <> 0 \/ cols (frNorm r) <> 0 \/ rows (frAcc r) <> 0 \/ cols (frAcc r) <> 0 \/ frPhaseSpace r <> [] ->
  addToAll false N A rs <> Done outs.
Proof.
  intros N A rs r outs Hr H. apply (all_bad false N r); [|exact Hr]. intros A' x. unfold addToOne. replace (AddIntModel.hasIntegrals r) with true; [discriminate|]. symmetry. unfold AddIntModel.hasIntegrals.
  destruct H as [H|[H|[H|[H|H]]]].
  - apply Nat.eqb_neq in H. rewrite H. cbn. now rewrite !orb_true_r.
  - apply Nat.eqb_neq in H. rewrite H. reflexivity.
  - apply Nat.eqb_neq in H. rewrite H. cbn. now rewrite !orb_true_r.
  - apply Nat.eqb_neq in H. rewrite H. cbn. now rewrite !orb_true_r.
  - destruct (frPhaseSpace r); [congruence|]. cbn. now rewrite !orb_true_r.
Qed.
(* C93: a flat wave that is not the last one, a wave whose name tells no reflectivity, or one that an integral does not have: nothing is written *)
Theorem C93_bad_wave : forall force N A rs r ws last a outs, In r rs -> frWaveNames r = ws ++ [last] -> In a ws ->
  a = lit "flat" \/ getReflectivity a = None \/ ~ In a (waveNames N) \/ ~ In a (waveNames A) -> addToAll force N A rs <> Done outs.
Proof.
  intros force N A rs r ws last a outs Hr Hw Ha H.
  assert (G : forall A', waveNames A' = waveNames A -> forall x, addToOne force N A' r <> Done x).
  { intros A' EA x. unfold addToOne. destruct (AddIntModel.hasIntegrals r && negb force); [discriminate|]. cbv zeta. rewrite Hw, app_length. cbn [length]. replace (length ws + 1) with (S (length ws)) by lia. cbn [Nat.eqb].
    destruct (takeElements (ws ++ [last]) N (setNmbEvents A' (nmbEvents N)) (S (length ws))) as [| |s] eqn:E; try discriminate. exfalso. revert E. unfold takeElements. replace (S (length ws) - 1) with (length ws) by lia.
    apply In_nth_error in Ha as [i Hi]. assert (Li : i < length ws) by (apply nth_error_Some; congruence).
    apply (loop_bad _ _ i); [apply in_seq; lia|]. intros t t'. rewrite nth_error_app1 by lia. rewrite Hi. cbn [call]. destruct (str_eqb a (lit "flat")) eqn:Ef; [discriminate|].
    apply (loop_bad _ _ i); [apply in_seq; lia|]. intros u u'. unfold takeElement. rewrite nth_error_app1 by lia. rewrite Hi. cbn [call]. rewrite Ef.
    destruct (getReflectivity a) as [ra|] eqn:Er; [|discriminate]. cbn [call]. rewrite Z.eqb_refl.
    destruct H as [->|[H|[H|H]]]; [rewrite str_eqb_refl in Ef; discriminate|discriminate| |].
    - unfold elementByName, waveIndex. destruct (findIdx a (waveNames N)) as [q|] eqn:Eq; [|discriminate]. apply findIdx_spec in Eq as [Eq _]. destruct H. eapply nth_error_In; eauto.
    - destruct (elementByName N a a); [|discriminate]. cbn [call]. unfold elementByName, waveIndex. cbn [waveNames setNmbEvents]. destruct (findIdx a (waveNames A')) as [q|] eqn:Eq; [|discriminate].
      apply findIdx_spec in Eq as [Eq _]. destruct H. rewrite <- EA. eapply nth_error_In; eauto. }
  revert A outs H G Hr. induction rs as [|y rs IH]; intros A outs H G Hr X; [destruct Hr|]. cbn [addToAll] in X. destruct (addToOne force N A y) as [| |[s A']] eqn:E; try discriminate. cbn [andThen] in X.
  destruct (addToAll force N A' rs) as [| |o] eqn:E'; try discriminate. destruct Hr as [->|Hr]; [eapply G; eauto|].
  assert (EA : waveNames A' = waveNames A). { revert E. unfold addToOne. destruct (_ && _); [discriminate|]. cbv zeta. destruct (length (frWaveNames y) =? 0); [discriminate|]. destruct (takeElements _ _ _ _); try discriminate. cbn [andThen]. intros E. injection E as _ <-. reflexivity. }
  apply (IH A' o); [now rewrite EA| |exact Hr|exact E']. intros B EB. apply G. congruence.
Qed.

(* C93: without integrals, everything else stays; the covariance matrix and the Hessian flag go with -c, and the flag of a fit whose
   covariance matrix is not valid goes in any case *)
Theorem C93_strip : forall stripCov rs, (forall r, In r rs -> stored r) -> length (stripAll stripCov rs) = length rs /\
  forall k r, nth_error rs k = Some r -> exists s, nth_error (stripAll stripCov rs) k = Some s /\ sameFit r s /\ without s /\ (forall i, frIdxMap s i = None)
    /\ frHasHessian s = (negb stripCov && frCovValid r)%bool
    /\ (stripCov = false -> frCovValid r = true -> sameCov r s) /\ (stripCov = true -> frCovValid s = false /\ frCov s = emptyR).
Proof.
  intros stripCov rs H. unfold stripAll. split; [apply map_length|]. intros k r Hk. eexists. split; [apply map_nth_error; exact Hk|]. destruct (H r (nth_error_In _ _ Hk)) as [a St].
  change (frReset frNew) with frNew. set (s := fillFromResult frNew r (negb stripCov) false).
  assert (NA : frAmpNames r = faAmpNames a) by (rewrite St; unfold fill; destruct (fillWaves _ _ _ _); reflexivity).
  assert (W : frWaveNames s = frWaveNames r) by (unfold s, fillFromResult; rewrite fill_waves; cbn [faAmpNames]; rewrite NA, St, fill_waves; reflexivity).
  assert (CV : frCovValid r = true -> rows (frCov r) <> 0 /\ cols (frCov r) <> 0 /\ frHasHessian r = true).
  { rewrite St. unfold fill. destruct (fillWaves _ _ _ _). cbn. destruct (faCov a) as [c|]; [|discriminate]. destruct (Nat.eqb_spec (rows c) 0), (Nat.eqb_spec (cols c) 0); cbn; try discriminate. auto. }
  revert W. unfold s, fillFromResult, fill. cbn [andb faCov faNorm faAcc faPhaseSpace faAmpNames]. destruct (fillWaves _ _ _ _) as [w m]. cbn [frWaveNames]. intros W.
  split; [unfold sameFit; cbn; rewrite W; tauto|]. split; [unfold without; cbn; auto|]. split; [reflexivity|].
  cbn [frHasHessian frCovValid frCov faHasHessian]. clear St. unfold sameCov. cbn [frHasHessian frCovValid frCov]. destruct stripCov; cbn [negb andb].
  - split; [reflexivity|]. split; [discriminate|]. auto.
  - destruct (frCovValid r) eqn:E; cbn [faHasHessian].
    + destruct (CV eq_refl) as (R & Cc & Hh). apply Nat.eqb_neq in R, Cc. rewrite R, Cc. cbn. split; [reflexivity|]. split; [|discriminate]. intros _ _. auto.
    + split; [reflexivity|]. split; discriminate.
Qed.

(* C93: what is put into a fit result without integrals is what the likelihood with normalised amplitudes would have put there: the
   matrices and phase-space integrals it hands out after a set-up with the same two integrals and without override *)
Theorem C93_as_fitted : forall force ws rank mass N A amps st Nm Am ph r, let h := setup true ws rank mass N A 0 amps in
  runs h = Some (st, okAll h) -> getIntegralMatrices st true = Some (Nm, Am, ph) ->
  stored r -> (force = true \/ without r) -> frWaveNames r = map wiName (waveOrder ws) ++ [lit "flat"] ->
  (forall x, In x (waveOrder ws) -> wiName x <> lit "flat" /\ getReflectivity (wiName x) = Some (wiRefl x)) ->
  usable N (map wiName (waveOrder ws)) -> covers A (map wiName (waveOrder ws)) ->
  exists s, addToAll force N A [r] = Done [s] /\ forall p, p <= length ws ->
    nth_error (frPhaseSpace s) p = nth_error ph p /\ forall q, q <= length ws -> elem Nm p q = Some (el (frNorm s) p q) /\ elem Am p q = Some (el (frAcc s) p q).
Proof.
  intros force ws rank mass N A amps st Nm Am ph r h H G St Hw Wn Nf Us Cv.
  destruct (C68_flat_row _ _ _ _ _ _ _ _ _ _ _ _ H G) as (N0 & A0 & ph0 & tot & G0 & Ht & I1 & I2 & I3 & I4 & I5 & _). cbn [Z.eqb] in Ht.
  destruct (C68_matrices_by_name _ _ _ _ _ _ _ _ _ _ _ _ H G0) as (L1 & L2 & L3 & M). cbn [Z.eqb] in M.
  assert (Wv : wavesAre r (map wiName (waveOrder ws)) (lit "flat")).
  { split; [exact Wn|]. split.
    - intros I. apply in_map_iff in I as (x & E & Hx). now destruct (Nf x Hx).
    - intros a I. apply in_map_iff in I as (x & <- & Hx). destruct (Nf x Hx) as [_ ->]. discriminate. }
  destruct (add_one force N A r _ _ St Hw Wv Us Cv) as (s & E & _ & _ & _ & IA). exists s. cbn [addToAll]. rewrite E. cbn [andThen]. split; [reflexivity|].
  unfold integralsAre in IA. cbv zeta in IA. rewrite map_length in IA. set (n := length (waveOrder ws)) in *.
  assert (Ln : n = length ws).
  { destruct (LikIntProps.setup_before _ _ _ _ _ _ _ _ _ H) as (s1 & _ & _ & Hr & _). clear - Hr. unfold n, waveOrder. rewrite app_length. induction ws as [|w ws IH]; [reflexivity|]. cbn [filter]. assert (IH' := IH (fun w' Hw' => Hr w' (or_intror Hw'))).
    destruct (Hr w (or_introl eq_refl)) as [E|E]; rewrite E; cbn [Z.eqb Pos.eqb]; cbn [length]; lia. }
  destruct IA as (_ & _ & _ & _ & _ & J & K & K1 & K2 & K3 & _). rewrite <- Ln in *.
  assert (P : forall p x, nth_error (waveOrder ws) p = Some x -> nth_error (map wiName (waveOrder ws)) p = Some (wiName x)) by (intros p x Hx; now apply map_nth_error).
  destruct Us as (He & [LN CN] & Pos).
  assert (PosN : forall x d, In x (waveOrder ws) -> integralOf N (nmbEvents N) (wiName x) (wiName x) d -> (0 < Re d)%R).
  { intros x d Hx Hd. destruct Hd as (i & j & z & A1 & A2 & A3 & A4 & A5 & ->). assert (Q : (0 < Re (z / RtoC (IZR 1))%C)%R). { apply (Pos (wiName x)); [now apply in_map|]. exists i, j, z. auto 10. }
    assert (E0 : (0 < IZR (nmbEvents N))%R) by (apply IZR_lt; lia). revert Q. rewrite (div1 z). destruct z as [u v]. unfold Cdiv. rewrite <- RtoC_inv by lra. cbn. intros Q. rewrite Rmult_0_r, Rminus_0_r. apply Rmult_lt_0_compat; [exact Q|]. now apply Rinv_0_lt_compat. }
  assert (Nz : forall d, (0 < Re d)%R -> normOfInt d = sqrt (Re d)). { intros d Hd. unfold normOfInt. destruct (Req_EM_T (Re d) 0); [lra|reflexivity]. }
  assert (Tot : tot = (IZR (nmbEvents A) / IZR (nmbEvents N))%R). { revert Ht. unfold LikModel.odiv. destruct (Req_EM_T _ _); [discriminate|]. intros Ht. injection Ht as <-. reflexivity. }
  intros p Hp. split.
  - destruct (Nat.eq_dec p n) as [->|Np]; [now rewrite K3, I5|]. destruct (I2 p ltac:(lia)) as (_ & _ & _ & _ & ->).
    destruct (nth_error (waveOrder ws) p) as [x|] eqn:Ex; [|apply nth_error_None in Ex; fold n in Ex; lia]. destruct (M p x Ex) as [(d & Hd & ->) _]. now apply (J p p _ _ d d (P _ _ Ex) (P _ _ Ex) Hd Hd).
  - intros q Hq. destruct (Nat.eq_dec p n) as [->|Np].
    + destruct (Nat.eq_dec q n) as [->|Nq]; [rewrite K1, K2, I3, I4, Tot; auto|]. destruct (I2 q ltac:(lia)) as (_ & -> & _ & -> & _). destruct (K q ltac:(lia)) as (_ & -> & _ & ->). auto.
    + destruct (Nat.eq_dec q n) as [->|Nq]; [destruct (I2 p ltac:(lia)) as (-> & _ & -> & _ & _); destruct (K p ltac:(lia)) as (-> & _ & -> & _); auto|].
      destruct (I1 p q ltac:(lia) ltac:(lia)) as [-> ->].
      destruct (nth_error (waveOrder ws) p) as [x|] eqn:Ex; [|apply nth_error_None in Ex; fold n in Ex; lia]. destruct (nth_error (waveOrder ws) q) as [y|] eqn:Ey; [|apply nth_error_None in Ey; fold n in Ey; lia].
      destruct (M p x Ex) as [(dx & Hdx & _) Mq]. destruct (Mq q y Ey) as (vn & va & -> & -> & Hn & Ha). destruct (M q y Ey) as [(dy & Hdy & _) _].
      destruct (J p q _ _ dx dy (P _ _ Ex) (P _ _ Ey) Hdx Hdy) as (_ & Jd & Js).
      assert (Ix : In x (waveOrder ws)) by (eapply nth_error_In; eauto). assert (Iy : In y (waveOrder ws)) by (eapply nth_error_In; eauto).
      destruct (Nf x Ix) as [_ Rx]. destruct (Nf y Iy) as [_ Ry]. rewrite Rx, Ry in Jd, Js. unfold isNormElem, isAccElem in *. destruct (Z.eqb_spec (wiRefl x) (wiRefl y)) as [E1|E1].
      * destruct (Js ltac:(congruence)) as [Jn Ja]. destruct Hn as (v & dx' & dy' & B1 & B2 & B3 & ->). destruct Ha as (w & dx2 & dy2 & C1 & C2 & C3 & ->).
        rewrite <- (integralOf_fun _ _ _ _ _ _ Hdx C2), <- (integralOf_fun _ _ _ _ _ _ Hdy C3). rewrite <- (integralOf_fun _ _ _ _ _ _ Hdx B2), <- (integralOf_fun _ _ _ _ _ _ Hdy B3).
        rewrite (Jn v B1), (Ja w C1). pose proof (PosN x dx Ix Hdx) as Px. pose proof (PosN y dy Iy Hdy) as Py. rewrite !Nz by assumption. split; [|reflexivity]. f_equal.
        destruct (p =? q); [|reflexivity]. replace (Ceqb dx (RtoC 0)) with false; [reflexivity|]. symmetry. apply Czero_false. intros X. rewrite X in Px. cbn in Px. lra.
      * destruct (Jd ltac:(congruence)) as [-> ->]. rewrite Hn, Ha. auto.
Qed.

(* ---- concrete cases ---- *)
Definition exW : str := lit "1-0-+0+rho".
Definition exN : aim := AIM 1 [exW] 4 [[RtoC 16]].
Definition exA : aim := AIM 1 [exW] 2 [[RtoC 8]].
Definition exR (names : list str) : fitResult := fill frNew (FA 10 20 [] 0 1 (map (fun _ => RtoC 1) names) names None [] None None None true true).
Definition exFit : fitResult := exR [ampName 0 exW; flatName].
Lemma ex_int m z v e : m = AIM 1 [exW] e [[z]] -> forall k, v = (z / RtoC (IZR k))%C -> integralOf m k exW exW v.
Proof. intros -> k ->. exists 0, 0, z. cbn. repeat split; auto; intros k0 H; lia. Qed.
Lemma ex_ok : stored exFit /\ without exFit /\ wavesAre exFit [exW] (lit "flat") /\ usable exN [exW] /\ covers exA [exW].
Proof.
  assert (C : forall z e, covers (AIM 1 [exW] e [[z]]) [exW]). { intros z e. split; [reflexivity|]. intros a b [<-|[]] [<-|[]]. eexists. eapply ex_int; reflexivity. }
  split; [eexists; reflexivity|]. split; [repeat split|]. split; [|split; [|apply C]].
  - split; [reflexivity|]. split; [intros [H|[]]; discriminate H|]. intros a [<-|[]]. discriminate.
  - split; [reflexivity|]. split; [apply C|]. intros a v [<-|[]] Hv. rewrite (integralOf_fun _ _ _ _ _ _ Hv (ex_int exN (RtoC 16) _ 4 eq_refl 1 eq_refl)). rewrite (div1 (RtoC 16)). cbn. lra.
Qed.
Example C93_ex : (forall r, In r [exFit; exFit] -> stored r /\ (false = true \/ without r) /\ exists ws last, wavesAre r ws last /\ usable exN ws /\ covers exA ws).
Proof. destruct ex_ok as (A & B & C & D & E). intros r [<-|[<-|[]]]; (split; [exact A|]; split; [now right|]; exists [exW], (lit "flat"); auto). Qed.
Example C93_strip_ex : stored exFit /\ rows (frNorm (exR [])) = 0.
Proof. split; [apply ex_ok|reflexivity]. Qed.
(* C93: without -f, fit results with integrals stay: a fit result that has them *)
Example C93_existing_ex : exists r, addToAll false exN exA [exFit] = Done [r] /\ forall outs, addToAll false exN exA [r] <> Done outs.
Proof.
  destruct (C93_added false exN exA [exFit]) as (outs & E & L & K). { intros r [<-|[]]. apply C93_ex. now left. }
  destruct outs as [|s [|]]; try discriminate L. exists s. split; [exact E|]. intros outs. apply (C93_existing_kept _ _ _ s); [now left|].
  destruct ex_ok as (_ & _ & W & _). destruct (K 0 exFit _ _ eq_refl W) as (s' & Es & _ & _ & _ & R & _). injection Es as <-. left. rewrite R. cbn. lia.
Qed.

(* C93 does not hold for the acceptance: two fit results with the same content get different acceptances of the flat wave: the ratio of the
   numbers of events, 1/2, and 1 *)
Theorem C93_second_acceptance_refuted : exists N A r s0 s1, stored r /\ without r /\ addToAll false N A [r; r] = Done [s0; s1]
  /\ (IZR (nmbEvents A) / IZR (nmbEvents N) = 1 / 2)%R /\ nth_error (frWaveNames r) 1 = Some (lit "flat")
  /\ el (frAcc s0) 1 1 = RtoC (1 / 2) /\ el (frAcc s1) 1 1 = RtoC 1.
Proof.
  destruct (C93_added false exN exA [exFit; exFit] C93_ex) as (outs & E & L & K). destruct outs as [|s0 [|s1 [|]]]; try discriminate L. destruct ex_ok as (St & Wi & W & _).
  exists exN, exA, exFit, s0, s1. split; [exact St|]. split; [exact Wi|]. split; [exact E|]. split; [cbn; lra|]. split; [reflexivity|].
  destruct (K 0 exFit _ _ eq_refl W) as (t0 & E0 & _ & _ & _ & I0). destruct (K 1 exFit _ _ eq_refl W) as (t1 & E1 & _ & _ & _ & I1). injection E0 as <-. injection E1 as <-.
  cbn [Nat.eqb] in I0, I1. destruct I0 as (_ & _ & _ & _ & _ & _ & _ & _ & I0 & _). destruct I1 as (_ & _ & _ & _ & _ & _ & _ & _ & I1 & _). cbn [length] in I0, I1. rewrite I0, I1. split; [|reflexivity]. f_equal. cbn. lra.
Qed.
(* C93 does not hold for fit results without a flat wave: the last wave, here the only one, is taken for it, whatever its integral *)
Theorem C93_last_wave_refuted : exists N A r s w v, stored r /\ frWaveNames r = [w] /\ w <> lit "flat" /\ integralOf N (nmbEvents N) w w v /\ (sqrt (Re v) = 2)%R
  /\ addToAll false N A [r] = Done [s] /\ frPhaseSpace s = [1%R] /\ el (frNorm s) 0 0 = RtoC 1.
Proof.
  set (r := exR [ampName 0 exW]). assert (W : wavesAre r [] exW). { split; [reflexivity|]. split; [intros []|]. intros a []. }
  destruct (C93_added false exN exA [r]) as (outs & E & L & K).
  { intros x [<-|[]]. split; [eexists; reflexivity|]. split; [right; repeat split|]. exists [], exW. split; [exact W|]. split; [split; [reflexivity|]; split; [split; [reflexivity|]; intros a b []|intros a v []]|split; [reflexivity|]; intros a b []]. }
  destruct outs as [|s [|]]; try discriminate L. destruct (K 0 r _ _ eq_refl W) as (t & Et & _ & _ & _ & I). injection Et as <-.
  exists exN, exA, r, s, exW, (RtoC 16 / RtoC (IZR 4))%C. split; [eexists; reflexivity|]. split; [reflexivity|]. split; [discriminate|]. split; [eapply ex_int; reflexivity|].
  split. { unfold Cdiv. rewrite <- RtoC_inv by lra. cbn. replace (16 * / 4 - 0 * 0)%R with (2 * 2)%R by lra. apply sqrt_square. lra. }
  split; [exact E|]. destruct I as (_ & _ & _ & _ & Lp & _ & _ & I1 & _ & I3 & _). cbn [length] in *. split; [|exact I1].
  destruct (frPhaseSpace s) as [|x [|]]; try discriminate Lp. cbn in I3. congruence.
Qed.
Example C93_bad_wave_ex : stored (exR [flatName; ampName 0 exW]) /\ frWaveNames (exR [flatName; ampName 0 exW]) = [lit "flat"] ++ [exW].
Proof. split; [eexists; reflexivity|reflexivity]. Qed.
