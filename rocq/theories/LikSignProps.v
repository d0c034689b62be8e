(* C40: CorrectParamSigns *)
From Coq Require Import List ZArith Reals Lia Lra Bool.
From Coquelicot Require Import Complex.
From Verif Require Import ArrayModel PathModel CGBoxModel FitErrModel FitErrProps AmpIntProofs LikParModel LikParProofs LikParProps LikModel LikGradProofs LikGradProps.
Import ListNotations.
Open Scope R_scope.

(* ---- the flips ---- *)
Definition neg (amps : idx -> C) (r e : nat) : bool :=
  if Rlt_dec (Re (amps (r, e, r))) 0 then (if Req_EM_T (Im (amps (r, e, r))) 0 then true else false) else false.
Definition flipped (sh : shape) (amps : idx -> C) (t : idx) : C :=
  if (wv t <? shWaves sh (rf t))%nat && neg amps (rk t) (rf t) then Copp (amps t) else amps t.
Definition flipIn (sh : shape) (amps : idx -> C) (l : list (nat * nat)) (t : idx) : C :=
  if existsb (fun p => (fst p =? rk t) && (snd p =? rf t))%nat l then flipped sh amps t else amps t.

Lemma flipRow (r e : nat) n : forall (amps : idx -> C) t, fold_left (fun a w => upd a (r, e, w) (Copp (a (r, e, w)))) (List.seq 0 n) amps t =
  if (r =? rk t)%nat && (e =? rf t)%nat && (wv t <? n)%nat then Copp (amps t) else amps t.
Proof.
  induction n as [|n IH]; intros amps t.
  - cbn [fold_left List.seq]. destruct (Nat.ltb_spec (wv t) 0); [lia|]. now rewrite andb_false_r.
  - rewrite seq_S, fold_left_app. cbn [fold_left plus]. set (A := fold_left _ _ _) in *. unfold upd at 1. destruct (idx_eqb_spec t (r, e, n)) as [->|Hn].
    + unfold A. rewrite IH. unfold rk, rf, wv; cbn [fst snd]. rewrite !Nat.eqb_refl. cbn [andb]. destruct (Nat.ltb_spec n n); [lia|]. destruct (Nat.ltb_spec n (S n)); [reflexivity|lia].
    + unfold A. rewrite IH. destruct (Nat.eqb_spec r (rk t)), (Nat.eqb_spec e (rf t)); cbn [andb]; try reflexivity.
      destruct (Nat.ltb_spec (wv t) n), (Nat.ltb_spec (wv t) (S n)); try reflexivity; try lia.
      exfalso. apply Hn. destruct t as [[a b] c]; unfold rk, rf, wv in *; cbn in *. subst. repeat f_equal; lia.
Qed.
Lemma flipStep_spec sh r e amps : anchorInside sh r = true ->
  exists a', flipStep sh (r, e) amps = Some a' /\ forall t, a' t = if (r =? rk t)%nat && (e =? rf t)%nat then flipped sh amps t else amps t.
Proof.
  intros H. unfold flipStep. rewrite H. unfold flipped, neg.
  destruct (Rlt_dec (Re (amps (r, e, r))) 0) as [H1|H1]; [destruct (Req_EM_T (Im (amps (r, e, r))) 0) as [H2|H2]|]; eexists; (split; [reflexivity|]); intros t.
  - rewrite flipRow. destruct (Nat.eqb_spec r (rk t)) as [<-|], (Nat.eqb_spec e (rf t)) as [<-|]; cbn [andb]; try reflexivity.
    destruct (Rlt_dec (Re (amps (r, e, r))) 0); [|contradiction]. destruct (Req_EM_T (Im (amps (r, e, r))) 0); [|contradiction]. now rewrite andb_true_r.
  - destruct (Nat.eqb_spec r (rk t)) as [<-|], (Nat.eqb_spec e (rf t)) as [<-|]; cbn [andb]; try reflexivity.
    destruct (Rlt_dec (Re (amps (r, e, r))) 0); [|contradiction]. destruct (Req_EM_T (Im (amps (r, e, r))) 0); [contradiction|]. now rewrite andb_false_r.
  - destruct (Nat.eqb_spec r (rk t)) as [<-|], (Nat.eqb_spec e (rf t)) as [<-|]; cbn [andb]; try reflexivity.
    destruct (Rlt_dec (Re (amps (r, e, r))) 0); [contradiction|]. now rewrite andb_false_r.
Qed.
Lemma flipFold sh l : NoDup l -> (forall p, In p l -> anchorInside sh (fst p) = true) -> forall amps,
  exists a', foldO (flipStep sh) l amps = Some a' /\ forall t, a' t = flipIn sh amps l t.
Proof.
  induction l as [|[r e] l IH]; intros Hn Hi amps; [exists amps; split; reflexivity|]. apply NoDup_cons_iff in Hn as [Hnt Hn]. cbn [foldO].
  destruct (flipStep_spec sh r e amps (Hi (r, e) (or_introl eq_refl))) as (a1 & E1 & A1). rewrite E1. cbn [bnd].
  destruct (IH Hn (fun p Hp => Hi p (or_intror Hp)) a1) as (a2 & E2 & A2). rewrite E2. exists a2. split; [reflexivity|]. intros t. rewrite A2. unfold flipIn. cbn [existsb fst snd].
  destruct ((r =? rk t)%nat && (e =? rf t)%nat) eqn:Ere; cbn [orb].
  - assert (Hne : existsb (fun p => (fst p =? rk t)%nat && (snd p =? rf t)%nat) l = false).
    { destruct (existsb _ l) eqn:Eex; [|reflexivity]. apply existsb_exists in Eex as ([r' e'] & Hp & Hb). cbn in Hb. apply andb_true_iff in Ere as [X1 X2], Hb as [Y1 Y2]. apply Nat.eqb_eq in X1, X2, Y1, Y2. subst. contradiction. }
    rewrite Hne, A1, Ere. reflexivity.
  - destruct (existsb _ l); [|rewrite A1, Ere; reflexivity]. unfold flipped, neg. rewrite !A1.
    change (rk (rk t, rf t, rk t)) with (rk t). change (rf (rk t, rf t, rk t)) with (rf t). rewrite Ere. reflexivity.
Qed.
Lemma pairs_NoDup n : NoDup (flat_map (fun r => [(r, 0); (r, 1)]) (List.seq 0 n))%nat.
Proof.
  apply NoDup_flat_map; [apply seq_NoDup| |].
  - intros x _. constructor; [|constructor; [intros []|constructor]]. intros [H|[]]. inversion H.
  - intros x y z Hx Hy [H|[H|[]]] [H'|[H'|[]]]; subst; inversion H'; congruence.
Qed.
Lemma pairs_In n r e : In (r, e) (flat_map (fun r => [(r, 0); (r, 1)]) (List.seq 0 n))%nat <-> (r < n /\ e < 2)%nat.
Proof.
  rewrite in_flat_map. split.
  - intros (x & Hx & [H|[H|[]]]); apply in_seq in Hx; inversion H; subst; lia.
  - intros [H1 H2]. exists r. split; [apply in_seq; lia|]. destruct e as [|[|]]; [now left|right; now left|lia].
Qed.

Lemma neg_inv amps r e : neg amps r e = true -> Re (amps (r, e, r)) < 0 /\ Im (amps (r, e, r)) = 0.
Proof. unfold neg. destruct (Rlt_dec _ _); [|discriminate]. destruct (Req_EM_T _ _); [auto|discriminate]. Qed.
Lemma neg_false amps r e : neg amps r e = false -> Im (amps (r, e, r)) = 0 -> 0 <= Re (amps (r, e, r)).
Proof. unfold neg. destruct (Rlt_dec _ _); [|intros; lra]. destruct (Req_EM_T _ _); [discriminate|contradiction]. Qed.

(* ---- what the call returns ---- *)
Definition flatPos (f : R) : R := if Rlt_dec f 0 then - f else f.
Lemma flatPos_nonneg f : 0 <= flatPos f. Proof. unfold flatPos. destruct (Rlt_dec f 0); lra. Qed.
Lemma flatPos_sq f : flatPos f * flatPos f = f * f. Proof. unfold flatPos. destruct (Rlt_dec f 0); ring. Qed.

Lemma correct_spec sh names thr mass d par : buildParDataStruct sh names thr mass = Some d -> Z.of_nat (length par) = nmbPars sh ->
  (shRank sh <= Nat.max (shWaves sh 0) (shWaves sh 1))%nat ->
  exists P f par' P', copyFromParArray sh par = Some (P, f) /\ correctParamSigns sh (pdMap d) par = Some par' /\ Z.of_nat (length par') = nmbPars sh
    /\ copyFromParArray sh par' = Some (P', flatPos f) /\ (forall t, P' t = flipped sh P t)
    /\ (forall r e, Im (P (r, e, r)) = 0) /\ (forall t, ~ In t (loopWaves sh) -> P t = RtoC 0).
Proof.
  intros Hd Hl Hr. destruct (from_spec sh par ltac:(lia)) as (P & f & Ec & F0 & F1 & F2 & F3). exists P, f.
  assert (Him : forall r e, Im (P (r, e, r)) = 0).
  { intros r e. destruct (in_dec (fun a b : idx => match idx_eqb_spec a b with ReflectT e => left e | ReflectF n => right n end) (r, e, r) (loopWaves sh)) as [Hi|Hi].
    - apply (F2 (r, e, r) false Hi). intros H. apply comps_In in H as [_ H]. unfold rk, wv in H; cbn in H. lia.
    - rewrite F3 by exact Hi. reflexivity. }
  unfold correctParamSigns. rewrite Ec. cbn [bnd]. fold (flatPos f).
  destruct (flipFold sh (flat_map (fun r => [(r, 0); (r, 1)]) (List.seq 0 (shRank sh)))%nat (pairs_NoDup _)) with (amps := P) as (a' & E' & A').
  { intros [r e] Hp. apply pairs_In in Hp. unfold anchorInside. cbn [fst]. apply Nat.ltb_lt. lia. }
  rewrite E'. cbn [bnd].
  assert (Ha : forall t, a' t = flipped sh P t).
  { intros t. rewrite A'. unfold flipIn. destruct (existsb _ _) eqn:Ex; [reflexivity|]. unfold flipped. destruct (neg P (rk t) (rf t)) eqn:En; [|now rewrite andb_false_r].
    assert (Ht : ~ In t (loopWaves sh)).
    { intros Ht. assert (Hx : existsb (fun p => (fst p =? rk t)%nat && (snd p =? rf t)%nat) (flat_map (fun r => [(r, 0); (r, 1)]) (List.seq 0 (shRank sh)))%nat = true); [|congruence].
      apply existsb_exists. exists (rk t, rf t). split; [|cbn; now rewrite !Nat.eqb_refl]. apply pairs_In. destruct t as [[r e] w]. apply loopWaves_In in Ht. unfold rk, rf; cbn. tauto. }
    rewrite F3 by exact Ht. destruct (_ && _); [|reflexivity]. unfold Copp, RtoC. cbn. now rewrite Ropp_0. }
  destruct (C36_round_trip_amplitudes sh names thr mass d a' (flatPos f) (repeat 0 (Z.to_nat (nmbPars sh))) Hd) as (par' & Et & Lt & P' & Ef & Ep).
  { rewrite repeat_length. rewrite nmbPars_comps. lia. }
  { intros t Ht. rewrite Ha. unfold flipped. split; intros H.
    - assert (Pz : P t = RtoC 0).
      { pose proof (F2 t true Ht) as X. pose proof (F2 t false Ht) as Y. rewrite !comps_In in X, Y. cbn [part] in X, Y.
        specialize (X ltac:(intros [_ ?]; lia)). specialize (Y ltac:(intros [_ ?]; lia)). destruct (P t); unfold Re, Im in *; cbn in *; now subst. }
      rewrite Pz. destruct (_ && _); [|reflexivity]. unfold Copp, RtoC. cbn. now rewrite Ropp_0.
    - assert (Q : Im (P t) = 0) by (destruct t as [[r e] w]; unfold rk, wv in H; cbn in H; subst; apply Him). destruct (_ && _); [|exact Q]. unfold Copp, Im in *. cbn. rewrite Q. apply Ropp_0. }
  exists par', P'. split; [reflexivity|]. split; [exact Et|]. split; [exact Lt|]. split; [exact Ef|]. split; [|auto].
  intros t. destruct (in_dec (fun a b : idx => match idx_eqb_spec a b with ReflectT e => left e | ReflectF n => right n end) t (loopWaves sh)) as [Hi|Hi].
  - now rewrite Ep, Ha.
  - destruct (from_spec sh par' ltac:(lia)) as (P2 & f2 & Ec2 & _ & _ & _ & G3). assert (P2 = P') by congruence. subst P2. rewrite G3 by exact Hi. unfold flipped. rewrite F3 by exact Hi.
    destruct (_ && _); [|reflexivity]. unfold Copp, RtoC. cbn. now rewrite Ropp_0.
Qed.

(* ---- the likelihood only sees the amplitudes of one rank and reflectivity up to a sign ---- *)
Lemma Copp_mult_l (a b : C) : (Copp a * b = Copp (a * b))%C. Proof. ring. Qed.
Lemma csumN_opp g n : csumN (fun w => Copp (g w)) n = Copp (csumN g n).
Proof. induction n as [|n IH]; cbn [csumN]; [unfold Copp, RtoC; cbn; now rewrite Ropp_0|]. rewrite IH. ring. Qed.
Lemma evt_flip lk P f k : evtLik lk (flipped (lkShape lk) P) (flatPos f) k = evtLik lk P f k.
Proof.
  unfold evtLik. rewrite flatPos_sq. f_equal. apply rsumN_ext; intros r _. apply rsumN_ext; intros e _. unfold ampProdSum. destruct (neg P r e) eqn:En.
  - rewrite (csumN_ext _ (fun w => Copp (P (r, e, w) * lkDec lk e k w)%C)).
    + rewrite csumN_opp. destruct (csumN _ _). unfold normSq, Copp, Re, Im. cbn. ring.
    + intros w Hw. unfold flipped, rk, rf, wv. cbn [fst snd]. rewrite (proj2 (Nat.ltb_lt _ _) Hw), En. cbn [andb]. apply Copp_mult_l.
  - rewrite (csumN_ext _ (fun w => (P (r, e, w) * lkDec lk e k w)%C)); [reflexivity|]. intros w Hw. unfold flipped, rk, rf, wv. cbn [fst snd]. now rewrite En, andb_false_r.
Qed.
Lemma norm_flip lk P f : normFactor lk (flipped (lkShape lk) P) (flatPos f) = normFactor lk P f.
Proof.
  unfold normFactor. rewrite flatPos_sq. f_equal. apply rsumN_ext; intros r _. apply rsumN_ext; intros e _. apply rsumN_ext; intros i Hi. apply rsumN_ext; intros j Hj.
  unfold flipped, rk, rf, wv. cbn [fst snd]. rewrite (proj2 (Nat.ltb_lt _ _) Hi), (proj2 (Nat.ltb_lt _ _) Hj). destruct (neg P r e); cbn [andb]; [|reflexivity].
  destruct (P (r, e, i)), (P (r, e, j)), (lkAcc lk e i j). unfold Copp, Cconj, Cmult, Re. cbn. ring.
Qed.
Lemma prior_flip lk P : priorValue lk (flipped (lkShape lk) P) = priorValue lk P.
Proof.
  unfold priorValue. destruct (lkPrior lk); [reflexivity|]. unfold osumWaves.
  assert (E : forall f g n, (forall k, f k = g k) -> osum f n = osum g n) by (intros f g n H; induction n as [|n IH]; cbn [osum]; [reflexivity|now rewrite IH, H]).
  apply E; intros r. apply E; intros e. apply E; intros w. unfold priorTerm. replace (Cmod (flipped (lkShape lk) P (r, e, w))) with (Cmod (P (r, e, w))); [reflexivity|].
  unfold flipped. destruct (_ && _); [now rewrite Cmod_opp|reflexivity].
Qed.
Lemma func_ext lk P Q f : (forall t, P t = Q t) -> funcVal lk P f = funcVal lk Q f.
Proof. intros H. assert (P = Q) as -> by (apply FunctionalExtensionality.functional_extensionality; exact H). reflexivity. Qed.
Lemma func_flip lk P f : funcVal lk (flipped (lkShape lk) P) (flatPos f) = funcVal lk P f.
Proof.
  unfold funcVal. rewrite prior_flip, norm_flip.
  assert (E : forall a b n, (forall k, a k = b k) -> osum a n = osum b n) by (intros a b n H; induction n as [|n IH]; cbn [osum]; [reflexivity|now rewrite IH, H]).
  rewrite (E _ (fun k => do l <- oln (evtLik lk P f k); Some (- l))); [reflexivity|]. intros k. now rewrite evt_flip.
Qed.

(* C40 *)
Theorem C40_signs_corrected : forall lk names thr mass d par,
  buildParDataStruct (lkShape lk) names thr mass = Some d -> lkMap lk = pdMap d -> Z.of_nat (length par) = nmbPars (lkShape lk) ->
  (shRank (lkShape lk) <= Nat.max (shWaves (lkShape lk) 0) (shWaves (lkShape lk) 1))%nat ->
  exists par' P f P' f', correctParamSigns (lkShape lk) (lkMap lk) par = Some par' /\ Z.of_nat (length par') = nmbPars (lkShape lk)
    /\ copyFromParArray (lkShape lk) par = Some (P, f) /\ copyFromParArray (lkShape lk) par' = Some (P', f')
    (* same likelihood *)
    /\ doEval lk par' = doEval lk par
    (* signs *)
    /\ 0 <= f' /\ (forall r e, In (r, e, r) (loopWaves (lkShape lk)) -> 0 <= Re (P' (r, e, r)))
    (* only common signs of the amplitudes of one rank and reflectivity change *)
    /\ (f' = f \/ f' = - f) /\ (forall r e, (forall w, P' (r, e, w) = P (r, e, w)) \/ (forall w, In (r, e, w) (loopWaves (lkShape lk)) -> P' (r, e, w) = Copp (P (r, e, w))))
    (* a second call changes nothing *)
    /\ correctParamSigns (lkShape lk) (lkMap lk) par' = Some par'.
Proof.
  intros lk names thr mass d par Hd Hm Hl Hr. set (sh := lkShape lk) in *. rewrite Hm.
  destruct (correct_spec sh names thr mass d par Hd Hl Hr) as (P & f & par' & P' & Ec & Et & Lt & Ef & HP & Him & Hz).
  destruct (correct_spec sh names thr mass d par' Hd Lt Hr) as (P1 & f1 & par2 & P2 & Ec1 & Et1 & Lt1 & Ef1 & HP1 & _ & _).
  assert (P1 = P') by congruence. assert (f1 = flatPos f) by congruence. subst P1 f1.
  assert (Hanchor : forall r e, 0 <= Re (P' (r, e, r))).
  { intros r e. rewrite HP. unfold flipped, rk, rf, wv. cbn [fst snd]. destruct (neg P r e) eqn:En.
    - destruct (Nat.ltb_spec r (shWaves sh e)); cbn [andb].
      + apply neg_inv in En. unfold Copp, Re in *. cbn. lra.
      + exfalso. apply neg_inv in En as [En _]. rewrite Hz in En; [unfold RtoC, Re in En; cbn in En; lra|]. rewrite loopWaves_In. lia.
    - rewrite andb_false_r. now apply neg_false. }
  exists par', P, f, P', (flatPos f). split; [exact Et|]. split; [exact Lt|]. split; [exact Ec|]. split; [exact Ef|]. split; [|split; [apply flatPos_nonneg|split; [intros; apply Hanchor|split; [unfold flatPos; destruct (Rlt_dec f 0); auto|split]]]].
  - unfold doEval. fold sh. rewrite Ec, Ef. cbn [bnd fst snd]. f_equal. rewrite (func_ext lk P' (flipped sh P)) by exact HP. apply func_flip.
  - intros r e. destruct (neg P r e) eqn:En; [right|left]; intros w.
    + intros Hw. rewrite HP. unfold flipped, rk, rf, wv. cbn [fst snd]. rewrite En. apply loopWaves_In in Hw. rewrite (proj2 (Nat.ltb_lt _ _)) by tauto. reflexivity.
    + rewrite HP. unfold flipped, rk, rf, wv. cbn [fst snd]. now rewrite En, andb_false_r.
  - rewrite Et1. f_equal.
    assert (Hff : flatPos (flatPos f) = flatPos f) by (pose proof (flatPos_nonneg f); unfold flatPos at 1; destruct (Rlt_dec (flatPos f) 0); [lra|reflexivity]).
    assert (HPP : forall t, P2 t = P' t).
    { intros t. rewrite HP1. unfold flipped. destruct (neg P' (rk t) (rf t)) eqn:En; [|now rewrite andb_false_r]. apply neg_inv in En as [En _]. pose proof (Hanchor (rk t) (rf t)). lra. }
    (* both arrays give the same amplitudes, hence are equal *)
    destruct (C36_round_trip_parameters sh names thr mass d par' par' Hd Lt eq_refl) as (A & fa & EA & TA).
    destruct (C36_round_trip_parameters sh names thr mass d par2 par' Hd Lt1 ltac:(lia)) as (B & fb & EB & TB).
    assert (A = P') by congruence. assert (fa = flatPos f) by congruence. assert (B = P2) by congruence. assert (fb = flatPos (flatPos f)) by congruence. subst.
    assert (P2 = P') by (apply FunctionalExtensionality.functional_extensionality; exact HPP). subst P2. rewrite Hff in TB. congruence.
Qed.

(* C40: with more ranks than waves the anchor wave of the last rank is read outside the array *)
Theorem C40_rank_too_large : forall sh m par, (Nat.max (shWaves sh 0) (shWaves sh 1) < shRank sh)%nat -> correctParamSigns sh m par = None.
Proof.
  intros sh m par H. unfold correctParamSigns. destruct (copyFromParArray sh par) as [[amps f]|]; [|reflexivity]. cbn [bnd].
  assert (G : forall l a, (exists p, In p l /\ anchorInside sh (fst p) = false) -> foldO (flipStep sh) l a = None).
  { induction l as [|[r e] l IH]; intros a (p & Hp & Ha); [destruct Hp|]. cbn [foldO]. destruct Hp as [<-|Hp].
    - unfold flipStep. cbn [fst] in Ha. now rewrite Ha.
    - destruct (flipStep sh (r, e) a); [|reflexivity]. cbn [bnd]. apply IH. eauto. }
  rewrite G; [reflexivity|]. exists (shRank sh - 1, 0)%nat. split; [apply pairs_In; lia|]. unfold anchorInside. cbn [fst]. apply Nat.ltb_ge. lia.
Qed.

(* a concrete flip *)
Example C40_ex : (shRank sh1 <= Nat.max (shWaves sh1 0) (shWaves sh1 1))%nat /\ correctParamSigns sh1 (pdMap data1) [-2; -1] = Some [2; 1].
Proof.
  split; [cbn; lia|]. destruct (correct_spec sh1 nm1 (fun _ _ => 0) 1 data1 [-2; -1] eq_refl eq_refl ltac:(cbn; lia)) as (P & f & par' & P' & Ec & Et & Lt & Ef & HP & _ & _).
  rewrite Et. f_equal. change (nmbPars sh1) with 2%Z in Lt. destruct par' as [|x [|y [|]]]; cbn [length] in Lt; try lia. rewrite lik1_from in Ec, Ef. injection Ec as Ec1 Ec2. injection Ef as Ef1 Ef2.
  specialize (HP (0, 1, 0)%nat). rewrite <- Ef1, <- Ec1 in HP. unfold flipped, neg, upd in HP. cbn in HP. rewrite <- Ec2 in Ef2. unfold flatPos in Ef2.
  destruct (Rlt_dec (-1) 0); [|lra]. destruct (Rlt_dec (-2) 0); [|lra]. destruct (Req_EM_T 0 0); [|lra]. apply (f_equal fst) in HP. cbn in HP. rewrite Ef2, HP. repeat f_equal; ring.
Qed.
