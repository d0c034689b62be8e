(* C71: evaluating on the GPU gives the same likelihood and gradient as on the CPU. *)
From Coq Require Import List ZArith Reals Bool Lia Lra Permutation.
From Coquelicot Require Import Complex.
From Verif Require Import ArrayModel ArraySpec ArrayProofs CGBoxModel CGBoxProofs FitErrModel LikParModel LikParProofs LikModel SumAccProofs LikSetProofs ResTransProps GpuModel GpuProofs GpuProofs2 GpuSpec.
Import ListNotations.
Open Scope nat_scope.

(* ---- loading ---- *)
Lemma wave_max lk e w : e < 2 -> w < shWaves (lkShape lk) e -> w < wavesMax lk.
Proof. intros He. unfold wavesMax. destruct e as [|[|e]]; lia. Qed.
Lemma foldO_establish {A B Y} (f : B -> A -> option A) (I : A -> Prop) (Q : Y -> A -> Prop) (S : B -> Y -> Prop) L :
  (forall x a, In x L -> I a -> exists a', f x a = Some a' /\ I a' /\ (forall y, S x y -> Q y a') /\ (forall y, Q y a -> Q y a')) ->
  forall a, I a -> exists a', foldO f L a = Some a' /\ I a' /\ (forall x y, In x L -> S x y -> Q y a') /\ (forall y, Q y a -> Q y a').
Proof.
  induction L as [|x L IH]; intros H a Ha.
  - exists a. repeat split; auto. intros x y [].
  - destruct (H x a (or_introl eq_refl) Ha) as (a1 & E & I1 & Q1 & K1). cbn [foldO]. rewrite E. cbn [bnd].
    destruct (IH (fun y b Hy => H y b (or_intror Hy)) a1 I1) as (a2 & E2 & I2 & Q2 & K2). exists a2. repeat split; auto.
    intros z y [<-|Hz] Hs; [apply K2; now apply Q1|now apply (Q2 z)].
Qed.
Section Load.
  Context (lk : lik).
  Let sh := lkShape lk.
  Let n := lkEvts lk.
  Let mx := wavesMax lk.
  Let box (y : nat * nat * nat) : Prop := let '(e, w, k) := y in e < 2 /\ w < shWaves sh e /\ k < n.
  Let off (y : nat * nat * nat) : nat := let '(e, w, k) := y in rowMajor [2; mx; n] [e; w; k].
  Let Q (y : nat * nat * nat) (a : list cplx) : Prop := box y -> rd a (off y) = Some (ofC (lkDec lk (fst (fst y)) (snd y) (snd (fst y)))).
  Lemma decay_array : exists a, decayAmpsArray lk = Some a /\ length a = 2 * (mx * n) /\ forall e w k, e < 2 -> w < shWaves sh e -> k < n ->
    rd a (rowMajor [2; mx; n] [e; w; k]) = Some (ofC (lkDec lk e k w)).
  Proof.
    unfold decayAmpsArray. fold mx n sh.
    assert (EN : nmbElements [2; mx; n] 3 = Some (product [2; mx; n])) by exact (nmbElements_correct 2 [mx; n]). rewrite EN. cbn [bnd].
    set (N := product [2; mx; n]). assert (HN : N = 2 * (mx * n)) by (unfold N; cbn; lia).
    match goal with |- context [foldO ?b (seq 0 n) _] => destruct (foldO_establish b (fun a => length a = N) Q (fun k y => snd y = k /\ box y) (seq 0 n)) with (a := repeat (ofC (RtoC 0%R)) N) as (a & E & L & H & _) end.
    - intros k a Hk La. apply in_seq in Hk.
      match goal with |- context [foldO ?b [0; 1] _] => destruct (foldO_establish b (fun a => length a = N) Q (fun e y => fst (fst y) = e /\ snd y = k /\ box y) [0; 1]) with (a := a) as (a1 & E1 & L1 & H1 & K1) end.
      + intros e a0 He La0. assert (He2 : e < 2) by (cbn in He; lia).
        match goal with |- context [foldO ?b (seq 0 (shWaves sh e)) _] => destruct (foldO_establish b (fun a => length a = N) Q (fun w y => y = (e, w, k)) (seq 0 (shWaves sh e))) with (a := a0) as (a1 & E1 & L1 & H1 & K1) end.
        * intros w b Hw Lb. apply in_seq in Hw. rewrite off3. cbn [bnd].
          assert (Hb : box (e, w, k)) by (unfold box; repeat split; auto; lia).
          assert (HI : forall y, box y -> inBox [2; mx; n] (let '(e, w, k) := y in [e; w; k])).
          { intros [[e' w'] k'] (B1 & B2 & B3). assert (w' < mx) by (apply (wave_max lk e'); assumption). unfold inBox. repeat (apply Forall2_cons; [assumption|]). apply Forall2_nil. }
          assert (Hlt : off (e, w, k) < length b). { rewrite Lb. apply rowMajor_bound. exact (HI (e, w, k) Hb). }
          destruct (wr_spec b _ (ofC (lkDec lk e k w)) Hlt) as (b' & Eb & _). exists b'. split; [exact Eb|]. split; [now rewrite (wr_length _ _ _ _ Eb)|].
          split; [intros y ->; intros _; exact (rd_wr_same _ _ _ _ Eb)|].
          intros y Hy By. destruct (Nat.eq_dec (off y) (off (e, w, k))) as [Eo|No].
          -- destruct y as [[e' w'] k']. apply rowMajor_inj in Eo; [|exact (HI _ By)|exact (HI _ Hb)]. injection Eo as -> -> ->. exact (rd_wr_same _ _ _ _ Eb).
          -- rewrite (rd_wr_other _ _ _ _ _ Eb No). now apply Hy.
        * exact La0.
        * exists a1. split; [exact E1|]. split; [exact L1|]. split; [|exact K1]. intros [[e' w'] k'] (Ee & Ek & B). cbn in Ee, Ek. subst e' k'.
          apply (H1 w' _); [|reflexivity]. apply in_seq. unfold box in B. lia.
      + exact La.
      + exists a1. split; [exact E1|]. split; [exact L1|]. split; [|exact K1]. intros [[e' w'] k'] (Ek & B). apply (H1 e'); [|split; [reflexivity|split; [exact Ek|exact B]]]. unfold box in B. cbn. lia.
    - apply repeat_length.
    - exists a. split; [exact E|]. split; [lia|]. intros e w k He Hw Hk. apply (H k (e, w, k)); [apply in_seq; lia|split; [reflexivity|]|]; unfold box; auto.
  Qed.
  Lemma loaded g0 : fitsUnsigned lk -> exists g, finishInitCuda lk g0 = Some g /\ exists dD, g = Gpu dD n (shWaves sh 0, shWaves sh 1) mx
    /\ forall e w k, e < 2 -> w < shWaves sh e -> k < n -> dread dD (rowMajor [2; mx; n] [e; w; k]) = Some (ofC (lkDec lk e k w)).
  Proof.
    intros Hf. destruct decay_array as (a & E & L & H). unfold finishInitCuda. rewrite E. cbn [bnd]. eexists. split; [reflexivity|].
    unfold loadDecayAmps. fold sh n. eexists. split; [reflexivity|]. intros e w k He Hw Hk.
    assert (EZ : ((Z.of_nat (length a) * 16) mod 2 ^ 32 = Z.of_nat (length a) * 16)%Z).
    { apply Z.mod_small. unfold fitsUnsigned in Hf. change (Nat.max (shWaves (lkShape lk) 0) (shWaves (lkShape lk) 1)) with mx in Hf. fold n in Hf. rewrite L. lia. }
    rewrite EZ, Z.div_mul by lia. rewrite Nat2Z.id, firstn_all. unfold dread, dupload, rd. rewrite nth_error_map. unfold rd in H. rewrite H by assumption. reflexivity.
  Qed.
End Load.
Lemma nth_blocks {A} (f : nat -> list A) L m : (forall i, length (f i) = L) -> forall s i j, i < m -> j < L -> nth_error (flat_map f (seq s m)) (i * L + j) = nth_error (f (s + i)) j.
Proof.
  intros HL. induction m as [|m IH]; intros s i j Hi Hj; [lia|]. cbn [seq flat_map]. destruct i as [|i].
  - cbn [Nat.mul Nat.add]. rewrite nth_error_app1 by (rewrite HL; exact Hj). now rewrite Nat.add_0_r.
  - rewrite nth_error_app2 by (rewrite HL; nia). rewrite HL. replace (S i * L + j - L) with (i * L + j) by nia. rewrite IH by lia. f_equal. f_equal. lia.
Qed.
Lemma flat_len {A} (f : nat -> list A) L m : (forall i, length (f i) = L) -> forall s, length (flat_map f (seq s m)) = m * L.
Proof. intros HL. induction m as [|m IH]; intros s; [reflexivity|]. cbn [seq flat_map]. rewrite app_length, IH, HL. lia. Qed.
Lemma prod_data lk P r e w : r < shRank (lkShape lk) -> e < 2 -> w < wavesMax lk ->
  dread (dupload (prodAmpsData lk P)) (rowMajor [shRank (lkShape lk); 2; wavesMax lk] [r; e; w]) = Some (ofC (P (r, e, w))).
Proof.
  intros Hr He Hw. set (mx := wavesMax lk) in *. unfold dread, dupload, rd. rewrite nth_error_map. unfold prodAmpsData. fold mx. change [0; 1] with (seq 0 2).
  replace (rowMajor [shRank (lkShape lk); 2; mx] [r; e; w]) with (r * (2 * mx) + (e * mx + w)) by (cbn; nia).
  rewrite (nth_blocks _ (2 * mx)); [|intros i; apply (flat_len _ mx); intros j; now rewrite map_length, seq_length|exact Hr|nia].
  rewrite (nth_blocks _ mx); [|intros j; now rewrite map_length, seq_length|exact He|exact Hw].
  rewrite nth_error_map. rewrite (nth_error_nth' _ 0) by (rewrite seq_length; exact Hw). rewrite seq_nth by exact Hw. reflexivity.
Qed.

(* [lk] evaluated with the decay amplitudes of [lk0] *)
Definition withDecays (lk lk0 : lik) : lik :=
  Lik (lkEvts lk) (lkShape lk) (lkDec lk0) (lkAcc lk) (lkTotAcc lk) (lkNormAmps lk) (lkPrior lk) (lkWidth lk) (lkMap lk) (lkPars lk).

Section Eval.
  Context (dv : device) (Hdv : usable dv) (lk lk0 : lik) (Hf : fitsUnsigned lk0) (Hs : lkShape lk0 = lkShape lk) (Hn : lkEvts lk0 = lkEvts lk) (g0 : gpu).
  Let lk' := withDecays lk lk0.
  Lemma eval_gen : exists g, finishInitCuda lk0 g0 = Some g /\ forall par, always (doEvalCuda dv g lk par) (doEval lk' par).
  Proof.
    destruct (loaded lk0 g0 Hf) as (g & Eg & dD & E & HD). exists g. split; [exact Eg|]. intros par r. unfold doEvalCuda, doEval.
    change (lkShape lk') with (lkShape lk). destruct (copyFromParArray (lkShape lk) par) as [[P flat]|].
    2:{ cbn [bnd]. apply (rbind_undef _ _ (undef_lift None eq_refl)). }
    rewrite (rbind_det _ (P, flat)) by (now apply det_lift). cbn [fst snd bnd].
    assert (HDet := gpuLogLikelihood_det dv Hdv lk' P flat (dupload (prodAmpsData lk P)) dD). cbn zeta in HDet.
    rewrite (rbind_det _ (osum (llTerm lk' P flat) (lkEvts lk))).
    - unfold rlift, funcVal. change (priorValue lk' P) with (priorValue lk P). change (normFactor lk' P flat) with (normFactor lk P flat). change (nmbEvt lk') with (nmbEvt lk).
      change (lkEvts lk') with (lkEvts lk). unfold llTerm. destruct (osum _ (lkEvts lk)) as [ll|]; [|reflexivity]. destruct (priorValue lk P) as [pr|]; reflexivity.
    - apply HDet; [| |reflexivity|].
      + intros a b c H1 H2 H3. exact (prod_data lk P a b c H1 H2 (wave_max lk b c H2 H3)).
      + cbn. rewrite Hs, Hn in HD. intros a b c H1 H2 H3. assert (H4 := HD a b c H1 H2 H3). unfold wavesMax in *. rewrite Hs in H4. exact H4.
      + rewrite E. cbn. rewrite Hs, Hn. unfold wavesMax; cbn. rewrite Hs. reflexivity.
  Qed.

  Lemma fst_lsum {I} (F : I -> cplx) l : fst (lsum arC F l) = lsum arD (fun i => fst (F i)) l.
  Proof. induction l as [|x l IH]; [reflexivity|]. cbn [lsum]. cbn. now rewrite IH. Qed.
  Lemma snd_lsum {I} (F : I -> cplx) l : snd (lsum arC F l) = lsum arD (fun i => snd (F i)) l.
  Proof. induction l as [|x l IH]; [reflexivity|]. cbn [lsum]. cbn. now rewrite IH. Qed.
  Lemma osum_ext F G m : (forall k, F k = G k) -> osum F m = osum G m.
  Proof. intros H. induction m as [|m IH]; [reflexivity|]. cbn. now rewrite IH, H. Qed.
  Lemma deriv_part P flat t (b : bool) : (if b then fst else snd) (lsum arC (derivTerm lk' P flat t) (seq 0 (lkEvts lk)))
    = osum (fun k => do f <- odiv 2 (evtLik lk' P flat k); Some (- f * (if b then Re (evtDeriv lk' P k t) else Im (evtDeriv lk' P k t)))%R) (lkEvts lk).
  Proof.
    destruct b; [rewrite fst_lsum|rewrite snd_lsum]; rewrite lsum_osum; apply osum_ext; intros k; unfold derivTerm, cscale, dopp, ddiv, dmul; cbn [fst snd ofC bnd];
      destruct (odiv 2 (evtLik lk' P flat k)) as [f|]; cbn; try reflexivity; f_equal; ring.
  Qed.
  Lemma add_deriv P flat t (b : bool) : addNormPrior lk P b t ((if b then fst else snd) (lsum arC (derivTerm lk' P flat t) (seq 0 (lkEvts lk)))) = derivative lk' P flat b t.
  Proof.
    rewrite deriv_part. unfold addNormPrior, derivative. change (priorDeriv lk' P t b) with (priorDeriv lk P t b). change (lkEvts lk') with (lkEvts lk).
    change (nmbEvt lk') with (nmbEvt lk). destruct (osum _ (lkEvts lk)) as [ev|]; [|reflexivity]. destruct (priorDeriv lk P t b) as [pr|]; reflexivity.
  Qed.
  Lemma host_derivs d V : (forall t, In t (loopWaves (lkShape lk)) -> dread d (rowMajor [shRank (lkShape lk); 2; wavesMax lk] [rk t; rf t; wv t]) = Some (V t)) ->
    exists D, hostDerivatives lk d = Some D /\ forall t, In t (loopWaves (lkShape lk)) -> D t = V t.
  Proof.
    intros H. unfold hostDerivatives.
    match goal with |- context [foldO ?b ?l ?a0] => destruct (foldO_establish b (fun _ => True) (fun t (D : idx -> cplx) => D t = V t) (fun t y => y = t) l) with (a := a0) as (D & E & _ & HQ & _) end.
    - intros t D Ht _. rewrite off3. cbn [bnd]. rewrite H by exact Ht. cbn [bnd]. eexists. split; [reflexivity|]. split; [exact I|].
      assert (ET : idx_eqb t t = true) by (unfold idx_eqb; now rewrite !Nat.eqb_refl).
      split; [intros y ->; unfold upd; now rewrite ET|]. intros y Hy. unfold upd. destruct (idx_eqb y t) eqn:Ey; [|exact Hy].
      unfold idx_eqb in Ey. apply andb_true_iff in Ey as [Ey E3]. apply andb_true_iff in Ey as [E1 E2]. apply Nat.eqb_eq in E1, E2, E3. destruct y as [[? ?] ?], t as [[? ?] ?]. cbn in *. now subst.
    - exact I.
    - exists D. split; [exact E|]. intros t Ht. now apply (HQ t).
  Qed.
  Lemma copyTo_ext {A} (re im re' im' : idx -> A) sh m flat out : (forall t, In t (loopWaves sh) -> re t = re' t /\ im t = im' t) ->
    copyToParArray re im sh m flat out = copyToParArray re' im' sh m flat out.
  Proof.
    intros H. unfold copyToParArray. f_equal. apply foldO_ext. intros t o Ht. destruct (H t Ht) as [-> ->] || idtac. unfold toStep. destruct (H t Ht) as [H1 H2]. now rewrite H1, H2.
  Qed.
  Lemma gradient_gen : lkEvts lk <= dvWarp dv * dvMaxGrid dv -> exists g, finishInitCuda lk0 g0 = Some g /\ forall par, always (gradientCuda dv g lk par) (gradient lk' par).
  Proof.
    intros Hb. destruct (loaded lk0 g0 Hf) as (g & Eg & dD & E & HD). exists g. split; [exact Eg|]. intros par r. unfold gradientCuda, gradient.
    change (lkShape lk') with (lkShape lk). destruct (copyFromParArray (lkShape lk) par) as [[P flat]|].
    2:{ cbn [bnd]. apply (rbind_undef _ _ (undef_lift None eq_refl)). }
    rewrite (rbind_det _ (P, flat)) by (now apply det_lift). cbn [fst snd bnd].
    destruct (gpuDeriv_det dv Hdv lk' P flat (dupload (prodAmpsData lk P)) dD) with (g := g) (l := prodAmpsData lk P) as (d & D & HR).
    - intros a b c H1 H2 H3. exact (prod_data lk P a b c H1 H2 (wave_max lk b c H2 H3)).
    - cbn. rewrite Hs, Hn in HD. intros a b c H1 H2 H3. assert (H4 := HD a b c H1 H2 H3). unfold wavesMax in *. rewrite Hs in H4. exact H4.
    - reflexivity.
    - rewrite E. cbn. rewrite Hs, Hn. unfold wavesMax; cbn. rewrite Hs. reflexivity.
    - exact Hb.
    - rewrite (rbind_det _ _) by exact D. cbn [fst snd].
      destruct (host_derivs d (fun t => lsum arC (derivTerm lk' P flat t) (seq 0 (lkEvts lk)))) as (DD & ED & HDD). { exact HR. }
      rewrite (rbind_det _ DD) by (now apply det_lift). unfold rlift.
      replace (dadd (osum (flatTermD lk' P flat) (lkEvts lk')) (Some (flat * (2 * nmbEvt lk) * lkTotAcc lk)%R)) with (derivativeFlat lk' P flat).
      2:{ unfold derivativeFlat. change (nmbEvt lk') with (nmbEvt lk). change (lkTotAcc lk') with (lkTotAcc lk). unfold dadd.
          rewrite (osum_ext (flatTermD lk' P flat) (fun k => do f <- odiv 2 (evtLik lk' P flat k); Some (- f * flat)%R)); [reflexivity|].
          intros k. unfold flatTermD, dmul, dopp, ddiv. cbn [bnd]. destruct (odiv 2 (evtLik lk' P flat k)); reflexivity. }
      rewrite (copyTo_ext _ _ (derivative lk' P flat true) (derivative lk' P flat false)); [reflexivity|].
      intros t Ht. rewrite (HDD t Ht). split; [exact (add_deriv P flat t true)|exact (add_deriv P flat t false)].
  Qed.
End Eval.

Lemma withDecays_self lk : withDecays lk lk = lk. Proof. now destruct lk. Qed.

(* For every usable device and every schedule of the threads, a likelihood whose decay amplitudes fit can be initialised, and
   then every execution of DoEval on the GPU returns exactly what DoEval on the CPU returns. *)
Theorem C71_gpu_function_value : forall dv lk g0, usable dv -> fitsUnsigned lk ->
  exists g, finishInitCuda lk g0 = Some g /\ forall par, always (doEvalCuda dv g lk par) (doEval lk par).
Proof.
  intros dv lk g0 Hdv Hf. destruct (eval_gen dv Hdv lk lk Hf eq_refl eq_refl g0) as (g & E & H). rewrite withDecays_self in H. now exists g.
Qed.
(* the same for the gradient *)
Theorem C71_gpu_gradient : forall dv lk g0, usable dv -> fitsUnsigned lk -> lkEvts lk <= dvWarp dv * dvMaxGrid dv ->
  exists g, finishInitCuda lk g0 = Some g /\ forall par, always (gradientCuda dv g lk par) (gradient lk par).
Proof.
  intros dv lk g0 Hdv Hf Hn. destruct (gradient_gen dv Hdv lk lk Hf eq_refl eq_refl g0 Hn) as (g & E & H). rewrite withDecays_self in H. now exists g.
Qed.

(* The device arrays belong to the program, not to the likelihood object: after a second likelihood of the same shape and number of
   events was initialised, the first one is evaluated with the decay amplitudes of the second. *)
Theorem C71_second_likelihood_replaces_amplitudes : forall dv lkA lkB g0, usable dv -> fitsUnsigned lkA -> fitsUnsigned lkB ->
  lkShape lkB = lkShape lkA -> lkEvts lkB = lkEvts lkA ->
  exists gA gB, finishInitCuda lkA g0 = Some gA /\ finishInitCuda lkB gA = Some gB /\
    forall par, always (doEvalCuda dv gB lkA par) (doEval (withDecays lkA lkB) par).
Proof.
  intros dv lkA lkB g0 Hdv HfA HfB Hs Hn. destruct (loaded lkA g0 HfA) as (gA & EA & _). destruct (eval_gen dv Hdv lkA lkB HfB Hs Hn gA) as (gB & EB & H).
  exists gA, gB. repeat split; auto; now apply H.
Qed.

(* one event, one wave of negative reflectivity, rank 1 *)
Definition oneEvent (d : C) : lik :=
  Lik 1 (Shape 1 (fun e => match e with O => 1 | _ => 0 end)) (fun _ _ _ => d) (fun _ _ _ => RtoC 0) 0%R true FLAT 1%R (fun _ => (0, -1)%Z) [].
Lemma oneEvent_value d x : (d = RtoC 1 \/ d = RtoC 2) -> x = (match Req_EM_T (Re d) 1 with left _ => 1 | right _ => 4 end)%R ->
  doEval (oneEvent d) [1%R; 0%R] = Some (Some (- ln x)%R).
Proof.
  intros Hd ->. unfold doEval, copyFromParArray. cbn -[ln]. unfold funcVal, evtLik, ampProdSum, normSq, normFactor. cbn -[ln]. unfold oln.
  destruct Hd as [-> | ->]; cbn -[ln].
  - destruct (Req_EM_T 1 1) as [_|]; [|lra]. match goal with |- context [Rlt_dec 0 ?y] => replace y with 1%R by ring end. destruct (Rlt_dec 0 1); [|lra]. cbn -[ln]. repeat f_equal. ring.
  - destruct (Req_EM_T 2 1) as [|_]; [lra|]. match goal with |- context [Rlt_dec 0 ?y] => replace y with 4%R by ring end. destruct (Rlt_dec 0 4); [|lra]. cbn -[ln]. repeat f_equal. ring.
Qed.
Lemma oneEvent_fits d : fitsUnsigned (oneEvent d). Proof. unfold fitsUnsigned. cbn. lia. Qed.
(* Two likelihoods with CUDA enabled in one program: after both were initialised, DoEval of the first one on the GPU differs from
   DoEval of the same object on the CPU, whatever the device and the schedule. *)
Theorem C71_two_likelihoods_refuted : exists lkA lkB par vCpu vGpu, vGpu <> vCpu /\ doEval lkA par = Some (Some vCpu) /\
  forall dv g0, usable dv -> exists gA gB, finishInitCuda lkA g0 = Some gA /\ finishInitCuda lkB gA = Some gB /\
    always (doEvalCuda dv gB lkA par) (Some (Some vGpu)).
Proof.
  exists (oneEvent (RtoC 1)), (oneEvent (RtoC 2)), [1%R; 0%R], (- ln 1)%R, (- ln 4)%R. split; [|split].
  - rewrite ln_1. assert (H : (ln 1 < ln 4)%R) by (apply ln_increasing; lra). rewrite ln_1 in H. lra.
  - apply oneEvent_value; [now left|]. cbn. destruct (Req_EM_T 1 1); [reflexivity|lra].
  - intros dv g0 Hdv. destruct (C71_second_likelihood_replaces_amplitudes dv _ (oneEvent (RtoC 2)) g0 Hdv (oneEvent_fits (RtoC 1)) (oneEvent_fits _) eq_refl eq_refl) as (gA & gB & EA & EB & H).
    exists gA, gB. split; [exact EA|]. split; [exact EB|]. intros r. unfold always in H. rewrite H. change (withDecays (oneEvent (RtoC 1)) (oneEvent (RtoC 2))) with (oneEvent (RtoC 2)).
    rewrite (oneEvent_value (RtoC 2) 4); [reflexivity|now right|]. cbn. destruct (Req_EM_T 2 1); [lra|reflexivity].
Qed.

(* The number of bytes of the decay amplitudes is computed in 32 bits: with 2^28 of them (4 GiB) nothing is loaded and every
   evaluation on the GPU is undefined (reads outside the array), for every device and parameter array. *)
Theorem C71_four_gigabytes_refuted : forall dv lk g0, usable dv -> 1 <= shRank (lkShape lk) -> 1 <= shWaves (lkShape lk) 0 ->
  Z.of_nat (2 * (wavesMax lk * lkEvts lk)) = (2 ^ 28)%Z ->
  exists g, finishInitCuda lk g0 = Some g /\ forall par, always (doEvalCuda dv g lk par) None.
Proof.
  intros dv lk g0 Hdv Hr Hw HZ. destruct (decay_array lk) as (a & E & L & _). unfold finishInitCuda. rewrite E. cbn [bnd]. eexists. split; [reflexivity|].
  assert (HN : 1 <= lkEvts lk). { destruct (lkEvts lk); [|lia]. rewrite Nat.mul_0_r in HZ. discriminate. }
  unfold loadDecayAmps. rewrite L, HZ. change (Z.to_nat ((2 ^ 28 * 16) mod 2 ^ 32 / 16)) with 0. cbn [firstn dupload map fst snd].
  intros par r. unfold doEvalCuda. destruct (copyFromParArray (lkShape lk) par) as [[P flat]|]; [|apply (rbind_undef _ _ (undef_lift None eq_refl))].
  rewrite (rbind_det _ (P, flat)) by (now apply det_lift). cbn [fst snd]. apply rbind_undef. unfold gpuLogLikelihood. cbn [gDecay gEvents gWaves gMax].
  destruct (grid_spec dv KLogLikelihood 0 Hdv ltac:(lia)) as (grid & Eg & Hg & _ & _). intros r2. rewrite (rbind_det _ grid) by (now apply det_lift). cbn zeta.
  assert (HB : 0 < fst grid * snd grid) by (destruct Hg; nia). revert r2. apply rbind_undef. apply (launch_undef _ _ _ _ _ _ 0); [exact HB|].
  unfold logLikelihoodThread. destruct (lkEvts lk) as [|n'] eqn:En; [lia|]. cbn [strided].
  replace (0 <? S n') with true by (symmetry; apply Nat.ltb_lt; lia).
  destruct (shRank (lkShape lk)) as [|r'] eqn:Er; [lia|]. cbn [seq foldO]. unfold gpuAmpProdSum at 1. cbn [waves rd nth_error fst snd bnd].
  destruct (shWaves (lkShape lk) 0) as [|w'] eqn:Ew; [lia|]. cbn [seq foldO]. rewrite !off3. cbn [bnd].
  assert (EN : forall i, dread (@nil (option cplx)) i = None) by (intros i; unfold dread, rd; now destruct i).
  rewrite EN. match goal with |- context [dread (dupload (prodAmpsData lk P)) (rowMajor ?u ?v)] => destruct (dread (dupload (prodAmpsData lk P)) (rowMajor u v)) end; reflexivity.
Qed.

(* Without initialisation of the interface (enableCuda called after finishInit, or a system without CUDA device: the result of
   the initialisation is not checked) the properties of the device are 0 and every evaluation is undefined. *)
Theorem C71_not_initialised_undefined : forall dv g lk par, dvWarp dv = 0 -> always (doEvalCuda dv g lk par) None.
Proof.
  intros dv g lk par Hw r. unfold doEvalCuda. destruct (copyFromParArray (lkShape lk) par) as [[P flat]|]; [|apply (rbind_undef _ _ (undef_lift None eq_refl))].
  rewrite (rbind_det _ (P, flat)) by (now apply det_lift). cbn [fst snd]. apply rbind_undef. unfold gpuLogLikelihood. apply rbind_undef. apply undef_lift.
  unfold estimateOptimumKernelGrid. now rewrite Hw.
Qed.

(* witnesses: a device with 14 multiprocessors, a likelihood with 3 events, 2 + 1 waves and rank 2, and one with 4 GiB of amplitudes *)
Definition smallDevice : device := Device 32 14 (fun k => match k with KDeriv => 96 | _ => 128 end) 100.
Example smallDevice_usable : usable smallDevice.
Proof.
  unfold usable, smallDevice; cbn [dvWarp dvMultiProc dvMaxThreads dvMaxGrid]. split; [lia|]. split; [lia|]. intros k. destruct k; lia.
Qed.
Definition threeEvents : lik :=
  Lik 3 (Shape 2 (fun e => match e with O => 2 | _ => 1 end)) (fun e k w => (INR (1 + k + e), INR w)) (fun _ i j => RtoC (if Nat.eqb i j then 1 else 0))
      1%R false HALF_CAUCHY (1 / 2)%R (fun _ => (0, 1)%Z) [].
Example threeEvents_meets_hypotheses : fitsUnsigned threeEvents /\ lkEvts threeEvents <= dvWarp smallDevice * dvMaxGrid smallDevice.
Proof. unfold fitsUnsigned. cbn. lia. Qed.
(* it is evaluated on several threads of several blocks *)
Example threeEvents_evaluated : exists g, finishInitCuda threeEvents gpuStart = Some g /\
  forall par, always (doEvalCuda smallDevice g threeEvents par) (doEval threeEvents par) /\ always (gradientCuda smallDevice g threeEvents par) (gradient threeEvents par).
Proof.
  destruct (C71_gpu_function_value smallDevice threeEvents gpuStart smallDevice_usable) as (g & E & H); [apply threeEvents_meets_hypotheses|].
  destruct (C71_gpu_gradient smallDevice threeEvents gpuStart smallDevice_usable) as (g' & E' & H'); [apply threeEvents_meets_hypotheses|apply threeEvents_meets_hypotheses|].
  exists g. split; [exact E|]. intros par. split; [apply H|]. replace g with g' by congruence. apply H'.
Qed.
(* the CPU value is defined: a parameter array of sufficient length *)
Example threeEvents_defined : doEval threeEvents [1; 2; 3; 4; 5; 6; 7]%R <> None.
Proof. unfold doEval, copyFromParArray. cbn -[funcVal]. discriminate. Qed.
Definition fourGigabytes : lik :=
  Lik (Z.to_nat (2 ^ 27)) (Shape 1 (fun e => match e with O => 1 | _ => 0 end)) (fun _ _ _ => RtoC 1) (fun _ _ _ => RtoC 0) 0%R true FLAT 1%R (fun _ => (0, -1)%Z) [].
Example fourGigabytes_meets_hypotheses : 1 <= shRank (lkShape fourGigabytes) /\ 1 <= shWaves (lkShape fourGigabytes) 0 /\
  Z.of_nat (2 * (wavesMax fourGigabytes * lkEvts fourGigabytes)) = (2 ^ 28)%Z /\ doEval fourGigabytes [1; 0]%R <> None.
Proof.
  split; [cbn; lia|]. split; [cbn; lia|]. split.
  - change (wavesMax fourGigabytes) with 1. change (lkEvts fourGigabytes) with (Z.to_nat (2 ^ 27)). rewrite !Nat2Z.inj_mul, Z2Nat.id by lia. reflexivity.
  - unfold doEval, copyFromParArray. change (lkShape fourGigabytes) with (Shape 1 (fun e => match e with O => 1 | _ => 0 end)). generalize fourGigabytes. intros lk. cbn -[funcVal]. discriminate.
Qed.
