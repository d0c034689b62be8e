(* Directional expansions of the likelihood *)
From Coq Require Import List ZArith Reals Lia Lra Bool Psatz.
From Coquelicot Require Import Complex Hierarchy Derive Rcomplements ElemFct AutoDerive Continuity.
From Verif Require Import ArrayModel CGBoxModel FitErrModel FitErrProps AmpIntProofs LikParModel LikParProofs LikModel.
Import ListNotations.
Open Scope R_scope.

(* ---- sums with one changed term ---- *)
Lemma rsumN_upd f g n a d : (a < n)%nat -> (forall i, (i < n)%nat -> i <> a -> f i = g i) -> f a = g a + d -> rsumN f n = rsumN g n + d.
Proof.
  induction n as [|n IH]; intros Ha H Hd; [lia|]. cbn [rsumN]. destruct (Nat.eq_dec a n) as [->|Hn].
  - rewrite Hd. rewrite (rsumN_ext f g n) by (intros; apply H; lia). ring.
  - rewrite (IH ltac:(lia)) by (auto; intros; apply H; lia). rewrite (H n) by lia. ring.
Qed.
Lemma csumN_upd f g n a d : (a < n)%nat -> (forall i, (i < n)%nat -> i <> a -> f i = g i) -> f a = (g a + d)%C -> csumN f n = (csumN g n + d)%C.
Proof.
  induction n as [|n IH]; intros Ha H Hd; [lia|]. cbn [csumN]. destruct (Nat.eq_dec a n) as [->|Hn].
  - rewrite Hd. assert (E : csumN f n = csumN g n).
    { assert (H' : forall i, (i < n)%nat -> f i = g i) by (intros; apply H; lia). clear - H'. induction n as [|n IH]; [reflexivity|]. cbn [csumN]. rewrite IH by (intros; apply H'; lia). now rewrite H' by lia. }
    rewrite E. ring.
  - rewrite (IH ltac:(lia)) by (auto; intros; apply H; lia). rewrite (H n) by lia. ring.
Qed.
Lemma csumN_ext f g n : (forall i, (i < n)%nat -> f i = g i) -> csumN f n = csumN g n.
Proof. induction n as [|n IH]; intros H; [reflexivity|]. cbn [csumN]. rewrite IH by (intros; apply H; lia). now rewrite H by lia. Qed.
Lemma rsumN_delta g n a : (a < n)%nat -> rsumN (fun i => if (i =? a)%nat then g i else 0) n = g a.
Proof.
  intros Ha. rewrite (rsumN_upd _ (fun _ => 0) n a (g a)); auto.
  - rewrite rsumN_zero by auto. ring.
  - intros i _ Hi. destruct (Nat.eqb_spec i a); [contradiction|reflexivity].
  - rewrite Nat.eqb_refl. ring.
Qed.
Lemma csumN_re f n : Re (csumN f n) = rsumN (fun i => Re (f i)) n.
Proof. induction n as [|n IH]; [reflexivity|]. cbn [csumN rsumN]. rewrite <- IH. reflexivity. Qed.
Lemma csumN_im f n : Im (csumN f n) = rsumN (fun i => Im (f i)) n.
Proof. induction n as [|n IH]; [reflexivity|]. cbn [csumN rsumN]. rewrite <- IH. reflexivity. Qed.
Lemma partOf_csumN b f n : partOf b (csumN f n) = rsumN (fun i => partOf b (f i)) n.
Proof. destruct b; [apply csumN_re|apply csumN_im]. Qed.

Lemma osum_some f g n : (forall k, (k < n)%nat -> f k = Some (g k)) -> osum f n = Some (rsumN g n).
Proof. induction n as [|n IH]; intros H; [reflexivity|]. cbn [osum rsumN]. rewrite IH by (intros; apply H; lia). rewrite H by lia. reflexivity. Qed.
Lemma osum_inv f n s : osum f n = Some s -> forall k, (k < n)%nat -> exists x, f k = Some x.
Proof.
  revert s. induction n as [|n IH]; intros s H k Hk; [lia|]. cbn [osum] in H. destruct (osum f n) as [s'|] eqn:E; [|discriminate]. cbn [bnd] in H.
  destruct (f n) as [x|] eqn:Ex; [|discriminate]. destruct (Nat.eq_dec k n) as [->|]; [eauto|]. apply (IH s'); auto; lia.
Qed.
Lemma odiv_some a b : b <> 0 -> odiv a b = Some (a / b).
Proof. intros H. unfold odiv. destruct (Req_EM_T b 0); [contradiction|reflexivity]. Qed.
Lemma odiv_inv a b x : odiv a b = Some x -> b <> 0 /\ x = a / b.
Proof. unfold odiv. destruct (Req_EM_T b 0); [discriminate|]. intros H; inversion H. now split. Qed.
Lemma oln_some x : 0 < x -> oln x = Some (ln x).
Proof. intros H. unfold oln. destruct (Rlt_dec 0 x); [reflexivity|contradiction]. Qed.
Lemma oln_inv x y : oln x = Some y -> 0 < x /\ y = ln x.
Proof. unfold oln. destruct (Rlt_dec 0 x); [|discriminate]. intros H; inversion H. now split. Qed.

Definition unitC (b : bool) : C := if b then RtoC 1 else Ci.
Lemma partOf_conj b z w : Re (z * Cconj (unitC b * w))%C = partOf b (z * Cconj w)%C.
Proof. destruct b, z, w; unfold unitC, partOf, Ci, RtoC, Cconj, Cmult, Re, Im; cbn; ring. Qed.
Lemma partOf_plus b z w : partOf b (z + w)%C = partOf b z + partOf b w.
Proof. destruct b; reflexivity. Qed.
Lemma partOf_scal b (h : R) w : partOf b (RtoC h * w)%C = h * partOf b w.
Proof. destruct b, w; unfold partOf, RtoC, Cmult, Re, Im; cbn; ring. Qed.

Lemma quad_exp bu (p q I : C) (h : R) (a b : bool) :
  Re ((p + (if a then RtoC h * unitC bu else RtoC 0)) * Cconj (q + (if b then RtoC h * unitC bu else RtoC 0)) * I)%C =
  Re (p * Cconj q * I)%C + ((if a then h * Re (unitC bu * Cconj q * I)%C else 0)
     + ((if b then h * Re (p * Cconj (unitC bu) * I)%C else 0) + (if a then (if b then h * h * Re I else 0) else 0))).
Proof. destruct p, q, I, bu, a, b; unfold unitC, Ci, RtoC, Cconj, Cmult, Cplus, Re; cbn; ring. Qed.
Lemma quad_lin bu (p I : C) (h : R) :
  h * Re (unitC bu * Cconj p * I)%C + h * Re (p * Cconj (unitC bu) * Cconj I)%C = 2 * h * partOf bu (p * Cconj I)%C.
Proof. destruct p, I, bu; unfold unitC, partOf, Ci, RtoC, Cconj, Cmult, Cplus, Re, Im; cbn; ring. Qed.

Section D.
  Context (lk : lik).
  Notation sh := (lkShape lk).
  Definition hermitian : Prop := forall e i j, (e < 2)%nat -> (i < shWaves sh e)%nat -> (j < shWaves sh e)%nat -> lkAcc lk e j i = Cconj (lkAcc lk e i j).
  Context (P : idx -> C) (t0 : idx) (b0 : bool).
  Notation r0 := (rk t0). Notation e0 := (rf t0). Notation w0 := (wv t0).
  Context (Hr0 : (r0 < shRank sh)%nat) (He0 : (e0 < 2)%nat) (Hw0 : (w0 < shWaves sh e0)%nat).
  (* amplitudes with part b0 of amplitude t0 shifted by h *)
  Definition Pdir (h : R) : idx -> C := upd P t0 (P t0 + RtoC h * unitC b0)%C.

  Definition inBlock (r e : nat) : bool := (r =? r0)%nat && (e =? e0)%nat.
  Lemma t0_eta : t0 = (r0, e0, w0). Proof. now destruct t0 as [[? ?] ?]. Qed.
  Lemma neq_w r e w : w <> w0 -> (r, e, w) <> t0. Proof. intros H E. apply H. exact (f_equal wv E). Qed.
  Lemma neq_e r e w : e <> e0 -> (r, e, w) <> t0. Proof. intros H E. apply H. exact (f_equal rf E). Qed.
  Lemma neq_r r e w : r <> r0 -> (r, e, w) <> t0. Proof. intros H E. apply H. exact (f_equal rk E). Qed.
  Lemma amp_dir h r e k : ampProdSum lk (Pdir h) r e k =
    (ampProdSum lk P r e k + (if inBlock r e then RtoC h * (unitC b0 * lkDec lk e0 k w0) else RtoC 0))%C.
  Proof.
    unfold ampProdSum, inBlock. destruct (Nat.eqb_spec r r0) as [->|Hr]; [destruct (Nat.eqb_spec e e0) as [->|He]|]; cbn [andb].
    - apply (csumN_upd _ _ _ w0); auto.
      + intros i _ Hi. unfold Pdir. rewrite upd_other; [reflexivity|]. first [now apply neq_w|now apply neq_e|now apply neq_r].
      + unfold Pdir. rewrite <- t0_eta. rewrite upd_same. ring.
    - rewrite (csumN_ext _ (fun w => (P (r0, e, w) * lkDec lk e k w)%C)); [ring|]. intros i _. unfold Pdir. rewrite upd_other; [reflexivity|]. first [now apply neq_w|now apply neq_e|now apply neq_r].
    - rewrite (csumN_ext _ (fun w => (P (r, e, w) * lkDec lk e k w)%C)); [ring|]. intros i _. unfold Pdir. rewrite upd_other; [reflexivity|]. first [now apply neq_w|now apply neq_e|now apply neq_r].
  Qed.
  Lemma normSq_exp z h w : normSq (z + RtoC h * (unitC b0 * w))%C = normSq z + (2 * h * partOf b0 (z * Cconj w)%C + h * h * normSq w).
  Proof. destruct b0, z, w; unfold normSq, unitC, partOf, Ci, RtoC, Cconj, Cmult, Cplus, Re, Im; cbn; ring. Qed.

  Lemma block_sum (f g : nat -> nat -> R) d : (forall r e, inBlock r e = false -> f r e = g r e) -> f r0 e0 = g r0 e0 + d ->
    rsumN (fun r => rsumN (fun e => f r e) 2) (shRank sh) = rsumN (fun r => rsumN (fun e => g r e) 2) (shRank sh) + d.
  Proof.
    intros H Hd. apply (rsumN_upd _ _ _ r0); auto.
    - intros r _ Hr. apply rsumN_ext. intros e _. apply H. unfold inBlock. destruct (Nat.eqb_spec r r0); [contradiction|reflexivity].
    - apply (rsumN_upd _ _ _ e0); auto. intros e _ He. apply H. unfold inBlock. destruct (Nat.eqb_spec e e0); [contradiction|]. now rewrite andb_false_r.
  Qed.
  Lemma block_true : inBlock r0 e0 = true. Proof. unfold inBlock. now rewrite !Nat.eqb_refl. Qed.

  Lemma evt_dir h f k : evtLik lk (Pdir h) f k = evtLik lk P f k + (2 * h * partOf b0 (evtDeriv lk P k t0) + h * h * normSq (lkDec lk e0 k w0)).
  Proof.
    unfold evtLik. rewrite (block_sum (fun r e => normSq (ampProdSum lk (Pdir h) r e k)) (fun r e => normSq (ampProdSum lk P r e k))
       (2 * h * partOf b0 (evtDeriv lk P k t0) + h * h * normSq (lkDec lk e0 k w0))).
    - ring.
    - intros r e Hb. rewrite amp_dir, Hb. f_equal. ring.
    - rewrite amp_dir, block_true, normSq_exp. reflexivity.
  Qed.

  Definition normDer (t : idx) (Q : idx -> C) : C := csumN (fun j => (Q (rk t, rf t, j) * Cconj (lkAcc lk (rf t) (wv t) j))%C) (shWaves sh (rf t)).
  Lemma norm_dir h f : hermitian -> normFactor lk (Pdir h) f = normFactor lk P f + (2 * h * partOf b0 (normDer t0 P) + h * h * Re (lkAcc lk e0 w0 w0)).
  Proof.
    intros Hh. unfold normFactor.
    rewrite (block_sum (fun r e => rsumN (fun i => rsumN (fun j => Re (Pdir h (r, e, i) * Cconj (Pdir h (r, e, j)) * lkAcc lk e i j)%C) (shWaves sh e)) (shWaves sh e))
                       (fun r e => rsumN (fun i => rsumN (fun j => Re (P (r, e, i) * Cconj (P (r, e, j)) * lkAcc lk e i j)%C) (shWaves sh e)) (shWaves sh e))
                       (2 * h * partOf b0 (normDer t0 P) + h * h * Re (lkAcc lk e0 w0 w0))); [ring| |].
    - intros r e Hb. apply rsumN_ext; intros i _. apply rsumN_ext; intros j _. unfold Pdir. rewrite !upd_other; [reflexivity| |];
      unfold inBlock in Hb; apply andb_false_iff in Hb as [Hb|Hb]; apply Nat.eqb_neq in Hb; first [now apply neq_e|now apply neq_r].
    - set (n := shWaves sh e0) in *. set (u := unitC b0).
      assert (Ep : forall i, Pdir h (r0, e0, i) = (P (r0, e0, i) + (if (i =? w0)%nat then RtoC h * u else RtoC 0))%C).
      { intros i. unfold Pdir. destruct (Nat.eqb_spec i w0) as [->|Hi].
        - rewrite <- t0_eta. now rewrite upd_same.
        - rewrite upd_other; [ring|]. first [now apply neq_w|now apply neq_e|now apply neq_r]. }
      transitivity (rsumN (fun i => rsumN (fun j =>
          Re (P (r0, e0, i) * Cconj (P (r0, e0, j)) * lkAcc lk e0 i j)%C
          + ((if (i =? w0)%nat then h * Re (u * Cconj (P (r0, e0, j)) * lkAcc lk e0 i j)%C else 0)
             + ((if (j =? w0)%nat then h * Re (P (r0, e0, i) * Cconj u * lkAcc lk e0 i j)%C else 0)
                + (if (i =? w0)%nat then (if (j =? w0)%nat then h * h * Re (lkAcc lk e0 i j) else 0) else 0)))) n) n).
      { apply rsumN_ext; intros i Hi. apply rsumN_ext; intros j Hj. rewrite !Ep.
        apply quad_exp. }
      rewrite (rsumN_ext _ (fun i => rsumN (fun j => Re (P (r0, e0, i) * Cconj (P (r0, e0, j)) * lkAcc lk e0 i j)%C) n
          + ((if (i =? w0)%nat then rsumN (fun j => h * Re (u * Cconj (P (r0, e0, j)) * lkAcc lk e0 i j)%C) n else 0)
             + (h * Re (P (r0, e0, i) * Cconj u * lkAcc lk e0 i w0)%C + (if (i =? w0)%nat then h * h * Re (lkAcc lk e0 i w0) else 0))))).
      2:{ intros i Hi. rewrite !rsumN_plus. f_equal. f_equal; [destruct (i =? w0)%nat; [reflexivity|now apply rsumN_zero]|]. f_equal.
          - now apply (rsumN_delta (fun j => h * Re (P (r0, e0, i) * Cconj u * lkAcc lk e0 i j)%C)).
          - destruct (i =? w0)%nat; [|now apply rsumN_zero]. now apply (rsumN_delta (fun j => h * h * Re (lkAcc lk e0 i j))). }
      rewrite !rsumN_plus. f_equal.
      rewrite (rsumN_delta (fun i => rsumN (fun j => h * Re (u * Cconj (P (r0, e0, j)) * lkAcc lk e0 i j)%C) n)) by exact Hw0.
      rewrite (rsumN_delta (fun i => h * h * Re (lkAcc lk e0 i w0))) by exact Hw0.
      rewrite <- Rplus_assoc, <- rsumN_plus. f_equal. unfold normDer. rewrite partOf_csumN, <- rsumN_mult. apply rsumN_ext. intros j Hj.
      rewrite (Hh e0 w0 j He0 Hw0 Hj). apply quad_lin.
  Qed.
  Lemma normDer_dir h t : normDer t (Pdir h) = (normDer t P + (if inBlock (rk t) (rf t) then RtoC h * (unitC b0 * Cconj (lkAcc lk (rf t) (wv t) w0)) else RtoC 0))%C.
  Proof.
    unfold normDer, inBlock. destruct (Nat.eqb_spec (rk t) r0) as [->|Hr]; [destruct (Nat.eqb_spec (rf t) e0) as [->|He]|]; cbn [andb].
    - apply (csumN_upd _ _ _ w0); auto.
      + intros i _ Hi. unfold Pdir. rewrite upd_other; [reflexivity|]. first [now apply neq_w|now apply neq_e|now apply neq_r].
      + unfold Pdir. rewrite <- t0_eta. rewrite upd_same. ring.
    - rewrite (csumN_ext _ (fun j => (P (r0, rf t, j) * Cconj (lkAcc lk (rf t) (wv t) j))%C)); [ring|]. intros i _. unfold Pdir. rewrite upd_other; [reflexivity|]. first [now apply neq_w|now apply neq_e|now apply neq_r].
    - rewrite (csumN_ext _ (fun j => (P (rk t, rf t, j) * Cconj (lkAcc lk (rf t) (wv t) j))%C)); [ring|]. intros i _. unfold Pdir. rewrite upd_other; [reflexivity|]. first [now apply neq_w|now apply neq_e|now apply neq_r].
  Qed.
  Lemma evtDeriv_dir h k t : evtDeriv lk (Pdir h) k t = (evtDeriv lk P k t + (if inBlock (rk t) (rf t) then RtoC h * (unitC b0 * lkDec lk e0 k w0 * Cconj (lkDec lk (rf t) k (wv t))) else RtoC 0))%C.
  Proof. unfold evtDeriv. rewrite amp_dir. destruct (inBlock (rk t) (rf t)); ring. Qed.
End D.

(* the same for the flat wave *)
Lemma evt_flat lk P f h k : evtLik lk P (f + h) k = evtLik lk P f k + (2 * h * f + h * h * 1).
Proof. unfold evtLik. ring. Qed.
Lemma norm_flat lk P f h : normFactor lk P (f + h) = normFactor lk P f + (2 * h * (f * lkTotAcc lk) + h * h * lkTotAcc lk).
Proof. unfold normFactor. ring. Qed.
Lemma evt_nonneg lk P f k : 0 <= evtLik lk P f k.
Proof.
  unfold evtLik. assert (H : forall g n, (forall i, 0 <= g i) -> 0 <= rsumN g n).
  { intros g n Hg. induction n; cbn [rsumN]; [lra|]. specialize (Hg n). lra. }
  assert (0 <= rsumN (fun r => rsumN (fun e => normSq (ampProdSum lk P r e k)) 2) (shRank (lkShape lk))).
  { apply H. intros r. apply H. intros e. unfold normSq. nra. }
  nra.
Qed.

(* ---- derivatives ---- *)
Lemma is_derive_rsumN (f : nat -> R -> R) (x : R) (d : nat -> R) n : (forall k, (k < n)%nat -> is_derive (f k) x (d k)) ->
  is_derive (fun h => rsumN (fun k => f k h) n) x (rsumN d n).
Proof.
  induction n as [|n IH]; intros H; cbn [rsumN].
  - apply (is_derive_const (V := R_NormedModule) 0 x).
  - apply (is_derive_plus (V := R_NormedModule)); [apply IH; intros; apply H; lia|apply H; lia].
Qed.
Lemma locally_all (p : nat -> R -> Prop) x n : (forall k, (k < n)%nat -> locally x (p k)) -> locally x (fun h => forall k, (k < n)%nat -> p k h).
Proof.
  induction n as [|n IH]; intros H.
  - exists (mkposreal 1 Rlt_0_1). intros; lia.
  - apply (filter_imp (fun h => (forall k, (k < n)%nat -> p k h) /\ p n h)).
    + intros h [A B] k Hk. destruct (Nat.eq_dec k n) as [->|]; [exact B|apply A; lia].
    + apply filter_and; [apply IH; intros; apply H; lia|apply H; lia].
Qed.
Lemma locally_pos (f : R -> R) x : continuous f x -> 0 < f x -> locally x (fun h => 0 < f h).
Proof. intros Hc Hp. apply (Hc (fun y => 0 < y)). apply (open_gt 0). exact Hp. Qed.
Lemma quad_pos a b c : 0 < a -> locally 0 (fun h => 0 < a + (2 * h * b + h * h * c)).
Proof.
  intros H. apply (locally_pos (fun h => a + (2 * h * b + h * h * c))); [|lra].
  apply (ex_derive_continuous (V := R_NormedModule)). auto_derive. exact I.
Qed.
(* from h at 0 to x at x0 *)
Lemma shift_locally (p : R -> Prop) x0 : locally 0 p -> locally x0 (fun x => p (x - x0)).
Proof.
  intros [eps H]. exists eps. intros y Hy. apply H. unfold ball in *; cbn in *. unfold AbsRing_ball, abs, minus, plus, opp in *; cbn in *.
  replace (y - x0 + - 0) with (y + - x0) by ring. exact Hy.
Qed.
Lemma shift_derive (f : R -> R) x0 d : is_derive f 0 d -> is_derive (fun x => f (x - x0)) x0 d.
Proof.
  intros H. replace d with (1 * d) by ring. apply (is_derive_comp f (fun x => x - x0) x0 d 1).
  - replace (x0 - x0) with 0 by ring. exact H.
  - auto_derive; [exact I|ring].
Qed.
