(* C62: the Jacobians used for error propagation are the derivatives of the quantities;
   that of the coherence lacks the factor normNmbEvents *)
From Coq Require Import List ZArith Reals Lia Lra Bool Psatz.
From Coquelicot Require Import Complex Hierarchy Derive Rcomplements ElemFct AutoDerive.
From Verif Require Import FitErrModel AmpIntProofs.
Import ListNotations.
Open Scope R_scope.

(* ---- sums ---- *)
Lemma rsumN_ext f g n : (forall i, (i < n)%nat -> f i = g i) -> rsumN f n = rsumN g n.
Proof. induction n as [|n IH]; intros H; cbn; [reflexivity|]. rewrite IH by (intros; apply H; lia). now rewrite H by lia. Qed.
Lemma rsumN_plus f g n : rsumN (fun i => f i + g i) n = rsumN f n + rsumN g n.
Proof. induction n as [|n IH]; cbn; [ring|]. rewrite IH. ring. Qed.
Lemma rsumN_mult c f n : rsumN (fun i => c * f i) n = c * rsumN f n.
Proof. induction n as [|n IH]; cbn; [ring|]. rewrite IH. ring. Qed.
Lemma rsumN_mult_r c f n : rsumN (fun i => f i * c) n = rsumN f n * c.
Proof. induction n as [|n IH]; cbn; [ring|]. rewrite IH. ring. Qed.
Lemma rsumN_zero f n : (forall i, (i < n)%nat -> f i = 0) -> rsumN f n = 0.
Proof. induction n as [|n IH]; intros H; cbn; [reflexivity|]. rewrite IH by (intros; apply H; lia). rewrite H by lia. ring. Qed.
Lemma rsumN_swap f n m : rsumN (fun i => rsumN (f i) m) n = rsumN (fun j => rsumN (fun i => f i j) n) m.
Proof.
  induction n as [|n IH]; cbn; [symmetry; now apply rsumN_zero|]. rewrite IH. now rewrite <- rsumN_plus.
Qed.
Lemma rsumN_app f n m : rsumN f (n + m) = rsumN f n + rsumN (fun i => f (n + i)%nat) m.
Proof. induction m as [|m IH]; [rewrite Nat.add_0_r; cbn; ring|]. rewrite Nat.add_succ_r. cbn. rewrite IH. ring. Qed.
Lemma rsumN_pairs f n : rsumN f (2 * n) = rsumN (fun i => f (2 * i)%nat + f (2 * i + 1)%nat) n.
Proof.
  induction n as [|n IH]; [reflexivity|]. replace (2 * S n)%nat with (S (S (2 * n))) by lia. cbn [rsumN]. rewrite IH.
  replace (2 * n + 1)%nat with (S (2 * n)) by lia. ring.
Qed.

(* ---------------- spin-density matrix element ---------------- *)
(* real coordinates of a variation of the amplitudes (A_0, ..., A_{m-1}, B_0, ..., B_{m-1}) *)
Definition coords (m : nat) (dA dB : nat -> C) (col : nat) : R :=
  let c := if (col <? 2 * m)%nat then col else (col - 2 * m)%nat in
  let d := if (col <? 2 * m)%nat then dA (c / 2)%nat else dB (c / 2)%nat in
  if Nat.even c then Re d else Im d.
(* matrix times vector *)
Definition apply (J : nat -> nat -> R) (dim : nat) (v : nat -> R) (row : nat) : R := rsumN (fun p => J row p * v p) dim.
Definition pairsOf (m : nat) (A B : nat -> C) : list (C * C) := map (fun k => (A k, B k)) (seq 0 m).
(* the element without the factor normNmbEvents *)
Definition elem (m : nat) (A B : nat -> C) : C := csum (fun k => (A k * Cconj (B k))%C) m.

Lemma nth_pairs m A B k d : (k < m)%nat -> nth k (pairsOf m A B) d = (A k, B k).
Proof.
  intros H. unfold pairsOf. rewrite nth_indep with (d' := (fun k => (A k, B k)) O) by (rewrite map_length, seq_length; exact H).
  rewrite (map_nth (fun k => (A k, B k)) (seq 0 m) O k). now rewrite seq_nth.
Qed.
Lemma len_pairs m A B : length (pairsOf m A B) = m.
Proof. unfold pairsOf. now rewrite map_length, seq_length. Qed.
Lemma half_even i : (2 * i / 2 = i)%nat. Proof. rewrite Nat.mul_comm. apply Nat.div_mul. lia. Qed.
Lemma half_odd i : ((2 * i + 1) / 2 = i)%nat.
Proof. rewrite Nat.mul_comm, Nat.div_add_l by lia. change (1 / 2)%nat with O. lia. Qed.
Lemma mod_even i : (2 * i mod 2 = 0)%nat. Proof. rewrite Nat.mul_comm. apply Nat.mod_mul. lia. Qed.
Lemma mod_odd i : ((2 * i + 1) mod 2 = 1)%nat.
Proof. rewrite Nat.add_comm, Nat.mul_comm, Nat.mod_add by lia. reflexivity. Qed.
Lemma even_even i : Nat.even (2 * i) = true. Proof. apply Nat.even_spec. now exists i. Qed.
Lemma even_odd i : Nat.even (2 * i + 1) = false.
Proof. rewrite <- Nat.negb_odd. apply negb_false_iff. apply Nat.odd_spec. now exists i. Qed.

Lemma apply_sdm m A B dA dB row : (row < 2)%nat ->
  apply (sdmJac (pairsOf m A B)) (4 * m) (coords m dA dB) row =
  rsumN (fun i => (if row =? 0 then Re else Im)%nat (dA i * Cconj (B i) + A i * Cconj (dB i))%C) m.
Proof.
  intros Hr. unfold apply. replace (4 * m)%nat with (2 * m + 2 * m)%nat by lia. rewrite rsumN_app, !rsumN_pairs, <- rsumN_plus.
  apply rsumN_ext. intros i Hi. unfold sdmJac, coords. rewrite len_pairs.
  assert (L1 : (2 * i <? 2 * m)%nat = true) by (apply Nat.ltb_lt; lia). assert (L2 : (2 * i + 1 <? 2 * m)%nat = true) by (apply Nat.ltb_lt; lia).
  assert (L3 : (2 * m + 2 * i <? 2 * m)%nat = false) by (apply Nat.ltb_ge; lia). assert (L4 : (2 * m + (2 * i + 1) <? 2 * m)%nat = false) by (apply Nat.ltb_ge; lia).
  rewrite L1, L2, L3, L4. replace (2 * m + 2 * i - 2 * m)%nat with (2 * i)%nat by lia. replace (2 * m + (2 * i + 1) - 2 * m)%nat with (2 * i + 1)%nat by lia.
  rewrite half_even, half_odd, mod_even, mod_odd, even_even, even_odd, nth_pairs by exact Hi. cbn [fst snd].
  destruct (A i) as [a1 a2], (B i) as [b1 b2], (dA i) as [x1 x2], (dB i) as [y1 y2].
  destruct row as [|[|row]]; [| |lia]; unfold matrixRepr, Cconj, Cmult, Cplus, Re, Im; cbn [fst snd Nat.eqb]; ring.
Qed.
Lemma csum_re f n : Re (csum f n) = rsumN (fun i => Re (f i)) n /\ Im (csum f n) = rsumN (fun i => Im (f i)) n.
Proof. induction n as [|n [IH1 IH2]]; cbn [csum rsumN]; [split; reflexivity|]. rewrite <- IH1, <- IH2. split; reflexivity. Qed.

(* C62: the Jacobian of the spin-density matrix element is its derivative: a variation
   t dA, t dB of the amplitudes changes the element by t J (dA,dB) up to order t^2 *)
Theorem C62_spin_density_jacobian : forall m A B dA dB t,
  let J := apply (sdmJac (pairsOf m A B)) (4 * m) (coords m dA dB) in
  elem m (fun k => A k + RtoC t * dA k)%C (fun k => B k + RtoC t * dB k)%C =
  (elem m A B + RtoC t * (J 0%nat, J 1%nat) + RtoC (t * t) * elem m dA dB)%C.
Proof.
  intros m A B dA dB t J. unfold J. rewrite !apply_sdm by lia. cbn [Nat.eqb].
  assert (E : (rsumN (fun i => Re (dA i * Cconj (B i) + A i * Cconj (dB i))%C) m, rsumN (fun i => Im (dA i * Cconj (B i) + A i * Cconj (dB i))%C) m)
    = csum (fun i => (dA i * Cconj (B i) + A i * Cconj (dB i))%C) m).
  { destruct (csum_re (fun i => (dA i * Cconj (B i) + A i * Cconj (dB i))%C) m) as [<- <-]. destruct (csum _ m). reflexivity. }
  rewrite E. unfold elem. rewrite <- !csum_mult_l, <- !csum_plus. apply csum_ext. intros i _.
  rewrite Cconj_plus, Cconj_mult, Cconj_R. rewrite RtoC_mult. ring.
Qed.

(* ---------------- covariances ---------------- *)
(* a real symmetric n x n matrix is positive semi-definite *)
Definition psd (n : nat) (M : nat -> nat -> R) : Prop := forall v, 0 <= rsumN (fun i => rsumN (fun j => v i * M i j * v j) n) n.

(* C62: with a positive semi-definite covariance matrix of the fit parameters the
   covariance matrix of every selection of production amplitudes is positive
   semi-definite; parameters that do not exist (index -1) count as 0 *)
Theorem C62_amplitude_covariance_psd : forall N cov covIdx indices,
  psd N (fun i j => cov (Z.of_nat i) (Z.of_nat j)) ->
  (forall k, In k indices -> (fst (covIdx k) < Z.of_nat N /\ snd (covIdx k) < Z.of_nat N)%Z) ->
  psd (2 * length indices) (prodAmpCov covIdx cov indices).
Proof.
  intros N cov covIdx indices H Hb v. set (dim := (2 * length indices)%nat).
  set (ix := parCovIndex covIdx indices).
  assert (Hix : forall p, (p < dim)%nat -> (ix p < Z.of_nat N)%Z).
  { intros p Hp. unfold ix, parCovIndex. assert (Hin : In (nth (p / 2) indices O) indices).
    { apply nth_In. apply Nat.div_lt_upper_bound; [lia|]. exact Hp. }
    destruct (Hb _ Hin). destruct (Nat.even p); lia. }
  (* contract v to the parameters *)
  set (w := fun i => rsumN (fun p => if (ix p =? Z.of_nat i)%Z then v p else 0) dim).
  assert (E : forall q, rsumN (fun i => (if (q =? Z.of_nat i)%Z then 1 else 0)) N = if ((0 <=? q) && (q <? Z.of_nat N))%Z then 1 else 0).
  { intros q. clear. induction N as [|N IH]; cbn [rsumN].
    - destruct (Z.leb_spec 0 q), (Z.ltb_spec q (Z.of_nat 0)); cbn; auto; lia.
    - rewrite IH. destruct (Z.eqb_spec q (Z.of_nat N)); destruct (Z.leb_spec 0 q), (Z.ltb_spec q (Z.of_nat N)), (Z.ltb_spec q (Z.of_nat (S N))); cbn; try lra; lia. }
  assert (Sel : forall (g : Z -> R) q, (q < Z.of_nat N)%Z -> rsumN (fun i => (if (q =? Z.of_nat i)%Z then 1 else 0) * g (Z.of_nat i)) N = if (0 <=? q)%Z then g q else 0).
  { intros g q Hq. rewrite (rsumN_ext _ (fun i => (if (q =? Z.of_nat i)%Z then 1 else 0) * g q)).
    - rewrite rsumN_mult_r, E. destruct (Z.leb_spec 0 q); cbn; [|ring]. destruct (Z.ltb_spec q (Z.of_nat N)); [ring|lia].
    - intros i _. destruct (Z.eqb_spec q (Z.of_nat i)) as [->|]; ring. }
  assert (Q : rsumN (fun i => rsumN (fun j => w i * cov (Z.of_nat i) (Z.of_nat j) * w j) N) N =
              rsumN (fun p => rsumN (fun q => v p * prodAmpCov covIdx cov indices p q * v q) dim) dim).
  { transitivity (rsumN (fun i => rsumN (fun j => rsumN (fun p => rsumN (fun q =>
       (if (ix p =? Z.of_nat i)%Z then 1 else 0) * ((if (ix q =? Z.of_nat j)%Z then 1 else 0) * (v p * cov (Z.of_nat i) (Z.of_nat j) * v q))) dim) dim) N) N).
    { apply rsumN_ext; intros i _. apply rsumN_ext; intros j _. unfold w.
      rewrite <- rsumN_mult_r, <- rsumN_mult_r. apply rsumN_ext; intros p _. rewrite <- rsumN_mult. apply rsumN_ext; intros q _.
      destruct (ix p =? Z.of_nat i)%Z, (ix q =? Z.of_nat j)%Z; ring. }
    transitivity (rsumN (fun p => rsumN (fun q => rsumN (fun i => rsumN (fun j =>
       (if (ix p =? Z.of_nat i)%Z then 1 else 0) * ((if (ix q =? Z.of_nat j)%Z then 1 else 0) * (v p * cov (Z.of_nat i) (Z.of_nat j) * v q))) N) N) dim) dim).
    { rewrite (rsumN_ext _ (fun i => rsumN (fun p => rsumN (fun j => rsumN (fun q =>
         (if (ix p =? Z.of_nat i)%Z then 1 else 0) * ((if (ix q =? Z.of_nat j)%Z then 1 else 0) * (v p * cov (Z.of_nat i) (Z.of_nat j) * v q))) dim) N) dim)) by (intros; apply rsumN_swap).
      rewrite rsumN_swap. apply rsumN_ext; intros p _.
      rewrite (rsumN_ext _ (fun i => rsumN (fun q => rsumN (fun j =>
         (if (ix p =? Z.of_nat i)%Z then 1 else 0) * ((if (ix q =? Z.of_nat j)%Z then 1 else 0) * (v p * cov (Z.of_nat i) (Z.of_nat j) * v q))) N) dim)) by (intros; apply rsumN_swap).
      apply rsumN_swap. }
    apply rsumN_ext; intros p Hp. apply rsumN_ext; intros q Hq.
    rewrite (rsumN_ext _ (fun i => (if (ix p =? Z.of_nat i)%Z then 1 else 0) * (fun x => rsumN (fun j => (if (ix q =? Z.of_nat j)%Z then 1 else 0) * (v p * cov x (Z.of_nat j) * v q)) N) (Z.of_nat i)))
      by (intros i _; now rewrite rsumN_mult).
    rewrite (Sel (fun x => rsumN (fun j => (if (ix q =? Z.of_nat j)%Z then 1 else 0) * (v p * cov x (Z.of_nat j) * v q)) N)) by auto. cbv beta.
    rewrite (Sel (fun y => v p * cov (ix p) y * v q)) by auto.
    unfold prodAmpCov. fold ix. destruct (0 <=? ix p)%Z, (0 <=? ix q)%Z; cbn [andb]; ring. }
  rewrite <- Q. apply H.
Qed.
Lemma sandwich_form dim J cov (v : nat -> R) n :
  rsumN (fun a => rsumN (fun b => v a * sandwich dim J cov a b * v b) n) n =
  rsumN (fun p => rsumN (fun q => rsumN (fun a => v a * J a p) n * cov p q * rsumN (fun b => v b * J b q) n) dim) dim.
Proof.
  unfold sandwich.
  transitivity (rsumN (fun a => rsumN (fun b => rsumN (fun p => rsumN (fun q => v a * J a p * cov p q * (v b * J b q)) dim) dim) n) n).
  { apply rsumN_ext; intros a _. apply rsumN_ext; intros b _. rewrite <- rsumN_mult, <- rsumN_mult_r. apply rsumN_ext; intros p _.
    rewrite <- rsumN_mult, <- rsumN_mult_r. apply rsumN_ext; intros q _. ring. }
  rewrite (rsumN_ext _ (fun a => rsumN (fun p => rsumN (fun b => rsumN (fun q => v a * J a p * cov p q * (v b * J b q)) dim) n) dim)) by (intros; apply rsumN_swap).
  rewrite rsumN_swap. apply rsumN_ext; intros p _.
  rewrite (rsumN_ext _ (fun a => rsumN (fun q => rsumN (fun b => v a * J a p * cov p q * (v b * J b q)) n) dim)) by (intros; apply rsumN_swap).
  rewrite rsumN_swap. apply rsumN_ext; intros q _. rewrite <- rsumN_mult_r, <- rsumN_mult_r. apply rsumN_ext; intros a _. rewrite <- rsumN_mult. reflexivity.
Qed.
(* C62: the variances of all real-valued functions of a spin-density matrix element
   (phase, overlap, intensity of one wave) are not negative, so their errors are real *)
Theorem C62_variance_not_negative : forall N pairs cov jac,
  psd (4 * length pairs) cov -> 0 <= realValVariance (sdmCov N pairs cov) jac.
Proof.
  intros N pairs cov jac H. unfold realValVariance, sdmCov.
  rewrite (rsumN_ext _ (fun p => N ^ 2 * rsumN (fun q => jac p * sandwich (4 * length pairs) (sdmJac pairs) cov p q * jac q) 2))
    by (intros p _; rewrite <- rsumN_mult; apply rsumN_ext; intros q _; ring).
  rewrite rsumN_mult. apply Rmult_le_pos; [nra|]. rewrite sandwich_form. apply H.
Qed.

(* ---------------- phase, overlap ---------------- *)
(* C62: the Jacobian of the phase is its gradient: away from 0 the phase is, up to a
   constant, atan(Im/Re) or -atan(Re/Im) *)
Theorem C62_phase_jacobian : forall x y dx dy,
  (x <> 0 -> is_derive (fun t => atan ((y + t * dy) / (x + t * dx))) 0 (phaseJac (x, y) 0 * dx + phaseJac (x, y) 1 * dy)) /\
  (y <> 0 -> is_derive (fun t => - atan ((x + t * dx) / (y + t * dy))) 0 (phaseJac (x, y) 0 * dx + phaseJac (x, y) 1 * dy)).
Proof.
  assert (D : forall a da b db, b <> 0 -> is_derive (fun t => (a + t * da) / (b + t * db)) 0 ((da * b - a * db) / (b * b))).
  { intros a da b db Hb. auto_derive; [rewrite Rmult_0_l, Rplus_0_r; auto|]. field. rewrite ?Rmult_0_l, ?Rplus_0_r. auto. }
  assert (AT : forall z, is_derive atan z (/ (1 + z ^ 2))).
  { intros z. apply is_derive_Reals. replace (/ (1 + z ^ 2)) with (/ (1 + z * z)) by (f_equal; ring).
    replace (z * z) with (z ^ 2) by ring. apply derivable_pt_lim_atan. }
  intros x y dx dy. unfold phaseJac, Re, Im. cbn [fst snd]. split; intros Hx.
  - destruct (Req_EM_T (x * x + y * y) 0) as [E|E]; [exfalso; nra|].
    evar_last; [apply (is_derive_comp atan); [apply AT|apply D; exact Hx]|].
    unfold scal; cbn; unfold mult; cbn. rewrite !Rmult_0_l, !Rplus_0_r. field; repeat split; auto; nra.
  - destruct (Req_EM_T (x * x + y * y) 0) as [E|E]; [exfalso; nra|].
    evar_last; [apply (is_derive_opp (fun t => atan ((x + t * dx) / (y + t * dy)))); apply (is_derive_comp atan); [apply AT|apply D; exact Hx]|].
    unfold scal, opp; cbn; unfold mult; cbn. rewrite !Rmult_0_l, !Rplus_0_r. field; repeat split; auto; nra.
Qed.
(* the overlap is linear in the element, with exactly this Jacobian *)
Theorem C62_overlap_jacobian : forall rho nrm : C, 2 * Re (rho * nrm)%C = overlapJac nrm 0 * Re rho + overlapJac nrm 1 * Im rho.
Proof. intros [r i] [a b]. unfold overlapJac, Cmult, Re, Im. cbn. ring. Qed.

(* ---------------- intensity of several waves ---------------- *)
(* sum over the pairs of amplitudes with equal reflectivity and rank *)
Definition intensityForm (n : nat) (amp : nat -> C) (same : nat -> nat -> bool) (normInt : nat -> nat -> C) : C :=
  csum (fun i => csum (fun j => if same i j then (amp i * Cconj (amp j) * normInt i j)%C else RtoC 0) n) n.
Lemma csumN_csum f n : csumN f n = csum f n.
Proof. induction n as [|n IH]; cbn; [reflexivity|]. now rewrite IH. Qed.
Lemma csum_swap f n m : csum (fun i => csum (f i) m) n = csum (fun j => csum (fun i => f i j) n) m.
Proof. induction n as [|n IH]; cbn; [symmetry; apply csum_zero|]. rewrite IH. now rewrite <- csum_plus. Qed.
Theorem C62_intensity_jacobian : forall n amp same normInt d t,
  (forall i j, same i j = same j i) -> (forall i j, (i < n)%nat -> (j < n)%nat -> normInt j i = Cconj (normInt i j)) ->
  Re (intensityForm n (fun k => amp k + RtoC t * d k)%C same normInt) =
  Re (intensityForm n amp same normInt)
  + t * rsumN (fun i => intJac n amp same normInt i 0 * Re (d i) + intJac n amp same normInt i 1 * Im (d i)) n
  + t * t * Re (intensityForm n d same normInt).
Proof.
  intros n amp same normInt d t Hs Hn.
  set (F := csum (fun i => csum (fun j => if same i j then (amp i * Cconj (d j) * normInt i j)%C else RtoC 0) n) n).
  set (G := csum (fun i => csum (fun j => if same i j then (d i * Cconj (amp j) * normInt i j)%C else RtoC 0) n) n).
  assert (E : intensityForm n (fun k => amp k + RtoC t * d k)%C same normInt =
    (intensityForm n amp same normInt + RtoC t * (F + G) + RtoC (t * t) * intensityForm n d same normInt)%C).
  { unfold intensityForm, F, G. rewrite <- csum_plus, <- !csum_mult_l, <- !csum_plus. apply csum_ext; intros i _.
    rewrite <- csum_plus, <- !csum_mult_l, <- !csum_plus. apply csum_ext; intros j _. destruct (same i j); [|ring].
    rewrite Cconj_plus, Cconj_mult, Cconj_R, RtoC_mult. ring. }
  assert (FG : G = Cconj F).
  { unfold F, G. rewrite csum_conj, (csum_ext (fun i => Cconj _) (fun i => csum (fun j => if same i j then (d j * Cconj (amp i) * normInt j i)%C else RtoC 0) n)).
    - rewrite csum_swap. apply csum_ext; intros i _. apply csum_ext; intros j _. rewrite (Hs i j). reflexivity.
    - intros i Hi. rewrite csum_conj. apply csum_ext; intros j Hj. destruct (same i j); [|apply Cconj_0].
      rewrite !Cconj_mult, Cconj_conj, (Hn i j) by auto. ring. }
  assert (FJ : 2 * Re F = rsumN (fun i => intJac n amp same normInt i 0 * Re (d i) + intJac n amp same normInt i 1 * Im (d i)) n).
  { unfold F. rewrite csum_swap.
    rewrite (proj1 (csum_re (fun i => csum (fun j => if same j i then (amp j * Cconj (d i) * normInt j i)%C else RtoC 0) n) n)).
    rewrite <- rsumN_mult. apply rsumN_ext; intros i Hi.
    assert (K : csum (fun j => if same j i then (amp j * Cconj (d i) * normInt j i)%C else RtoC 0) n = (ampNorm n amp same normInt i * Cconj (d i))%C).
    { unfold ampNorm. etransitivity; [|apply f_equal2; [symmetry; apply csumN_csum|reflexivity]]. etransitivity; [|apply csum_mult_r]. apply csum_ext; intros j _. destruct (same j i); ring. }
    rewrite K. unfold intJac. destruct (ampNorm n amp same normInt i), (d i). unfold Cmult, Cconj, Re, Im. cbn. ring. }
  rewrite E, FG, <- FJ. destruct (intensityForm n amp same normInt), F, (intensityForm n d same normInt).
  unfold Cplus, Cmult, Cconj, RtoC, Re. cbn. ring.
Qed.

(* ---------------- coherence ---------------- *)
Section Coherence.
  Variables (N : R) (m : nat) (A B : nat -> C) (k : nat).
  Hypothesis Hk : (k < m)%nat.
  Definition rho (A B : nat -> C) : C := (RtoC N * elem m A B)%C.
  Definition coh (A B : nat -> C) : R := cohOf (Re (rho A A)) (Re (rho B B)) (rho A B).
  (* change of one amplitude *)
  Definition shift (X : nat -> C) (z : C) (t : R) (i : nat) : C := if (i =? k)%nat then (X i + RtoC t * z)%C else X i.

  Lemma elem_shift_l (X Y : nat -> C) (z : C) t : elem m (shift X z t) Y = (elem m X Y + RtoC t * (z * Cconj (Y k)))%C.
  Proof.
    unfold elem. revert Hk. induction m as [|n IH]; intros H; [lia|]. cbn [csum].
    assert (O : forall n, (n <= k)%nat -> csum (fun i => (shift X z t i * Cconj (Y i))%C) n = csum (fun i => (X i * Cconj (Y i))%C) n).
    { intros n' Hn'. apply csum_ext. intros i Hi. unfold shift. destruct (Nat.eqb_spec i k); [lia|reflexivity]. }
    unfold shift at 2. destruct (Nat.eqb_spec n k) as [->|Hne].
    - rewrite O by lia. ring.
    - rewrite IH by lia. ring.
  Qed.
  Lemma elem_conj (X Y : nat -> C) : elem m X Y = Cconj (elem m Y X).
  Proof. unfold elem. rewrite csum_conj. apply csum_ext. intros i _. rewrite Cconj_mult, Cconj_conj. ring. Qed.
  Lemma elem_shift_r (X Y : nat -> C) (z : C) t : elem m Y (shift X z t) = (elem m Y X + RtoC t * (Y k * Cconj z))%C.
  Proof. rewrite elem_conj, elem_shift_l, (elem_conj Y X). rewrite Cconj_plus, !Cconj_mult, Cconj_conj, Cconj_R. ring. Qed.

  Hypothesis HA : 0 < Re (rho A A).
  Hypothesis HB : 0 < Re (rho B B).
  Hypothesis HAB : rho A B <> RtoC 0.

  Lemma sq_pos : 0 < Re (rho A B) * Re (rho A B) + Im (rho A B) * Im (rho A B).
  Proof.
    destruct (Req_dec (Re (rho A B)) 0) as [E|E]; destruct (Req_dec (Im (rho A B)) 0) as [F|F]; try nra.
    exfalso. apply HAB. destruct (rho A B). unfold Re, Im, RtoC in *. cbn in *. now subst.
  Qed.

  Lemma coh_curve P0 P1 P2 Q0 Q1 Q2 c : 0 < P0 -> 0 < Q0 -> 0 < c ->
    is_derive (fun t => sqrt ((P0 + t * P1 + t * t * P2) / ((Q0 + t * Q1 + t * t * Q2) * c))) 0
      ((P1 - P0 / Q0 * Q1) / (2 * (sqrt (P0 / (Q0 * c)) * Q0 * c))).
  Proof.
    intros HP HQ Hc. assert (E0 : Q0 + 0 * Q1 + 0 * 0 * Q2 = Q0) by ring. assert (E1 : P0 + 0 * P1 + 0 * 0 * P2 = P0) by ring.
    assert (Pos : 0 < P0 / (Q0 * c)) by (apply Rdiv_lt_0_compat; [exact HP|apply Rmult_lt_0_compat; auto]).
    evar_last.
    - apply (is_derive_comp sqrt (fun t => (P0 + t * P1 + t * t * P2) / ((Q0 + t * Q1 + t * t * Q2) * c))).
      + rewrite E0, E1. apply is_derive_Reals, derivable_pt_lim_sqrt. exact Pos.
      + auto_derive; [|reflexivity]. rewrite E0. apply Rgt_not_eq, Rmult_lt_0_compat; auto.
    - unfold scal; cbn; unfold mult; cbn.
      assert (sqrt (P0 / (Q0 * c)) <> 0) by (apply Rgt_not_eq, sqrt_lt_R0; exact Pos).
      assert (Q0 <> 0) by lra. assert (c <> 0) by lra.
      replace (Q0 + 0 * Q1 + 0 * 0 * Q2) with Q0 by ring. field. auto.
  Qed.

  (* C62: the derivative of the coherence with respect to the amplitude of wave A is
     normNmbEvents times the Jacobian that the code uses: the error of the coherence is
     wrong by this factor unless normNmbEvents = 1 *)
  Theorem C62_coherence_jacobian_lacks_normalisation : forall z,
    is_derive (fun t => coh (shift A z t) B) 0
      (N * (cohJacA (Re (rho A A)) (Re (rho B B)) (rho A B) (A k) (B k) 0 * Re z + cohJacA (Re (rho A A)) (Re (rho B B)) (rho A B) (A k) (B k) 1 * Im z)).
  Proof.
    intros z. pose proof sq_pos as HP.
    set (r := rho A B) in *. set (qa := Re (rho A A)) in *. set (qb := Re (rho B B)) in *.
    apply (is_derive_ext (fun t => sqrt ((Re r * Re r + Im r * Im r + t * (2 * N * (Re r * Re (z * Cconj (B k))%C + Im r * Im (z * Cconj (B k))%C))
        + t * t * (N * N * (Re (z * Cconj (B k))%C * Re (z * Cconj (B k))%C + Im (z * Cconj (B k))%C * Im (z * Cconj (B k))%C)))
        / ((qa + t * (2 * N * Re (z * Cconj (A k))%C) + t * t * (N * Re (z * Cconj z)%C)) * qb)))).
    { intros t. unfold coh, cohOf. f_equal. f_equal.
      - unfold rho at 1 2 3 4. rewrite elem_shift_l.
        assert (R1 : forall w, Re (RtoC N * (elem m A B + RtoC t * w))%C = Re r + t * (N * Re w) /\ Im (RtoC N * (elem m A B + RtoC t * w))%C = Im r + t * (N * Im w)).
        { intros [w1 w2]. unfold r, rho. destruct (elem m A B). unfold Cmult, Cplus, RtoC, Re, Im. cbn. split; ring. }
        destruct (R1 (z * Cconj (B k))%C) as [-> ->]. ring.
      - f_equal. unfold rho. rewrite elem_shift_l, elem_shift_r. unfold shift. rewrite Nat.eqb_refl.
        unfold qa, rho. destruct (elem m A A), z, (A k). unfold Cmult, Cplus, Cconj, RtoC, Re. cbn. ring. }
    evar_last; [apply coh_curve; auto|].
    assert (S0 : cohOf qa qb r <> 0).
    { unfold cohOf. apply Rgt_not_eq, sqrt_lt_R0, Rdiv_lt_0_compat; [exact HP|apply Rmult_lt_0_compat; auto]. }
    unfold cohJacA. fold (cohOf qa qb r). unfold cohOf in *.
    set (s := sqrt _) in *. assert (qa <> 0) by lra. assert (qb <> 0) by lra.
    clearbody s. clearbody qa qb r. destruct z as [z1 z2], (B k) as [b1 b2], (A k) as [a1 a2]. unfold Cmult, Cconj, Re at 5 6 7, Im at 5 6. cbn.
    unfold Re, Im. cbn. field. repeat split; auto.
  Qed.
End Coherence.

Lemma cohOf_sym qa qb r : cohOf qa qb r = cohOf qb qa (Cconj r).
Proof. unfold cohOf. destruct r as [x y]. unfold Cconj, Re, Im. cbn. f_equal. rewrite (Rmult_comm qa qb). f_equal. ring. Qed.
Lemma rho_conj N m A B : rho N m A B = Cconj (rho N m B A).
Proof. unfold rho. rewrite (elem_conj m A B), Cconj_mult, Cconj_R. reflexivity. Qed.
Lemma cohJacB_sym qa qb r a b col : cohJacB qa qb r a b col = cohJacA qb qa (Cconj r) b a col.
Proof.
  unfold cohJacB, cohJacA. rewrite <- (cohOf_sym qa qb r). destruct r as [x y], a, b. unfold Cconj, Re, Im. cbn.
  rewrite !(Rmult_assoc (cohOf qa qb (x, y))), (Rmult_comm qb qa).
  replace (x * x + - y * - y) with (x * x + y * y) by ring. destruct col; f_equal; ring.
Qed.
(* the same for the amplitudes of wave B *)
Theorem C62_coherence_jacobian_lacks_normalisation_B : forall N m A B k z, (k < m)%nat ->
  0 < Re (rho N m A A) -> 0 < Re (rho N m B B) -> rho N m A B <> RtoC 0 ->
  is_derive (fun t => coh N m A (shift k B z t)) 0
    (N * (cohJacB (Re (rho N m A A)) (Re (rho N m B B)) (rho N m A B) (A k) (B k) 0 * Re z
          + cohJacB (Re (rho N m A A)) (Re (rho N m B B)) (rho N m A B) (A k) (B k) 1 * Im z)).
Proof.
  intros N m A B k z Hk HA HB HAB. rewrite !cohJacB_sym, <- (rho_conj N m B A).
  apply (is_derive_ext (fun t => coh N m (shift k B z t) A)).
  - intros t. unfold coh. rewrite cohOf_sym. now rewrite <- (rho_conj N m A).
  - apply C62_coherence_jacobian_lacks_normalisation; auto. rewrite rho_conj. intros E. apply HAB.
    rewrite <- (Cconj_conj (rho N m A B)), E. apply Cconj_0.
Qed.

(* Consequence: two fits that differ only in the normalisation have the same coherence for
   every value of the amplitudes, but the variances that the code propagates differ by the
   factor 1/N^2 (two ranks, a concrete pair of waves) *)
Definition demoA (_ : nat) : C := RtoC 1.
Definition demoB (k : nat) : C := match k with O => (1, 1) | _ => (1, -2) end.
Lemma demo_rho N : Re (rho N 2 demoA demoA) = N * 2 /\ Re (rho N 2 demoB demoB) = N * 7 /\ rho N 2 demoA demoB = (N * 2, N * 1).
Proof.
  unfold rho, elem, demoA, demoB. cbn [csum]. unfold Cmult, Cplus, Cconj, RtoC, Re, Im. cbn.
  split; [ring|]. split; [ring|]. f_equal; ring.
Qed.
Theorem C62_coherence_demo : forall N, 0 < N ->
  0 < Re (rho N 2 demoA demoA) /\ 0 < Re (rho N 2 demoB demoB) /\ rho N 2 demoA demoB <> RtoC 0 /\
  coh N 2 demoA demoB = coh 1 2 demoA demoB /\
  cohJacB (Re (rho N 2 demoA demoA)) (Re (rho N 2 demoB demoB)) (rho N 2 demoA demoB) (demoA 0) (demoB 0) 0 =
    / N * cohJacB (Re (rho 1 2 demoA demoA)) (Re (rho 1 2 demoB demoB)) (rho 1 2 demoA demoB) (demoA 0) (demoB 0) 0 /\
  cohJacB (Re (rho 1 2 demoA demoA)) (Re (rho 1 2 demoB demoB)) (rho 1 2 demoA demoB) (demoA 0) (demoB 0) 0 <> 0.
Proof.
  intros N HN. destruct (demo_rho N) as (E1 & E2 & E3), (demo_rho 1) as (F1 & F2 & F3).
  assert (EC : forall n, 0 < n -> cohOf (n * 2) (n * 7) (n * 2, n * 1) = sqrt (5 / 14)).
  { intros n Hn. unfold cohOf, Re, Im. cbn [fst snd]. f_equal. field. lra. }
  assert (S0 : 0 < sqrt (5 / 14)) by (apply sqrt_lt_R0; lra).
  assert (JB : forall n, 0 < n -> cohJacB (n * 2) (n * 7) (n * 2, n * 1) (demoA 0) (demoB 0) 0 = / n * ((2 - 5 / 7) / (sqrt (5 / 14) * 14))).
  { intros n Hn. unfold cohJacB. rewrite EC by exact Hn. unfold demoA, demoB, RtoC, Re, Im. cbn [fst snd]. field. split; lra. }
  split; [rewrite E1; lra|]. split; [rewrite E2; lra|].
  split; [rewrite E3; intros H; injection H as H1 H2; lra|].
  split; [unfold coh; rewrite E1, E2, E3, F1, F2, F3, !EC by lra; reflexivity|].
  rewrite E1, E2, E3, F1, F2, F3, !JB by lra.
  assert (0 < (2 - 5 / 7) / (sqrt (5 / 14) * 14)) by (apply Rdiv_lt_0_compat; lra).
  split; [field; lra|]. rewrite Rinv_1, Rmult_1_l. lra.
Qed.
