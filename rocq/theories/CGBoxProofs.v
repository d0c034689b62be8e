(* The exact table of ClebschGordanBox: loop invariants. *)
From Coq Require Import ZArith Znumtheory Reals Lra Lia Bool List.
From Verif Require Import SpinSpec CGModel CGSpec CGProofs WignerProofs CGValProofs CGValProps
  ArrayModel FracModel FracSpec FracProofs FracProps FracProps2 FracProps3 CGBoxModel.
Import ListNotations.
Open Scope Z_scope.

(* signed roots *)
Lemma ssqrt_abs r : (ssqrt r * Rabs (ssqrt r) = r)%R.
Proof.
  unfold ssqrt. destruct (Rlt_dec r 0).
  - rewrite Rabs_Ropp, Rabs_right by (apply Rle_ge, sqrt_pos). pose proof (sqrt_sqrt (- r) ltac:(lra)). lra.
  - rewrite Rabs_right by (apply Rle_ge, sqrt_pos). apply sqrt_sqrt. lra.
Qed.
Lemma ssqrt_of x : ssqrt (x * Rabs x) = x.
Proof.
  unfold ssqrt. destruct (Rle_dec 0 x) as [P|P].
  - rewrite Rabs_right by lra. destruct (Rlt_dec (x * x) 0); [nra|]. now apply sqrt_square.
  - rewrite Rabs_left by lra. destruct (Rlt_dec (x * - x) 0); [|nra].
    replace (- (x * - x))%R with ((- x) * (- x))%R by ring. rewrite sqrt_square by lra. ring.
Qed.
Lemma ssqrt_unique r x : (r = x * Rabs x -> ssqrt r = x)%R.
Proof. intros ->. apply ssqrt_of. Qed.
Lemma ssqrt_mul r s : ssqrt (r * s) = (ssqrt r * ssqrt s)%R.
Proof.
  apply ssqrt_unique. rewrite Rabs_mult.
  transitivity ((ssqrt r * Rabs (ssqrt r)) * (ssqrt s * Rabs (ssqrt s)))%R; [|ring]. now rewrite !ssqrt_abs.
Qed.
Lemma ssqrt_nn r : (0 <= r -> ssqrt r = sqrt r)%R.
Proof. intros H. unfold ssqrt. destruct (Rlt_dec r 0); [lra|reflexivity]. Qed.
Lemma ssqrt_opp r : ssqrt (- r) = (- ssqrt r)%R.
Proof.
  apply ssqrt_unique. rewrite Rabs_Ropp. pose proof (ssqrt_abs r). lra.
Qed.
Lemma ssqrt_sq r : (ssqrt r * ssqrt r = Rabs r)%R.
Proof.
  unfold ssqrt. destruct (Rlt_dec r 0).
  - rewrite (Rabs_left r) by lra. pose proof (sqrt_sqrt (- r) ltac:(lra)). lra.
  - rewrite (Rabs_right r) by lra. apply sqrt_sqrt. lra.
Qed.
Lemma sgnsq_lt x y : (x * Rabs x < y * Rabs y <-> x < y)%R.
Proof.
  unfold Rabs. destruct (Rcase_abs x), (Rcase_abs y); split; intros; nra.
Qed.
Lemma ssqrt_lt r s : (r < s <-> ssqrt r < ssqrt s)%R.
Proof. rewrite <- (sgnsq_lt (ssqrt r) (ssqrt s)), !ssqrt_abs. reflexivity. Qed.
Lemma ssqrt_0 : ssqrt 0 = 0%R.
Proof. rewrite ssqrt_nn by lra. apply sqrt_0. Qed.
Lemma ssqrt_1 : ssqrt 1 = 1%R.
Proof. rewrite ssqrt_nn by lra. apply sqrt_1. Qed.

(* the entry c is the signed square of x *)
Definition good (ps : list Z) (c : frac) (x : R) : Prop :=
  finite ps c /\ honest ps c /\ ssqrt (fval ps c) = x.

Section Box.
Variable ps : list Z.
Hypothesis PL : prime_list ps.

Lemma good_val c x : good ps c x -> fval ps c = (x * Rabs x)%R.
Proof. intros (_ & _ & <-). symmetry. apply ssqrt_abs. Qed.
Lemma finite_zero : finite ps fracZero.
Proof. constructor; cbn; auto; try (split; [intros e []|intros i _; now destruct i]); intros; discriminate. Qed.
Lemma fval_zero : fval ps fracZero = 0%R.
Proof. unfold fval. cbn [sgn fracZero]. lra. Qed.
Lemma good_zero : good ps fracZero 0.
Proof.
  split; [apply finite_zero|]. split.
  - intros v Hv. injection Hv as <-. rewrite fval_zero. cbn. repeat split; try lia. unfold dvR. cbn. lra.
  - rewrite fval_zero. apply ssqrt_0.
Qed.
Lemma good_mul c q x y : good ps c x -> good ps q y -> good ps (fracMul c q) (x * y).
Proof.
  intros (F1 & H1 & V1) (F2 & H2 & V2). destruct (C13_product ps c q PL F1 F2) as (F & H & _ & V).
  split; [exact F|]. split; [exact H|]. rewrite V, ssqrt_mul, V1, V2. reflexivity.
Qed.
Lemma good_int a b f : b <> 0 -> fracInt ps a b = Some f -> good ps f (ssqrt (IZR a / IZR b)).
Proof. intros Hb H. destruct (C13_from_integers ps a b f PL Hb H) as (F & Hh & _ & V). split; [exact F|]. split; [exact Hh|]. now rewrite V. Qed.
Lemma good_flip c x : good ps c x -> good ps (flipSign c) (- x).
Proof.
  intros (F & H & V). destruct (C13_flip_sign ps c F H) as (F' & H' & V'). split; [exact F'|]. split; [exact H'|].
  rewrite V', ssqrt_opp, V. reflexivity.
Qed.

Lemma combine_minus mtwo a b r x y : good ps a x -> good ps b y -> finite ps mtwo -> (fval ps mtwo = -2)%R ->
  combine ps mtwo true a b = Some r -> good ps r (x - y).
Proof.
  intros (Fa & Ha & Va) (Fb & Hb & Vb) Fm Vm H. unfold combine in H.
  destruct (C13_product ps a b PL Fa Fb) as (Fp & Hp & _ & Vp).
  destruct (fracSqrt ps (fracMul a b)) as [[mixed ok]|] eqn:Es; [|discriminate]. cbn [bnd] in H.
  destruct ok; [|discriminate].
  destruct (C13_square_root ps _ _ PL Fp Hp Es) as (Fx & Hx & Vx).
  destruct (C13_double_value ps b PL Fb Hb) as (vb & b' & Eb & Db & B1 & B2 & Fb' & Hb' & Vb').
  destruct (C13_double_value ps a PL Fa Ha) as (va & a' & Ea & Da & A1 & A2 & Fa' & Ha' & Va').
  unfold fracGt in H. rewrite Eb, Ea in H. cbn [bnd] in H.
  destruct (fracAdd ps (fracAbs a') (fracAbs b')) as [s|] eqn:E1; [|discriminate]. cbn [bnd] in H.
  destruct (fracAdd ps s (fracMul mtwo mixed)) as [r0|] eqn:E2; [|discriminate]. cbn [bnd] in H.
  destruct (C13_absolute_value ps a' PL Fa' Ha') as (Faa & _ & Vaa).
  destruct (C13_absolute_value ps b' PL Fb' Hb') as (Fbb & _ & Vbb).
  destruct (C13_sum ps _ _ _ PL Faa Fbb E1) as (Fs & _ & _ & Vs).
  destruct (C13_product ps mtwo mixed PL Fm Fx) as (Fmm & _ & _ & Vmm).
  destruct (C13_sum ps _ _ _ PL Fs Fmm E2) as (Fr & Hr & _ & Vr).
  assert (Er : fval ps r0 = ((x - y) * (x - y))%R).
  { rewrite Vr, Vs, Vmm, Vaa, Vbb, Vx, Vp, Va', Vb', Vm, ssqrt_mul, Va, Vb, <- !ssqrt_sq, Va, Vb. ring. }
  assert (Ef : dlt va vb = true <-> (x < y)%R).
  { rewrite dlt_spec by assumption. rewrite Da, Db, <- Va, <- Vb. apply ssqrt_lt. }
  injection H as <-. destruct (dlt va vb).
  - destruct (C13_flip_sign ps r0 Fr Hr) as (F' & H' & V'). split; [exact F'|]. split; [exact H'|].
    rewrite V', Er. apply ssqrt_unique. assert (x < y)%R by now apply Ef. rewrite Rabs_left by lra. ring.
  - split; [exact Fr|]. split; [exact Hr|]. rewrite Er. apply ssqrt_unique.
    assert (~ x < y)%R by (intros C; apply Ef in C; discriminate). rewrite Rabs_right by lra. ring.
Qed.
Lemma combine_plus two a b r x y : good ps a x -> good ps b y -> finite ps two -> (fval ps two = 2)%R ->
  combine ps two false a b = Some r -> good ps r (Rabs (x + y)).
Proof.
  intros (Fa & Ha & Va) (Fb & Hb & Vb) Fm Vm H. unfold combine in H.
  destruct (C13_product ps a b PL Fa Fb) as (Fp & Hp & _ & Vp).
  destruct (fracSqrt ps (fracMul a b)) as [[mixed ok]|] eqn:Es; [|discriminate]. cbn [bnd] in H.
  destruct ok; [|discriminate].
  destruct (C13_square_root ps _ _ PL Fp Hp Es) as (Fx & Hx & Vx).
  destruct (fracAdd ps (fracAbs a) (fracAbs b)) as [s|] eqn:E1; [|discriminate]. cbn [bnd] in H.
  destruct (C13_absolute_value ps a PL Fa Ha) as (Faa & _ & Vaa).
  destruct (C13_absolute_value ps b PL Fb Hb) as (Fbb & _ & Vbb).
  destruct (C13_sum ps _ _ _ PL Faa Fbb E1) as (Fs & _ & _ & Vs).
  destruct (C13_product ps two mixed PL Fm Fx) as (Fmm & _ & _ & Vmm).
  destruct (C13_sum ps _ _ _ PL Fs Fmm H) as (Fr & Hr & _ & Vr).
  split; [exact Fr|]. split; [exact Hr|].
  assert (Er : fval ps r = ((x + y) * (x + y))%R).
  { rewrite Vr, Vs, Vmm, Vaa, Vbb, Vx, Vp, Vm, ssqrt_mul, Va, Vb, <- !ssqrt_sq, Va, Vb. ring. }
  rewrite Er. apply ssqrt_unique. rewrite Rabs_Rabsolu. rewrite <- Rabs_mult. rewrite Rabs_right by (apply Rle_ge, Rle_0_sqr). ring.
Qed.

(* vector access *)
Lemma rd_wr_same {A} (v : list A) i x v' : wr v i x = Some v' -> rd v' i = Some x.
Proof.
  revert i v'. induction v as [|h t IH]; intros [|i] v' H; cbn in H; try discriminate.
  - injection H as <-. reflexivity.
  - destruct (wr t i x) as [t'|] eqn:E; [|discriminate]. injection H as <-. cbn. now apply IH.
Qed.
Lemma rd_wr_other {A} (v : list A) i x v' j : wr v i x = Some v' -> j <> i -> rd v' j = rd v j.
Proof.
  revert i v' j. induction v as [|h t IH]; intros [|i] v' j H N; cbn in H; try discriminate.
  - injection H as <-. destruct j; [congruence|reflexivity].
  - destruct (wr t i x) as [t'|] eqn:E; [|discriminate]. injection H as <-. destruct j; [reflexivity|]. cbn. apply (IH i t' j E). congruence.
Qed.
Lemma wr_length {A} (v : list A) i x v' : wr v i x = Some v' -> length v' = length v.
Proof.
  revert i v'. induction v as [|h t IH]; intros [|i] v' H; cbn in H; try discriminate.
  - injection H as <-. reflexivity.
  - destruct (wr t i x) as [t'|] eqn:E; [|discriminate]. injection H as <-. cbn. f_equal. now apply (IH i).
Qed.
Lemma rdz_wrz_same v i x v' : wrz v i x = Some v' -> rdz v' i = Some x.
Proof. unfold wrz, rdz. destruct (i <? 0); [discriminate|]. apply rd_wr_same. Qed.
Lemma rdz_wrz_other v i x v' j : wrz v i x = Some v' -> j <> i -> rdz v' j = rdz v j.
Proof.
  unfold wrz, rdz. destruct (i <? 0) eqn:E; [discriminate|]. intros H N. destruct (j <? 0) eqn:E'; [reflexivity|].
  apply Z.ltb_ge in E, E'. apply (rd_wr_other _ _ _ _ _ H). lia.
Qed.

Lemma foldO_seq {A} (f : Z -> A -> option A) (g : nat -> Z) (P : nat -> A -> Prop) n : forall s a a',
  P s a -> (forall k x x', (s <= k < s + n)%nat -> P k x -> f (g k) x = Some x' -> P (S k) x') ->
  foldO f (map g (seq s n)) a = Some a' -> P (s + n)%nat a'.
Proof.
  induction n as [|n IH]; intros s a a' H0 HS H; cbn [seq map foldO] in H.
  - injection H as <-. now rewrite Nat.add_0_r.
  - destruct (f (g s) a) as [b|] eqn:E; [|discriminate]. cbn [bnd] in H.
    replace (s + S n)%nat with (S s + n)%nat by lia. apply (IH (S s) b a'); [|intros k x x' Hk; apply HS; lia|exact H].
    apply (HS s a b); [lia|exact H0|exact E].
Qed.

Variables J J1 J2 : Z.
Hypothesis HC : couples J1 J2 J.

(* the value of the entry (p,q), m1 = 2p-J1, m2 = 2q-J2 *)
Definition cgAt (p q : Z) : R := CG J1 (2 * p - J1) J2 (2 * q - J2) J (2 * (p + q) - J1 - J2).
Definition lam : R := (/ cgAt 0 J2)%R.

Lemma J_range : 0 <= J1 /\ 0 <= J2 /\ Z.abs (J1 - J2) <= J <= J1 + J2 /\ exists k, J = Z.abs (J1 - J2) + 2 * k.
Proof. destruct HC as (? & ? & k & ? & ? & ?). repeat split; try lia. exists k. lia. Qed.

(* the coefficients with m2 = J2 have one sign *)
Lemma top_row_sign p : 0 <= p -> - J <= 2 * p - J1 + J2 <= J ->
  (0 < IZR (minusOnePow ((J1 + J2 - J) / 2)) * cgAt p J2)%R.
Proof.
  intros Hp HM. destruct J_range as (R1 & R2 & R3 & k & R4).
  assert (exists d : nat, 2 * p - J1 + J2 + 2 * Z.of_nat d = J) as (d & Ed).
  { destruct (Z.le_ge_cases J1 J2); [exists (Z.to_nat (k - p))|exists (Z.to_nat (k + J1 - J2 - p))]; lia. }
  revert p Hp HM Ed. induction d as [|d IH]; intros p Hp HM Ed.
  - pose proof (top_last_sign J1 J2 J HC) as T. unfold cgAt.
    replace (2 * p - J1) with (J - J2) by lia. replace (2 * J2 - J2) with J2 by lia. replace (2 * (p + J2) - J1 - J2) with J by lia. exact T.
  - specialize (IH (p + 1) ltac:(lia) ltac:(lia) ltac:(lia)). unfold cgAt in *.
    pose proof (C69_lowering_ladder J1 (2 * p - J1) J2 (2 * J2 - J2) J (2 * (p + J2) - J1 - J2)) as L.
    rewrite (CG_out2 J1 (2 * p - J1) J2 (2 * J2 - J2 + 2)) in L by lia. rewrite Rmult_0_r, Rplus_0_r in L.
    replace (2 * p - J1 + 2) with (2 * (p + 1) - J1) in L by lia.
    replace (2 * (p + J2) - J1 - J2 + 2) with (2 * (p + 1 + J2) - J1 - J2) in L by lia.
    set (s := IZR (minusOnePow ((J1 + J2 - J) / 2))) in *.
    set (X := CG J1 (2 * p - J1) J2 (2 * J2 - J2) J (2 * (p + J2) - J1 - J2)) in *.
    set (Y := CG J1 (2 * (p + 1) - J1) J2 (2 * J2 - J2) J (2 * (p + 1 + J2) - J1 - J2)) in *.
    match type of L with (sqrt ?u * _ = sqrt ?v * _)%R => assert (0 < sqrt u)%R by (apply sqrt_lt_R0, IZR_lt; nia); assert (0 < sqrt v)%R by (apply sqrt_lt_R0, IZR_lt; nia);
      set (U := sqrt u) in *; set (W := sqrt v) in * end.
    apply (Rmult_lt_reg_l U); [assumption|]. rewrite Rmult_0_r. replace (U * (s * X))%R with (s * (U * X))%R by ring. rewrite L.
    replace (s * (W * Y))%R with (W * (s * Y))%R by ring. now apply Rmult_lt_0_compat.
Qed.
Lemma cg0_nz : cgAt 0 J2 <> 0%R.
Proof.
  destruct J_range as (R1 & R2 & R3 & k & R4). pose proof (top_row_sign 0 ltac:(lia) ltac:(lia)) as T. intros E. rewrite E in T. lra.
Qed.
Lemma lam_nz : lam <> 0%R.
Proof. unfold lam. apply Rinv_neq_0_compat, cg0_nz. Qed.
Lemma lam_row p : 0 <= p -> (0 <= lam * cgAt p J2)%R.
Proof.
  intros Hp. destruct J_range as (R1 & R2 & R3 & k & R4).
  destruct (Z_lt_le_dec J (2 * p - J1 + J2)).
  - assert (cgAt p J2 = 0)%R as -> by (unfold cgAt; apply CG_out; lia). lra.
  - pose proof (top_row_sign 0 ltac:(lia) ltac:(lia)) as T0.
    pose proof (top_row_sign p Hp ltac:(lia)) as Tp. set (s := IZR (minusOnePow ((J1 + J2 - J) / 2))) in *.
    assert (s * s = 1)%R by apply sign_sq.
    assert (0 < (s * cgAt 0 J2) * (s * cgAt p J2))%R as P by now apply Rmult_lt_0_compat.
    assert (0 < cgAt 0 J2 * cgAt p J2)%R as P' by nra. unfold lam.
    pose proof cg0_nz as N.
    replace (/ cgAt 0 J2 * cgAt p J2)%R with ((cgAt 0 J2 * cgAt p J2) * (/ cgAt 0 J2 * / cgAt 0 J2))%R by (field; exact N).
    apply Rmult_le_pos; [lra|]. apply Rle_0_sqr.
Qed.

Definition pos (p q : Z) : Z := p * (J2 + 1) + q.
Lemma pos_quot p q : Z.quot ((2 * p - J1 + J1) * (J2 + 1) + (2 * q - J2 + J2)) 2 = pos p q.
Proof.
  unfold pos. replace ((2 * p - J1 + J1) * (J2 + 1) + (2 * q - J2 + J2)) with ((p * (J2 + 1) + q) * 2) by ring.
  apply Z.quot_mul. lia.
Qed.
Lemma pos_inj p q p' q' : 0 <= q <= J2 -> 0 <= q' <= J2 -> pos p q = pos p' q' -> p = p' /\ q = q'.
Proof.
  unfold pos. intros H H' E. assert (p = p') by (destruct (Z.lt_trichotomy p p') as [?|[?|?]]; [nia|assumption|nia]). lia.
Qed.

(* the entry (p,q) holds its value *)
Definition at_ (v : list frac) (p q : Z) : Prop := exists c, rdz v (pos p q) = Some c /\ good ps c (lam * cgAt p q).
Lemma at_keep v v' i x p q : wrz v i x = Some v' -> pos p q <> i -> at_ v p q -> at_ v' p q.
Proof. intros W N (c & R & G). exists c. split; [|exact G]. now rewrite (rdz_wrz_other _ _ _ _ _ W N). Qed.
Lemma at_read v p q i c : at_ v p q -> rdz v i = Some c -> i = pos p q -> good ps c (lam * cgAt p q).
Proof. intros (c' & R & G) R' ->. congruence. Qed.
Lemma at_write v v' p q i x : wrz v i x = Some v' -> i = pos p q -> good ps x (lam * cgAt p q) -> at_ v' p q.
Proof. intros W -> G. exists x. split; [|exact G]. now apply (rdz_wrz_same v). Qed.

Lemma ratio u d : 0 <= u -> 0 < d -> ssqrt (IZR u / IZR d) = (sqrt (IZR u) / sqrt (IZR d))%R.
Proof.
  intros Hu Hd. assert (0 < IZR d)%R by now apply (IZR_lt 0). assert (0 <= IZR u)%R by now apply (IZR_le 0).
  rewrite ssqrt_nn; [now apply sqrt_div_alt|]. apply Rmult_le_pos; [assumption|]. apply Rlt_le. now apply Rinv_0_lt_compat.
Qed.
Lemma sqrt_pos_nz d : 0 < d -> sqrt (IZR d) <> 0%R.
Proof. intros H. apply Rgt_not_eq, sqrt_lt_R0. now apply (IZR_lt 0). Qed.

Lemma innerStep_ok mtwo p q v v' : 0 <= p <= J1 -> 0 <= q < J2 -> finite ps mtwo -> (fval ps mtwo = -2)%R ->
  (p = 0 -> at_ v 0 (q + 1)) -> (0 < p -> at_ v (p - 1) q /\ at_ v (p - 1) (q + 1)) ->
  innerStep ps J J1 J2 (- J1) (2 * p - J1) mtwo (2 * q - J2) v = Some v' ->
  exists x, wrz v (pos p q) x = Some v' /\ good ps x (lam * cgAt p q).
Proof.
  intros Hp Hq Fm Vm H0 H1 H. destruct J_range as (R1 & R2 & R3 & k & R4).
  unfold innerStep in H. rewrite pos_quot in H.
  assert (EM : (2 * p - J1 + (2 * q - J2) = 2 * (p + q) - J1 - J2)) by lia. rewrite EM in H.
  set (M := 2 * (p + q) - J1 - J2) in *.
  destruct ((M <? - J) || (M >? J)) eqn:Eout.
  { exists fracZero. split; [exact H|]. assert (cgAt p q = 0%R) as ->; [|rewrite Rmult_0_r; apply good_zero].
    unfold cgAt. apply CG_out. fold M. apply orb_true_iff in Eout. rewrite Z.ltb_lt, Z.gtb_lt in Eout. lia. }
  apply orb_false_iff in Eout. rewrite Z.ltb_ge, Z.gtb_ltb, Z.ltb_ge in Eout.
  destruct (Z.eqb_spec (2 * p - J1) (- J1)) as [Ep|Ep].
  - assert (p = 0) as -> by lia. destruct (rdz v (pos 0 q + 1)) as [c|] eqn:Ec; [|discriminate]. cbn [bnd] in H.
    destruct (fracInt ps _ _) as [qq|] eqn:Eq in H; [|discriminate]. cbn [bnd] in H.
    eexists. split; [exact H|].
    pose proof (at_read _ _ _ _ _ (H0 eq_refl) Ec ltac:(unfold pos; lia)) as Gc.
    apply good_int in Eq; [|nia]. rewrite ratio in Eq by nia.
    replace (lam * cgAt 0 q)%R with (lam * cgAt 0 (q + 1) * (sqrt (IZR ((J - M) * (J + M + 2))) / sqrt (IZR ((J2 - (2 * q - J2)) * (J2 + (2 * q - J2) + 2)))))%R; [now apply good_mul|].
    pose proof (C69_raising_ladder J1 (2 * 0 - J1) J2 (2 * (q + 1) - J2) J (M + 2)) as L.
    rewrite (CG_out1 J1 (2 * 0 - J1 - 2)) in L by lia. rewrite Rmult_0_r, Rplus_0_l in L.
    replace ((J + (M + 2)) * (J - (M + 2) + 2)) with ((J - M) * (J + M + 2)) in L by ring.
    replace ((J2 + (2 * (q + 1) - J2)) * (J2 - (2 * (q + 1) - J2) + 2)) with ((J2 - (2 * q - J2)) * (J2 + (2 * q - J2) + 2)) in L by ring.
    replace (2 * (q + 1) - J2 - 2) with (2 * q - J2) in L by lia. replace (M + 2 - 2) with M in L by lia.
    unfold cgAt. fold M. replace (2 * (0 + (q + 1)) - J1 - J2) with (M + 2) by (unfold M; lia).
    set (X := CG J1 (2 * 0 - J1) J2 (2 * (q + 1) - J2) J (M + 2)) in *. set (Y := CG J1 (2 * 0 - J1) J2 (2 * q - J2) J M) in *.
    assert (D := sqrt_pos_nz ((J2 - (2 * q - J2)) * (J2 + (2 * q - J2) + 2)) ltac:(nia)).
    apply (Rmult_eq_reg_r (sqrt (IZR ((J2 - (2 * q - J2)) * (J2 + (2 * q - J2) + 2))))); [|exact D].
    rewrite !Rmult_assoc. rewrite (Rmult_comm Y), <- L. field. exact D.
  - destruct (H1 ltac:(lia)) as [A1 A2]. set (m1 := 2 * p - J1) in *. set (m2 := 2 * q - J2) in *.
    pose proof (C69_lowering_ladder J1 (m1 - 2) J2 m2 J (M - 2)) as L.
    replace ((J1 - (m1 - 2)) * (J1 + (m1 - 2) + 2)) with ((J1 + m1) * (J1 - m1 + 2)) in L by ring.
    replace ((J - (M - 2)) * (J + (M - 2) + 2)) with ((J + M) * (J - M + 2)) in L by ring.
    replace (m1 - 2 + 2) with m1 in L by lia. replace (M - 2 + 2) with M in L by lia.
    assert (C1 : cgAt (p - 1) q = CG J1 (m1 - 2) J2 m2 J (M - 2)) by (unfold cgAt, m1, m2, M; f_equal; lia).
    assert (C2 : cgAt (p - 1) (q + 1) = CG J1 (m1 - 2) J2 (m2 + 2) J M) by (unfold cgAt, m1, m2, M; f_equal; lia).
    assert (C3 : cgAt p q = CG J1 m1 J2 m2 J M) by reflexivity.
    rewrite <- C1, <- C2, <- C3 in L.
    assert (Dp : 0 < (J1 + m1) * (J1 - m1 + 2)) by (unfold m1; nia).
    assert (D := sqrt_pos_nz _ Dp).
    destruct (Z.eqb_spec M (- J)) as [EJ|EJ]; cbn [negb] in H.
    + destruct (rdz v (pos p q - (J2 + 1) + 1)) as [c|] eqn:Ec; [|discriminate]. cbn [bnd] in H.
      destruct (fracInt ps _ _) as [qq|] eqn:Eq in H; [|discriminate]. cbn [bnd] in H.
      eexists. split; [exact H|].
      pose proof (at_read _ _ _ _ _ A2 Ec ltac:(unfold pos; lia)) as Gc.
      apply good_int in Eq; [|lia].
      replace (- (J2 - m2) * (J2 + m2 + 2)) with (- ((J2 - m2) * (J2 + m2 + 2))) in Eq by ring.
      rewrite opp_IZR in Eq. unfold Rdiv in Eq. rewrite Ropp_mult_distr_l_reverse, ssqrt_opp in Eq.
      fold (Rdiv (IZR ((J2 - m2) * (J2 + m2 + 2))) (IZR ((J1 + m1) * (J1 - m1 + 2)))) in Eq.
      rewrite ratio in Eq by (unfold m2 in *; nia).
      pose proof (good_mul _ _ _ _ Gc Eq) as GG. 
      replace (lam * cgAt p q)%R with (lam * cgAt (p - 1) (q + 1) * - (sqrt (IZR ((J2 - m2) * (J2 + m2 + 2))) / sqrt (IZR ((J1 + m1) * (J1 - m1 + 2)))))%R; [exact GG|].
      replace ((J + M) * (J - M + 2)) with 0 in L by (rewrite EJ; ring). rewrite sqrt_0, Rmult_0_l in L.
      apply (Rmult_eq_reg_r (sqrt (IZR ((J1 + m1) * (J1 - m1 + 2))))); [|exact D].
      transitivity (- (lam * (sqrt (IZR ((J2 - m2) * (J2 + m2 + 2))) * cgAt (p - 1) (q + 1))))%R; [field; exact D|].
      match type of L with (_ = ?a * ?c + ?b * ?x)%R => replace (lam * c * a)%R with (lam * (a * c))%R by ring; replace (a * c)%R with (- (b * x))%R by lra end. ring.
    + destruct (rdz v (pos p q - (J2 + 1))) as [c1|] eqn:Ec1; [|discriminate]. cbn [bnd] in H.
      destruct (fracInt ps ((J + M) * (J - M + 2)) _) as [q1|] eqn:Eq1 in H; [|discriminate]. cbn [bnd] in H.
      destruct (rdz v (pos p q - (J2 + 1) + 1)) as [c2|] eqn:Ec2; [|discriminate]. cbn [bnd] in H.
      destruct (fracInt ps ((J2 - m2) * (J2 + m2 + 2)) _) as [q2|] eqn:Eq2 in H; [|discriminate]. cbn [bnd] in H.
      destruct (combine ps mtwo true _ _) as [r|] eqn:Er in H; [|discriminate]. cbn [bnd] in H.
      exists r. split; [exact H|].
      pose proof (at_read _ _ _ _ _ A1 Ec1 ltac:(unfold pos; lia)) as G1.
      pose proof (at_read _ _ _ _ _ A2 Ec2 ltac:(unfold pos; lia)) as G2.
      apply good_int in Eq1; [|lia]. apply good_int in Eq2; [|lia].
      rewrite ratio in Eq1 by nia. rewrite ratio in Eq2 by (unfold m2 in *; nia).
      pose proof (combine_minus _ _ _ _ _ _ (good_mul _ _ _ _ G1 Eq1) (good_mul _ _ _ _ G2 Eq2) Fm Vm Er) as GG.
      match type of GG with good _ _ ?z => replace (lam * cgAt p q)%R with z; [exact GG|] end.
      apply (Rmult_eq_reg_r (sqrt (IZR ((J1 + m1) * (J1 - m1 + 2))))); [|exact D].
      transitivity (lam * (sqrt (IZR ((J + M) * (J - M + 2))) * cgAt (p - 1) q) - lam * (sqrt (IZR ((J2 - m2) * (J2 + m2 + 2))) * cgAt (p - 1) (q + 1)))%R; [field; exact D|].
      rewrite L. ring.
Qed.

Lemma topStep_ok two p v v' : 0 < p <= J1 -> finite ps two -> (fval ps two = 2)%R ->
  at_ v (p - 1) J2 -> (0 < J2 -> at_ v p (J2 - 1)) ->
  topStep ps J J1 J2 (- J1) (2 * p - J1) two v = Some v' ->
  exists x, wrz v (pos p J2) x = Some v' /\ good ps x (lam * cgAt p J2).
Proof.
  intros Hp Fm Vm A1 A2 H. destruct J_range as (R1 & R2 & R3 & k & R4).
  unfold topStep in H.
  replace (Z.quot ((2 * p - J1 + J1) * (J2 + 1) + (J2 + J2)) 2) with (pos p J2) in H
    by (rewrite <- pos_quot; f_equal; lia).
  set (m1 := 2 * p - J1) in *. set (M := m1 + J2) in *.
  destruct ((M <? - J) || (M >? J)) eqn:Eout.
  { exists fracZero. split; [exact H|]. assert (cgAt p J2 = 0%R) as ->; [|rewrite Rmult_0_r; apply good_zero].
    unfold cgAt. apply CG_out. apply orb_true_iff in Eout. rewrite Z.ltb_lt, Z.gtb_lt in Eout. unfold M, m1 in Eout. lia. }
  apply orb_false_iff in Eout. rewrite Z.ltb_ge, Z.gtb_ltb, Z.ltb_ge in Eout.
  replace ((m1 >? - J1) && (m1 <=? - - J1)) with true in H.
  2:{ symmetry. apply andb_true_iff. rewrite Z.gtb_lt, Z.leb_le. unfold m1. lia. }
  destruct (rdz v (pos p J2 - (J2 + 1))) as [c1|] eqn:Ec1; [|discriminate]. cbn [bnd] in H.
  destruct (fracInt ps ((J1 + m1) * (J1 - m1 + 2)) _) as [q1|] eqn:Eq1 in H; [|discriminate]. cbn [bnd] in H.
  destruct (rdz v (pos p J2 - 1)) as [c2|] eqn:Ec2; [|discriminate]. cbn [bnd] in H.
  destruct (fracInt ps ((J2 + J2) * (J2 - J2 + 2)) _) as [q2|] eqn:Eq2 in H; [|discriminate]. cbn [bnd] in H.
  destruct (combine ps two false _ _) as [r|] eqn:Er in H; [|discriminate]. cbn [bnd] in H.
  exists r. split; [exact H|].
  assert (Dp : 0 < (J - M + 2) * (J + M)) by (unfold M, m1 in *; nia). assert (D := sqrt_pos_nz _ Dp).
  pose proof (at_read _ _ _ _ _ A1 Ec1 ltac:(unfold pos; lia)) as G1.
  apply good_int in Eq1; [|lia]. apply good_int in Eq2; [|lia].
  rewrite ratio in Eq1 by (unfold m1 in *; nia). rewrite ratio in Eq2 by nia.
  assert (exists y, good ps c2 y /\ (sqrt (IZR ((J2 + J2) * (J2 - J2 + 2))) * y = sqrt (IZR ((J2 + J2) * (J2 - J2 + 2))) * (lam * cgAt p (J2 - 1)))%R) as (y & G2 & Ey).
  { destruct (Z.eq_dec J2 0) as [E0|N0].
    - exists (lam * cgAt (p - 1) J2)%R. split.
      + apply (at_read _ _ _ _ _ A1 Ec2 ltac:(unfold pos; rewrite E0; lia)).
      + rewrite E0. cbn. rewrite sqrt_0. ring.
    - exists (lam * cgAt p (J2 - 1))%R. split; [|reflexivity].
      apply (at_read _ _ _ _ _ (A2 ltac:(lia)) Ec2 ltac:(unfold pos; lia)). }
  pose proof (combine_plus _ _ _ _ _ _ (good_mul _ _ _ _ G1 Eq1) (good_mul _ _ _ _ G2 Eq2) Fm Vm Er) as GG.
  pose proof (C69_raising_ladder J1 m1 J2 J2 J M) as L.
  assert (C1 : cgAt (p - 1) J2 = CG J1 (m1 - 2) J2 J2 J (M - 2)) by (unfold cgAt, m1, M; f_equal; lia).
  assert (C2 : cgAt p (J2 - 1) = CG J1 m1 J2 (J2 - 2) J (M - 2)) by (unfold cgAt, m1, M; f_equal; lia).
  assert (C3 : cgAt p J2 = CG J1 m1 J2 J2 J M) by (unfold cgAt, m1, M; f_equal; lia).
  rewrite <- C1, <- C2, <- C3 in L.
  match type of GG with good _ _ (Rabs ?z) => assert (z = lam * cgAt p J2)%R as Ez end.
  { apply (Rmult_eq_reg_r (sqrt (IZR ((J - M + 2) * (J + M))))); [|exact D].
    transitivity (lam * (sqrt (IZR ((J1 + m1) * (J1 - m1 + 2))) * cgAt (p - 1) J2) + sqrt (IZR ((J2 + J2) * (J2 - J2 + 2))) * y)%R; [field; exact D|].
    rewrite Ey. replace ((J - M + 2) * (J + M)) with ((J + M) * (J - M + 2)) by ring.
    transitivity (lam * (sqrt (IZR ((J + M) * (J - M + 2))) * cgAt p J2))%R; [rewrite L; ring|ring]. }
  rewrite Ez in GG. rewrite Rabs_right in GG; [exact GG|]. apply Rle_ge, lam_row. lia.
Qed.

Lemma lowStep_ok mtwo p v v' : 0 < p <= J1 -> finite ps mtwo -> (fval ps mtwo = -2)%R ->
  (forall q, 0 <= q <= J2 -> at_ v (p - 1) q /\ at_ v p q) ->
  lowStep ps J J1 J2 (- J1) (2 * p - J1) mtwo v = Some v' ->
  v' = v \/ exists q x, 0 <= q <= J2 /\ wrz v (pos p q) x = Some v' /\ good ps x (lam * cgAt p q).
Proof.
  intros Hp Fm Vm A H. destruct J_range as (R1 & R2 & R3 & k & R4).
  unfold lowStep in H. destruct (_ && (J + (2 * p - J1) <=? J2)) eqn:Ec in H; [|injection H as <-; now left].
  right. rewrite !andb_true_iff, Z.leb_le in Ec. destruct Ec as (_ & Elow).
  assert (exists q, 2 * q - J2 = - J - (2 * p - J1)) as (q & Eq).
  { destruct (Z.le_ge_cases J1 J2); [exists (J1 - k - p)|exists (J2 - k - p)]; lia. }
  assert (Hq : 0 <= q < J2) by lia. rewrite <- Eq in H. rewrite pos_quot in H.
  set (m1 := 2 * p - J1) in *. set (m2 := 2 * q - J2) in *.
  destruct (A (q + 1) ltac:(lia)) as [A2 A1].
  destruct (rdz v (pos p q + 1)) as [c1|] eqn:Ec1; [|discriminate]. cbn [bnd] in H.
  destruct (fracInt ps ((J - - J) * (J + - J + 2)) _) as [q1|] eqn:Eq1 in H; [|discriminate]. cbn [bnd] in H.
  destruct (rdz v (pos p q - (J2 + 1) + 1)) as [c2|] eqn:Ec2; [|discriminate]. cbn [bnd] in H.
  destruct (fracInt ps ((J1 + m1) * (J1 - m1 + 2)) _) as [q2|] eqn:Eq2 in H; [|discriminate]. cbn [bnd] in H.
  destruct (combine ps mtwo true _ _) as [r|] eqn:Er in H; [|discriminate]. cbn [bnd] in H.
  exists q, r. split; [lia|]. split; [exact H|].
  assert (Dp : 0 < (J2 - m2) * (J2 + m2 + 2)) by (unfold m2; nia). assert (D := sqrt_pos_nz _ Dp).
  pose proof (at_read _ _ _ _ _ A1 Ec1 ltac:(unfold pos; lia)) as G1.
  pose proof (at_read _ _ _ _ _ A2 Ec2 ltac:(unfold pos; lia)) as G2.
  apply good_int in Eq1; [|lia]. apply good_int in Eq2; [|lia].
  rewrite ratio in Eq1 by nia. rewrite ratio in Eq2 by (unfold m1 in *; nia).
  pose proof (combine_minus _ _ _ _ _ _ (good_mul _ _ _ _ G1 Eq1) (good_mul _ _ _ _ G2 Eq2) Fm Vm Er) as GG.
  pose proof (C69_raising_ladder J1 m1 J2 (m2 + 2) J (- J + 2)) as L.
  replace ((J + (- J + 2)) * (J - (- J + 2) + 2)) with ((J - - J) * (J + - J + 2)) in L by ring.
  replace ((J2 + (m2 + 2)) * (J2 - (m2 + 2) + 2)) with ((J2 - m2) * (J2 + m2 + 2)) in L by ring.
  replace (- J + 2 - 2) with (- J) in L by lia. replace (m2 + 2 - 2) with m2 in L by lia.
  assert (C1 : cgAt p (q + 1) = CG J1 m1 J2 (m2 + 2) J (- J + 2)) by (unfold cgAt; f_equal; unfold m1, m2 in *; lia).
  assert (C2 : cgAt (p - 1) (q + 1) = CG J1 (m1 - 2) J2 (m2 + 2) J (- J)) by (unfold cgAt; f_equal; unfold m1, m2 in *; lia).
  assert (C3 : cgAt p q = CG J1 m1 J2 m2 J (- J)) by (unfold cgAt; f_equal; unfold m1, m2 in *; lia).
  rewrite <- C1, <- C2, <- C3 in L.
  match type of GG with good _ _ ?z => replace (lam * cgAt p q)%R with z; [exact GG|] end.
  apply (Rmult_eq_reg_r (sqrt (IZR ((J2 - m2) * (J2 + m2 + 2))))); [|exact D].
  transitivity (lam * (sqrt (IZR ((J - - J) * (J + - J + 2))) * cgAt p (q + 1)) - lam * (sqrt (IZR ((J1 + m1) * (J1 - m1 + 2))) * cgAt (p - 1) (q + 1)))%R; [field; exact D|].
  rewrite L. ring.
Qed.

(* rows 0..p-1 are finished *)
Definition rows (p : Z) (v : list frac) : Prop :=
  (forall p' q, 0 <= p' < p -> 0 <= q <= J2 -> at_ v p' q) /\ (p = 0 -> at_ v 0 J2).
Definition row (mtwo two : frac) (m1 : Z) (v : list frac) : option (list frac) :=
  bnd (foldO (innerStep ps J J1 J2 (- J1) m1 mtwo) (stepDown (J2 - 2) (- J2)) v) (fun v =>
  bnd (topStep ps J J1 J2 (- J1) m1 two v) (fun v => lowStep ps J J1 J2 (- J1) m1 mtwo v)).

Lemma wrz_length v i x v' : wrz v i x = Some v' -> length v' = length v.
Proof. unfold wrz. destruct (i <? 0); [discriminate|]. apply wr_length. Qed.

Lemma row_ok mtwo two p v v' : 0 <= p <= J1 -> finite ps mtwo -> (fval ps mtwo = -2)%R -> finite ps two -> (fval ps two = 2)%R ->
  rows p v -> row mtwo two (2 * p - J1) v = Some v' -> rows (p + 1) v' /\ length v' = length v.
Proof.
  intros Hp Fm Vm Ft Vt [HR H0] H. destruct J_range as (R1 & R2 & R3 & k & R4). unfold row in H.
  destruct (foldO _ (stepDown (J2 - 2) (- J2)) v) as [v1|] eqn:E1; [|discriminate]. cbn [bnd] in H.
  destruct (topStep _ _ _ _ _ _ _ v1) as [v2|] eqn:E2; [|discriminate]. cbn [bnd] in H.
  assert (P1 : rows p v1 /\ (forall q, 0 <= q < J2 -> at_ v1 p q) /\ length v1 = length v).
  { unfold stepDown in E1. replace (Z.to_nat ((J2 - 2 - - J2) / 2 + 1)) with (Z.to_nat J2) in E1.
    2:{ f_equal. replace (J2 - 2 - - J2) with ((J2 - 1) * 2) by lia. rewrite Z.div_mul by lia. lia. }
    pose proof (foldO_seq (innerStep ps J J1 J2 (- J1) (2 * p - J1) mtwo) (fun n => J2 - 2 - 2 * Z.of_nat n)
       (fun n x => rows p x /\ (forall q, J2 - Z.of_nat n <= q < J2 -> at_ x p q) /\ length x = length v) (Z.to_nat J2) 0 v v1) as FS.
    cbv beta in FS. destruct FS as (A & B & C).
    - split; [split; [exact HR|exact H0]|]. split; [intros q Hq; lia|reflexivity].
    - intros n x x' Hn ((X1 & X2) & X3 & X4) Hx.
      replace (J2 - 2 - 2 * Z.of_nat n) with (2 * (J2 - 1 - Z.of_nat n) - J2) in Hx by lia.
      destruct (innerStep_ok mtwo p (J2 - 1 - Z.of_nat n) x x') as (c & W & G); try assumption; try lia.
      + intros ->. destruct (Nat.eq_dec n 0) as [->|]; [replace (J2 - 1 - Z.of_nat 0 + 1) with J2 by lia; now apply X2|].
        apply X3. lia.
      + intros Hp0. split; apply X1; lia.
      + assert (K : forall p' q, 0 <= q <= J2 -> at_ x p' q -> at_ x' p' q \/ (p' = p /\ q = J2 - 1 - Z.of_nat n)).
        { intros p' q Hq Ha. destruct (Z.eq_dec (pos p' q) (pos p (J2 - 1 - Z.of_nat n))) as [Ei|Ni].
          - right. apply pos_inj in Ei; lia.
          - left. now apply (at_keep x x' _ _ _ _ W Ni). }
        split; [split|].
        * intros p' q Hp' Hq. destruct (K p' q Hq (X1 p' q Hp' Hq)) as [?|?]; [assumption|lia].
        * intros ->. destruct (K 0 J2 ltac:(lia) (X2 eq_refl)) as [?|?]; [assumption|lia].
        * split; [|rewrite (wrz_length _ _ _ _ W); exact X4].
          intros q Hq. destruct (Z.eq_dec q (J2 - 1 - Z.of_nat n)) as [->|Nq].
          -- apply (at_write x x' _ _ _ _ W eq_refl G).
          -- destruct (K p q ltac:(lia) (X3 q ltac:(lia))) as [?|?]; [assumption|lia].
    - exact E1.
    - split; [exact A|]. split; [|exact C]. intros q Hq. apply B. lia. }
  destruct P1 as ((Q1 & Q2) & Q3 & Q4).
  assert (P2 : (forall p' q, 0 <= p' <= p -> 0 <= q <= J2 -> at_ v2 p' q) /\ length v2 = length v).
  { destruct (Z.eq_dec p 0) as [->|Np].
    - unfold topStep in E2.
      replace ((2 * 0 - J1 + J2 <? - J) || (2 * 0 - J1 + J2 >? J)) with false in E2.
      2:{ symmetry. apply orb_false_iff. rewrite Z.ltb_ge, Z.gtb_ltb, Z.ltb_ge. lia. }
      replace ((2 * 0 - J1 >? - J1) && (2 * 0 - J1 <=? - - J1)) with false in E2.
      2:{ symmetry. apply andb_false_iff. left. rewrite Z.gtb_ltb. apply Z.ltb_ge. lia. }
      injection E2 as <-. split; [|exact Q4]. intros p' q Hp' Hq. assert (p' = 0) as -> by lia.
      destruct (Z.eq_dec q J2) as [->|]; [now apply Q2|apply Q3; lia].
    - destruct (topStep_ok two p v1 v2) as (c & W & G); try assumption; try lia.
      + apply Q1; lia.
      + intros. apply Q3. lia.
      + split; [|rewrite (wrz_length _ _ _ _ W); exact Q4]. intros p' q Hp' Hq.
        destruct (Z.eq_dec (pos p' q) (pos p J2)) as [Ei|Ni].
        * apply pos_inj in Ei; [|lia|lia]. destruct Ei as [-> ->]. apply (at_write v1 v2 _ _ _ _ W eq_refl G).
        * apply (at_keep v1 v2 _ _ _ _ W Ni). destruct (Z.eq_dec p' p) as [->|]; [|apply Q1; lia].
          apply Q3. destruct (Z.eq_dec q J2); [subst; congruence|lia]. }
  destruct P2 as (S1 & S2).
  destruct (Z.eq_dec p 0) as [->|Np].
  - unfold lowStep in H. replace (_ && (J + (2 * 0 - J1) <=? J2)) with false in H.
    2:{ symmetry. apply andb_false_iff. left. apply andb_false_iff. left. apply andb_false_iff. right. rewrite Z.gtb_ltb. apply Z.ltb_ge. lia. }
    injection H as <-. split; [|exact S2]. split; [|lia]. intros p' q Hp' Hq. apply S1; lia.
  - destruct (lowStep_ok mtwo p v2 v') as [->|(q0 & c & Hq0 & W & G)]; try assumption; try lia.
    + intros q Hq. split; apply S1; lia.
    + split; [|exact S2]. split; [|lia]. intros p' q Hp' Hq. apply S1; lia.
    + split; [|rewrite (wrz_length _ _ _ _ W); exact S2]. split; [|lia]. intros p' q Hp' Hq.
      destruct (Z.eq_dec (pos p' q) (pos p q0)) as [Ei|Ni].
      * apply pos_inj in Ei; [|lia|lia]. destruct Ei as [-> ->]. apply (at_write v2 v' _ _ _ _ W eq_refl G).
      * apply (at_keep v2 v' _ _ _ _ W Ni). apply S1; lia.
Qed.

Lemma rawTable_ok raw : rawTable ps J J1 J2 = Some raw ->
  length raw = Z.to_nat ((J1 + 1) * (J2 + 1)) /\ forall p q, 0 <= p <= J1 -> 0 <= q <= J2 -> at_ raw p q.
Proof.
  intros H. destruct J_range as (R1 & R2 & R3 & k & R4). unfold rawTable in H.
  replace (J + J2 <? J1) with false in H by (symmetry; apply Z.ltb_ge; lia).
  replace (Z.quot (- J1 + J1) 2 * (J2 + 1) + (J2 + 1) - 1) with (pos 0 J2) in H
    by (replace (- J1 + J1) with 0 by lia; unfold pos; cbn; lia).
  destruct (fracInt ps 1 1) as [one|] eqn:E1; [|discriminate]. cbn [bnd] in H.
  destruct (fracInt ps 2 1) as [two|] eqn:E2; [|discriminate]. cbn [bnd] in H.
  destruct (fracInt ps (-2) 1) as [mtwo|] eqn:E3; [|discriminate]. cbn [bnd] in H.
  destruct (wrz _ (pos 0 J2) one) as [v0|] eqn:E4 in H; [|discriminate]. cbn [bnd] in H.
  destruct (C13_from_integers ps 2 1 two PL ltac:(lia) E2) as (Ft & _ & _ & Vt).
  destruct (C13_from_integers ps (-2) 1 mtwo PL ltac:(lia) E3) as (Fm & _ & _ & Vm).
  assert (Vt' : (fval ps two = 2)%R) by (rewrite Vt; field). assert (Vm' : (fval ps mtwo = -2)%R) by (rewrite Vm; field).
  unfold stepUp in H. replace (Z.to_nat ((J1 - - J1) / 2 + 1)) with (Z.to_nat (J1 + 1)) in H.
  2:{ f_equal. replace (J1 - - J1) with (J1 * 2) by lia. rewrite Z.div_mul by lia. lia. }
  pose proof (foldO_seq (row mtwo two) (fun n => - J1 + 2 * Z.of_nat n)
    (fun n x => rows (Z.of_nat n) x /\ length x = length v0) (Z.to_nat (J1 + 1)) 0 v0 raw) as FS.
  cbv beta in FS. destruct FS as ((A & _) & B).
  - split; [|reflexivity]. split; [intros p' q Hp'; lia|]. intros _. exists one. split; [now apply (rdz_wrz_same _ _ _ _ E4)|].
    replace (lam * cgAt 0 J2)%R with 1%R by (unfold lam; field; apply cg0_nz).
    pose proof (good_int 1 1 one ltac:(lia) E1) as G. replace (IZR 1 / IZR 1)%R with 1%R in G by field. now rewrite ssqrt_1 in G.
  - intros n x x' Hn (X1 & X2) Hx. replace (- J1 + 2 * Z.of_nat n) with (2 * Z.of_nat n - J1) in Hx by lia.
    destruct (row_ok mtwo two (Z.of_nat n) x x') as (Y1 & Y2); try assumption; try lia.
    split; [|congruence]. now replace (Z.of_nat (S n)) with (Z.of_nat n + 1) by lia.
  - exact H.
  - split.
    + rewrite B, (wrz_length _ _ _ _ E4), repeat_length. reflexivity.
    + intros p q Hp Hq. apply A; lia.
Qed.

(* the normalisation *)
Definition tab (off : nat) (v : list frac) (x : nat -> R) : Prop :=
  forall k c, nth_error v k = Some c -> good ps c (x (off + k)%nat).
Lemma tab_tail off c v x : tab off (c :: v) x -> tab (S off) v x.
Proof. intros H k d Hk. replace (S off + k)%nat with (off + S k)%nat by lia. now apply H. Qed.

Lemma overall_app l1 : forall l2 i acc, overallSign ps J J1 J2 i (l1 ++ l2) acc
  = bnd (overallSign ps J J1 J2 i l1 acc) (fun a => overallSign ps J J1 J2 (i + length l1) l2 a).
Proof.
  induction l1 as [|c l1 IH]; intros l2 i acc.
  - cbn [app overallSign bnd length]. now rewrite Nat.add_0_r.
  - cbn [app overallSign length]. replace (i + S (length l1))%nat with (S i + length l1)%nat by lia.
    destruct (_ && _); [|apply IH]. destruct (getSign ps c) as [s|]; [|reflexivity]. cbn [bnd]. apply IH.
Qed.
Lemma overall_none l : forall i acc, (forall k c, nth_error l k = Some c -> projOf J1 J2 (i + k) <> J) ->
  overallSign ps J J1 J2 i l acc = Some acc.
Proof.
  induction l as [|c l IH]; intros i acc H; [reflexivity|]. cbn [overallSign].
  pose proof (H 0%nat c eq_refl) as H0. rewrite Nat.add_0_r in H0. apply Z.eqb_neq in H0. rewrite H0. cbn [andb].
  apply IH. intros k d Hk. replace (S i + k)%nat with (i + S k)%nat by lia. now apply (H (S k) d).
Qed.

Lemma columnSum_ok M v : forall i acc s x, tab i v x -> finite ps acc ->
  columnSum ps J1 J2 M i v acc = Some s ->
  finite ps s /\ fval ps s = (fval ps acc + sumR (length v) (fun k => if projOf J1 J2 (i + Z.to_nat k) =? M
    then x (i + Z.to_nat k)%nat * x (i + Z.to_nat k)%nat else 0))%R.
Proof.
  induction v as [|c v IH]; intros i acc s x HT Fa H.
  - injection H as <-. cbn. split; [exact Fa|ring].
  - cbn [columnSum] in H. pose proof (HT 0%nat c eq_refl) as G. rewrite Nat.add_0_r in G.
    cbn [length]. rewrite sumR_first. change (Z.to_nat 0) with 0%nat. rewrite Nat.add_0_r.
    rewrite (sumR_ext (length v) (fun k => _) (fun k => if projOf J1 J2 (S i + Z.to_nat k) =? M
        then x (S i + Z.to_nat k)%nat * x (S i + Z.to_nat k)%nat else 0)%R).
    2:{ intros k Hk. replace (i + Z.to_nat (k + 1))%nat with (S i + Z.to_nat k)%nat by lia. reflexivity. }
    destruct (projOf J1 J2 i =? M).
    + destruct (fracAdd ps acc (fracAbs c)) as [a|] eqn:E; [|discriminate]. cbn [bnd] in H.
      destruct G as (Fc & Hc & Vc). destruct (C13_absolute_value ps c PL Fc Hc) as (F1 & _ & V1).
      destruct (C13_sum ps _ _ _ PL Fa F1 E) as (F2 & _ & _ & V2).
      destruct (IH (S i) a s x (tab_tail _ _ _ _ HT) F2 H) as (F3 & V3). split; [exact F3|].
      rewrite V3, V2, V1, <- ssqrt_sq, Vc. ring.
    + destruct (IH (S i) acc s x (tab_tail _ _ _ _ HT) Fa H) as (F3 & V3). split; [exact F3|]. rewrite V3. ring.
Qed.

Lemma scale_length M fl inv v : forall i, length (scaleColumn J1 J2 M fl inv i v) = length v.
Proof. induction v as [|c v IH]; intros i; cbn [scaleColumn length]; [reflexivity|now rewrite IH]. Qed.
Lemma scale_nth M fl inv v : forall i k d, nth_error (scaleColumn J1 J2 M fl inv i v) k = Some d ->
  exists c, nth_error v k = Some c /\
  d = if projOf J1 J2 (i + k) =? M then (if fl then flipSign (fracMul c inv) else fracMul c inv) else c.
Proof.
  induction v as [|c v IH]; intros i k d H; [destruct k; discriminate|]. cbn [scaleColumn] in H. destruct k as [|k].
  - cbn [nth_error] in H. injection H as <-. exists c. rewrite Nat.add_0_r. split; reflexivity.
  - cbn [nth_error] in *. destruct (IH (S i) k d H) as (c' & E1 & E2). exists c'. split; [exact E1|].
    now replace (i + S k)%nat with (S i + k)%nat by lia.
Qed.

Lemma sumR_flat a b f : sumR (a * b) f = sumR a (fun p => sumR b (fun q => f (p * Z.of_nat b + q))).
Proof.
  induction a as [|a IH]; [reflexivity|]. replace (S a * b)%nat with (a * b + b)%nat by lia.
  rewrite sumR_split, IH. cbn [sumR]. f_equal. apply sumR_ext. intros k Hk. f_equal. lia.
Qed.

Definition val (i : nat) : R := cgAt (Z.of_nat i / (J2 + 1)) (Z.of_nat i mod (J2 + 1)).
Lemma projOf_pq i : projOf J1 J2 i = 2 * (Z.of_nat i / (J2 + 1) + Z.of_nat i mod (J2 + 1)) - J1 - J2.
Proof. unfold projOf. lia. Qed.
Lemma projOf_parity i : exists k, projOf J1 J2 i = J + 2 * k.
Proof.
  destruct J_range as (R1 & R2 & R3 & k & R4). rewrite projOf_pq. set (u := _ + _).
  destruct (Z.le_ge_cases J1 J2); [exists (u - J2 - k)|exists (u - J1 - k)]; lia.
Qed.
Lemma val_out i : projOf J1 J2 i < - J \/ J < projOf J1 J2 i -> val i = 0%R.
Proof. intros H. rewrite projOf_pq in H. unfold val, cgAt. apply CG_out. lia. Qed.
Lemma pos_div p q : 0 <= q <= J2 -> (pos p q / (J2 + 1) = p /\ pos p q mod (J2 + 1) = q).
Proof.
  intros H. unfold pos. split; [symmetry; apply Z.div_unique with (r := q)|symmetry; apply Z.mod_unique with (q := p)]; lia.
Qed.

Lemma column_norm M : isProjOf J M ->
  sumR (Z.to_nat ((J1 + 1) * (J2 + 1))) (fun k => if projOf J1 J2 (Z.to_nat k) =? M then val (Z.to_nat k) * val (Z.to_nat k) else 0)%R = 1%R.
Proof.
  intros HM. destruct J_range as (R1 & R2 & R3 & k & R4).
  replace (Z.to_nat ((J1 + 1) * (J2 + 1))) with (S (Z.to_nat J1) * S (Z.to_nat J2))%nat by nia.
  rewrite sumR_flat. pose proof (C69_orthonormal J1 J2 J J M HC HC HM HM) as O. rewrite Z.eqb_refl in O. rewrite <- O.
  unfold sumProj. apply sumR_ext. intros p Hp. set (m1 := 2 * p - J1).
  transitivity (sumR (S (Z.to_nat J2)) (fun q => if (2 * (p + q) - J1 - J2 =? M) then cgAt p q * cgAt p q else 0)%R).
  { apply sumR_ext. intros q Hq. rewrite projOf_pq. unfold val.
    replace (Z.of_nat (Z.to_nat (p * Z.of_nat (S (Z.to_nat J2)) + q))) with (pos p q) by (unfold pos; nia).
    destruct (pos_div p q ltac:(lia)) as [-> ->]. reflexivity. }
  destruct HM as (_ & kM & HkM & EM).
  assert (exists q, 2 * (p + q) - J1 - J2 = M) as (q & Eq).
  { destruct (Z.le_ge_cases J1 J2); [exists (J1 - k + kM - p)|exists (J2 - k + kM - p)]; lia. }
  destruct (Z_lt_le_dec q 0) as [Q|Q]; [|destruct (Z_lt_le_dec J2 q) as [Q'|Q']].
  - rewrite sumR_zero.
    + rewrite CG_out2 by (unfold m1; lia). ring.
    + intros q' Hq'. destruct (Z.eqb_spec (2 * (p + q') - J1 - J2) M); [lia|reflexivity].
  - rewrite sumR_zero.
    + rewrite CG_out2 by (unfold m1; lia). ring.
    + intros q' Hq'. destruct (Z.eqb_spec (2 * (p + q') - J1 - J2) M); [lia|reflexivity].
  - rewrite (sumR_ext _ _ (fun q' => if (q' =? q) then (cgAt p q' * cgAt p q')%R else 0%R)).
    + rewrite sumR_delta by lia. unfold cgAt. rewrite Eq. fold m1. replace (2 * q - J2) with (M - m1) by (unfold m1; lia). reflexivity.
    + intros q' Hq'. destruct (Z.eqb_spec (2 * (p + q') - J1 - J2) M), (Z.eqb_spec q' q); try reflexivity; lia.
Qed.

Lemma overall_sign raw s : length raw = Z.to_nat ((J1 + 1) * (J2 + 1)) -> tab 0 raw (fun i => lam * val i)%R ->
  overallSign ps J J1 J2 0 raw 0 = Some s -> s = if Rlt_dec lam 0 then -1 else 1.
Proof.
  intros HL HT H. destruct J_range as (R1 & R2 & R3 & k & R4).
  assert (exists q, 2 * q - J2 = J - J1) as (q & Eq).
  { destruct (Z.le_ge_cases J1 J2); [exists (J2 - J1 + k)|exists k]; lia. }
  assert (Hq : 0 <= q <= J2) by lia.
  pose (i := Z.to_nat (pos J1 q)). assert (Pi : Z.of_nat i = pos J1 q) by (unfold i, pos; nia).
  assert (Hi : (i < length raw)%nat) by (rewrite HL; unfold i, pos; nia).
  destruct (nth_error raw i) as [c|] eqn:Ec; [|apply nth_error_None in Ec; lia].
  destruct (nth_error_split _ _ Ec) as (l1 & l2 & El & Ll). rewrite El in H. rewrite overall_app in H.
  destruct (overallSign ps J J1 J2 0 l1 0) as [a|]; [|discriminate]. cbn [bnd overallSign] in H. rewrite Ll, Nat.add_0_l in H.
  pose proof (HT i c Ec) as G. rewrite Nat.add_0_l in G.
  destruct (pos_div J1 q Hq) as [D1 D2].
  assert (Vi : (0 < val i)%R).
  { unfold val. rewrite Pi, D1, D2. unfold cgAt. replace (2 * J1 - J1) with J1 by lia. rewrite Eq.
    replace (2 * (J1 + q) - J1 - J2) with J by lia. now apply C69_condon_shortley. }
  pose proof lam_nz as LN.
  assert (Proj : projOf J1 J2 i = J) by (rewrite projOf_pq, Pi, D1, D2; lia).
  rewrite Proj, Z.eqb_refl in H.
  destruct G as (Fc & Hc & Vc).
  assert (NZ : fval ps c <> 0%R).
  { intros E0. rewrite E0, ssqrt_0 in Vc. symmetry in Vc. apply Rmult_integral in Vc. lra. }
  assert (Esg : sgn c <> 0) by (intros E0; apply NZ; now apply (fval_zero_iff ps c PL Fc)).
  replace (fracEqb c fracZero) with false in H.
  2:{ symmetry. unfold fracEqb. cbn [sgn fracZero]. destruct (Z.eqb_spec (sgn c) 0) as [E0|_]; [contradiction|]. reflexivity. }
  cbn [negb andb] in H. destruct (C13_sign ps c PL Fc Hc) as (sg & c' & Eg & _ & _ & Es). rewrite Eg in H. cbn [bnd fst] in H.
  rewrite overall_none in H.
  - injection H as <-. rewrite Es. pose proof (ssqrt_lt (fval ps c) 0) as L. rewrite ssqrt_0, Vc in L.
    destruct (Rlt_dec (fval ps c) 0) as [A|A], (Rlt_dec lam 0) as [B|B]; try reflexivity; exfalso.
    + apply L in A. nra.
    + apply A, L. nra.
  - intros k' d Hk'. rewrite projOf_pq.
    assert (Hlen : (k' < length l2)%nat) by (apply nth_error_Some; congruence).
    assert (HT2 : (i + S k' < length raw)%nat) by (rewrite El, app_length, Ll; cbn [length]; lia).
    rewrite HL in HT2.
    assert (Bnd : Z.of_nat (S i + k') < (J1 + 1) * (J2 + 1)) by nia.
    assert (Ei : Z.of_nat (S i + k') = pos J1 (q + 1 + Z.of_nat k')) by (unfold pos in *; lia). rewrite Ei.
    destruct (pos_div J1 (q + 1 + Z.of_nat k')) as [-> ->]; [unfold pos in *; lia|]. lia.
Qed.

Lemma normalise_ok raw T : length raw = Z.to_nat ((J1 + 1) * (J2 + 1)) -> tab 0 raw (fun i => lam * val i)%R ->
  normalise ps J J1 J2 raw = Some T -> length T = length raw /\ tab 0 T val.
Proof.
  intros HL HT H. destruct J_range as (R1 & R2 & R3 & k & R4). pose proof lam_nz as LN. unfold normalise in H.
  destruct (overallSign ps J J1 J2 0 raw 0) as [s|] eqn:Es; [|discriminate]. cbn [bnd] in H.
  pose proof (overall_sign raw s HL HT Es) as Hs.
  unfold stepUp in H. replace (Z.to_nat ((J - - J) / 2 + 1)) with (Z.to_nat (J + 1)) in H.
  2:{ f_equal. replace (J - - J) with (J * 2) by lia. rewrite Z.div_mul by lia. lia. }
  pose (x := fun (n : nat) (i : nat) => if projOf J1 J2 i <? - J + 2 * Z.of_nat n then val i else (lam * val i)%R).
  pose proof (foldO_seq (normaliseStep ps J1 J2 s) (fun n => - J + 2 * Z.of_nat n)
    (fun n v => length v = length raw /\ tab 0 v (x n)) (Z.to_nat (J + 1)) 0 raw T) as FS.
  cbv beta in FS. destruct FS as (A & B).
  - split; [reflexivity|]. intros i c Hc. pose proof (HT i c Hc) as G. unfold x. cbv beta in G.
    destruct (Z.ltb_spec (projOf J1 J2 (0 + i)) (- J + 2 * Z.of_nat 0)) as [L|L]; [|exact G].
    rewrite val_out in G by lia. rewrite val_out by lia. now rewrite Rmult_0_r in G.
  - intros n v v' Hn (HLv & HTv) Hv. unfold normaliseStep in Hv. set (M := - J + 2 * Z.of_nat n) in *.
    destruct (columnSum ps J1 J2 M 0 v fracZero) as [su|] eqn:Eu; [|discriminate]. cbn [bnd] in Hv.
    destruct (columnSum_ok M v 0 fracZero su (x n) HTv finite_zero Eu) as (Fu & Vu).
    assert (HM : isProjOf J M) by (split; [lia|exists (Z.of_nat n); unfold M; lia]).
    assert (Vsu : (fval ps su = lam * lam)%R).
    { rewrite Vu, fval_zero, HLv, HL, Rplus_0_l. transitivity (lam * lam * 1)%R; [|ring]. rewrite <- (column_norm M HM).
      rewrite <- sumR_scal. apply sumR_ext. intros j Hj. rewrite Nat.add_0_l. unfold x. fold M.
      destruct (Z.eqb_spec (projOf J1 J2 (Z.to_nat j)) M) as [E|N]; [|ring].
      rewrite E, Z.ltb_irrefl. ring. }
    assert (NZ : fval ps su <> 0%R) by (rewrite Vsu; intros E; apply Rmult_integral in E; tauto).
    destruct (proj1 (C13_inverse ps su PL Fu) NZ) as (inv & Ei & Fi & Hi & Vi). rewrite Ei in Hv. cbn [bnd fst] in Hv.
    injection Hv as <-. split; [now rewrite scale_length|].
    assert (Gi : good ps inv (/ Rabs lam)).
    { split; [exact Fi|]. split; [exact Hi|]. apply ssqrt_unique. rewrite Vi, Vsu.
      assert (Rabs lam <> 0%R) by now apply Rabs_no_R0.
      rewrite (Rabs_right (/ Rabs lam)) by (apply Rle_ge, Rlt_le, Rinv_0_lt_compat; now apply Rabs_pos_lt).
      rewrite <- Rinv_mult. rewrite <- Rabs_mult, Rabs_right by (apply Rle_ge, Rle_0_sqr). reflexivity. }
    intros i d Hd. destruct (scale_nth _ _ _ _ _ _ _ Hd) as (c & Ec & ->). pose proof (HTv i c Ec) as G.
    rewrite Nat.add_0_l in *. unfold x in *. fold M in G.
    destruct (projOf_parity i) as (kp & Ekp).
    assert (exists km, M = J + 2 * km) as (km & Ekm) by (exists (Z.of_nat n - J); unfold M; lia).
    replace (- J + 2 * Z.of_nat (S n)) with (M + 2) by (unfold M; lia).
    destruct (Z.eqb_spec (projOf J1 J2 i) M) as [E|N].
    + rewrite E in G |- *. rewrite Z.ltb_irrefl in G. replace (M <? M + 2) with true by (symmetry; apply Z.ltb_lt; lia).
      pose proof (good_mul _ _ _ _ G Gi) as G2. rewrite Hs. destruct (Rlt_dec lam 0) as [Ln|Lp].
      * change (-1 =? -1) with true. cbv iota. apply good_flip in G2.
        replace (val i) with (- (lam * val i * / Rabs lam))%R; [exact G2|]. rewrite Rabs_left by exact Ln. field. exact LN.
      * change (1 =? -1) with false. cbv iota.
        replace (val i) with (lam * val i * / Rabs lam)%R; [exact G2|]. rewrite Rabs_right by lra. field. exact LN.
    + replace (projOf J1 J2 i <? M + 2) with (projOf J1 J2 i <? M); [exact G|].
      destruct (Z.ltb_spec (projOf J1 J2 i) M), (Z.ltb_spec (projOf J1 J2 i) (M + 2)); try reflexivity; lia.
  - exact H.
  - split; [exact A|]. intros i c Hc. pose proof (B i c Hc) as G. unfold x in G. rewrite !Nat.add_0_l in *.
    destruct (Z.ltb_spec (projOf J1 J2 i) (- J + 2 * Z.of_nat (Z.to_nat (J + 1)))) as [L|L]; [exact G|].
    rewrite val_out in G by lia. rewrite val_out by lia. now rewrite Rmult_0_r in G.
Qed.

Lemma clebschGordan_ok T : clebschGordan ps J J1 J2 = Some T ->
  length T = Z.to_nat ((J1 + 1) * (J2 + 1)) /\
  forall p q, 0 <= p <= J1 -> 0 <= q <= J2 -> exists c, rdz T (pos p q) = Some c /\ good ps c (cgAt p q).
Proof.
  intros H. unfold clebschGordan in H. destruct (rawTable ps J J1 J2) as [raw|] eqn:Er; [|discriminate]. cbn [bnd] in H.
  destruct (rawTable_ok raw Er) as (L & A). destruct J_range as (R1 & R2 & R3 & k & R4).
  destruct (normalise_ok raw T L) as (LT & TT); [|exact H|].
  - intros i c Hc. rewrite Nat.add_0_l. assert (Hi : (i < length raw)%nat) by (apply nth_error_Some; congruence).
    rewrite L in Hi. assert (Bi : Z.of_nat i < (J1 + 1) * (J2 + 1)) by nia.
    pose proof (Z.div_mod (Z.of_nat i) (J2 + 1) ltac:(lia)) as D. pose proof (Z.mod_pos_bound (Z.of_nat i) (J2 + 1) ltac:(lia)) as Mb.
    assert (0 <= Z.of_nat i / (J2 + 1)) by (apply Z.div_pos; lia).
    assert (Z.of_nat i / (J2 + 1) < J1 + 1) by (apply Z.div_lt_upper_bound; nia).
    destruct (A (Z.of_nat i / (J2 + 1)) (Z.of_nat i mod (J2 + 1))) as (c' & Rc & G); try lia.
    replace (pos (Z.of_nat i / (J2 + 1)) (Z.of_nat i mod (J2 + 1))) with (Z.of_nat i) in Rc by (unfold pos; lia).
    unfold rdz, rd in Rc. replace (Z.of_nat i <? 0) with false in Rc by (symmetry; apply Z.ltb_ge; lia).
    rewrite Nat2Z.id in Rc. rewrite Hc in Rc. injection Rc as <-. exact G.
  - split; [now rewrite LT|]. intros p q Hp Hq. assert (P : 0 <= pos p q < (J1 + 1) * (J2 + 1)) by (unfold pos; nia).
    unfold rdz, rd. replace (pos p q <? 0) with false by (symmetry; apply Z.ltb_ge; lia).
    destruct (nth_error T (Z.to_nat (pos p q))) as [c|] eqn:Ec; [|apply nth_error_None in Ec; rewrite LT, L in Ec; lia].
    exists c. split; [reflexivity|]. pose proof (TT _ _ Ec) as G. rewrite Nat.add_0_l in G. unfold val in G.
    rewrite Z2Nat.id in G by lia. destruct (pos_div p q Hq) as [D1 D2]. now rewrite D1, D2 in G.
Qed.
End Box.
