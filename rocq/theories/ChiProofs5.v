(* Lemmas for C86, part 5: a matrix inversion, signs, numbers of data points. *)
From Coq Require Import List Reals Bool Arith ZArith Lia Lra Sorted.
From Coquelicot Require Import Complex.
From Verif Require Import PhysModel ChiModel ChiSpec ChiProofs ChiProofs2 ChiProofs3 ChiProofs4.
Import ListNotations.
Open Scope R_scope.

(* ---- sums ---- *)
Lemma sum_S n f : sumTo (S n) f = sumTo n f + f n.
Proof. unfold sumTo. rewrite seq_S, map_app, total_app. cbn [map Nat.add]. rewrite total1. reflexivity. Qed.
Lemma sum_ext n f g : (forall k, (k < n)%nat -> f k = g k) -> sumTo n f = sumTo n g.
Proof. intros H. apply total_map_ext. intros k Hk. apply in_seq in Hk. apply H. lia. Qed.
Lemma sum_plus n f g : sumTo n (fun k => f k + g k) = sumTo n f + sumTo n g.
Proof. induction n as [|n IH]; [unfold sumTo, total; cbn; lra|]. rewrite !sum_S, IH. lra. Qed.
Lemma sum_scal n c f : sumTo n (fun k => c * f k) = c * sumTo n f.
Proof. induction n as [|n IH]; [unfold sumTo, total; cbn; lra|]. rewrite !sum_S, IH. lra. Qed.
Lemma sum_swap n m (f : nat -> nat -> R) : sumTo n (fun a => sumTo m (f a)) = sumTo m (fun b => sumTo n (fun a => f a b)).
Proof.
  induction n as [|n IH].
  - change (sumTo 0 (fun a => sumTo m (f a))) with 0. symmetry. apply total_zero. intros x Hx. apply in_map_iff in Hx. destruct Hx as (y & <- & _). reflexivity.
  - rewrite sum_S, IH, <- sum_plus. apply sum_ext. intros k _. rewrite sum_S. reflexivity.
Qed.
Lemma sum_zero n f : (forall k, (k < n)%nat -> f k = 0) -> sumTo n f = 0.
Proof. intros H. apply total_zero. intros x Hx. apply in_map_iff in Hx. destruct Hx as (k & <- & Hk). apply in_seq in Hk. apply H. lia. Qed.
Lemma sum_delta n r f : (r < n)%nat -> sumTo n (fun k => (if Nat.eqb k r then 1 else 0) * f k) = f r.
Proof.
  intros H. induction n as [|n IH]; [lia|]. rewrite sum_S. destruct (Nat.eq_dec r n) as [->|E].
  - rewrite Nat.eqb_refl, sum_zero; [lra|]. intros k Hk. replace (Nat.eqb k n) with false by (symmetry; apply Nat.eqb_neq; lia). lra.
  - rewrite IH by lia. replace (Nat.eqb n r) with false by (symmetry; apply Nat.eqb_neq; lia). lra.
Qed.

(* ---- a matrix inversion: rows U i with U i . (column c) = delta, column by column ---- *)
Section Invert.
Variables (m : nat) (A : mat).
Definition dotc (y : nat -> R) (c : nat) : R := sumTo m (fun r => y r * A r c).
Definition rest (n : nat) (U : mat) (r s : nat) : R := (if Nat.eqb s r then 1 else 0) - sumTo n (fun c => A r c * U c s).
Definition addCol (n : nat) (U : mat) : mat :=
  match find (fun r => if Req_EM_T (dotc (rest n U r) n) 0 then false else true) (seq 0 m) with
  | None => U
  | Some r =>
      let y s := rest n U r s / dotc (rest n U r) n in
      fun i s => if Nat.eqb i n then y s else U i s - dotc (U i) n * y s
  end.
Fixpoint rowsU (n : nat) : mat := match n with O => zeroMat | S n' => addCol n' (rowsU n') end.
Lemma dotc_lin y z a c : dotc (fun s => y s - a * z s) c = dotc y c - a * dotc z c.
Proof.
  unfold dotc. rewrite <- (sum_scal m a). replace (sumTo m (fun r => y r * A r c) - sumTo m (fun k => a * (z k * A k c))) with
    (sumTo m (fun r => y r * A r c) + -1 * sumTo m (fun k => a * (z k * A k c))) by lra. rewrite <- sum_scal, <- sum_plus. apply sum_ext. intros; ring.
Qed.
Lemma dotc_div y t c : dotc (fun s => y s / t) c = dotc y c / t.
Proof. unfold dotc, Rdiv. rewrite Rmult_comm, <- sum_scal. apply sum_ext. intros; ring. Qed.
Lemma dotc_rest n U r c : (r < m)%nat -> dotc (rest n U r) c = A r c - sumTo n (fun k => A r k * dotc (U k) c).
Proof.
  intros Hr. unfold dotc, rest.
  transitivity (sumTo m (fun s => (if Nat.eqb s r then 1 else 0) * A s c) - sumTo m (fun s => sumTo n (fun k => A r k * (U k s * A s c)))).
  - unfold Rminus. replace (- sumTo m (fun s => sumTo n (fun k => A r k * (U k s * A s c)))) with (-1 * sumTo m (fun s => sumTo n (fun k => A r k * (U k s * A s c)))) by lra.
    rewrite <- sum_scal, <- sum_plus. apply sum_ext. intros s Hs. rewrite Rmult_plus_distr_r. f_equal.
    rewrite <- sum_scal. replace (- sumTo n (fun c0 => A r c0 * U c0 s) * A s c) with ((- A s c) * sumTo n (fun c0 => A r c0 * U c0 s)) by lra.
    rewrite <- sum_scal. apply sum_ext. intros; ring.
  - rewrite (sum_delta m r (fun s => A s c)) by auto. f_equal. rewrite sum_swap. apply sum_ext. intros k _. rewrite <- sum_scal. apply sum_ext. intros; ring.
Qed.
Lemma rowsU_ok n : (forall x : nat -> R, (forall r, (r < m)%nat -> sumTo n (fun k => A r k * x k) = 0) -> forall k, (k < n)%nat -> x k = 0) ->
  forall i c, (i < n)%nat -> (c < n)%nat -> dotc (rowsU n i) c = if Nat.eqb i c then 1 else 0.
Proof.
  induction n as [|n IH]; intros K i c Hi Hc; [lia|].
  assert (K' : forall x : nat -> R, (forall r, (r < m)%nat -> sumTo n (fun k => A r k * x k) = 0) -> forall k, (k < n)%nat -> x k = 0).
  { intros x Hx k Hk. specialize (K (fun k => if Nat.eqb k n then 0 else x k)).
    assert (E : (fun k => if Nat.eqb k n then 0 else x k) k = 0); [|cbn in E; destruct (Nat.eqb_spec k n); [lia|auto]].
    apply K; [|lia]. intros r Hr. rewrite sum_S. cbv beta. rewrite Nat.eqb_refl, Rmult_0_r, Rplus_0_r. transitivity (sumTo n (fun k => A r k * x k)); [|auto]. apply sum_ext.
    intros k' Hk'. destruct (Nat.eqb_spec k' n); [lia|reflexivity]. }
  specialize (IH K'). cbn [rowsU]. set (U := rowsU n) in *. unfold addCol.
  destruct (find _ (seq 0 m)) as [r|] eqn:F.
  - apply find_some in F. destruct F as [Fr Ft]. apply in_seq in Fr. destruct (Req_EM_T (dotc (rest n U r) n) 0) as [|Ht]; [discriminate|].
    set (t := dotc (rest n U r) n) in *. 
    assert (Y : forall c, (c < n)%nat -> dotc (fun s => rest n U r s / t) c = 0).
    { intros c' Hc'. rewrite dotc_div, dotc_rest by lia. rewrite (sum_ext n _ (fun k => (if Nat.eqb k c' then 1 else 0) * A r k)).
      - rewrite (sum_delta n c' (fun k => A r k)) by auto. unfold Rdiv. rewrite Rminus_diag_eq by auto. lra.
      - intros k Hk. rewrite IH by auto. ring. }
    assert (Yn : dotc (fun s => rest n U r s / t) n = 1) by (rewrite dotc_div; fold t; field; auto).
    destruct (Nat.eqb_spec i n) as [->|Hin].
    + destruct (Nat.eqb_spec n c) as [<-|Hnc]; [auto|]. apply Y. lia.
    + rewrite (dotc_lin (U i) (fun s => rest n U r s / t)). destruct (Nat.eq_dec c n) as [->|Hcn].
      * rewrite Yn. replace (Nat.eqb i n) with false by (symmetry; apply Nat.eqb_neq; auto). lra.
      * rewrite Y, IH by lia. lra.
  - exfalso. specialize (K (fun k => if Nat.eqb k n then -1 else dotc (U k) n)).
    assert (E : (fun k => if Nat.eqb k n then -1 else dotc (U k) n) n = 0); [|cbn in E; rewrite Nat.eqb_refl in E; lra].
    apply K; [|lia]. intros r Hr. pose proof (find_none _ _ F r (proj2 (in_seq m 0 r) ltac:(lia))) as Fr. cbn in Fr.
    destruct (Req_EM_T (dotc (rest n U r) n) 0) as [Ht|]; [|discriminate]. rewrite dotc_rest in Ht by auto.
    rewrite sum_S. cbv beta. rewrite Nat.eqb_refl. rewrite (sum_ext n _ (fun k => A r k * dotc (U k) n)); [lra|].
    intros k Hk. destruct (Nat.eqb_spec k n); [lia|reflexivity].
Qed.
End Invert.
Definition invertRef (n : nat) (A : mat) : mat := rowsU n A n.
Lemma invertRef_ok : inverts invertRef.
Proof. intros n A H r c Hr Hc. apply (rowsU_ok n A n H r c Hr Hc). Qed.

(* ---- signs ---- *)
Lemma total_nonneg l : (forall x, In x l -> 0 <= x) -> 0 <= total l.
Proof. induction l as [|x l IH]; intros H; [unfold total; cbn; lra|]. rewrite total_cons. specialize (H x (or_introl eq_refl)) as Hx. specialize (IH (fun y Hy => H y (or_intror Hy))). lra. Qed.
Lemma total_zero_inv l : (forall x, In x l -> 0 <= x) -> total l = 0 -> forall x, In x l -> x = 0.
Proof.
  induction l as [|y l IH]; intros H E x Hx; [contradiction|]. rewrite total_cons in E. pose proof (H y (or_introl eq_refl)).
  pose proof (total_nonneg l (fun z Hz => H z (or_intror Hz))). destruct Hx as [<-|Hx]; [lra|]. apply IH; auto. intros; apply H; right; auto. lra.
Qed.
Lemma div_pos_zero x v : 0 < v -> 0 <= x ^ 2 / v /\ (x ^ 2 / v = 0 -> x = 0).
Proof.
  intros H. assert (0 <= x ^ 2) by nra. assert (Hi : 0 < / v) by (apply Rinv_0_lt_compat; auto). split.
  - apply Rmult_le_pos; lra.
  - intros E. unfold Rdiv in E. apply Rmult_integral in E. destruct E; [nra|lra].
Qed.
Lemma element_sign uc b m k i j d : uc <> UseFull -> 0 < varRe b m k ->
  (i <> j -> 0 < varIm b m k /\ (uc = UseComplexDiagonal -> covReIm b m k = covImRe b m k /\ 0 < varRe b m k * varIm b m k - covReIm b m k * covImRe b m k)) ->
  0 <= element uc b m k i j d /\ (element uc b m k i j d = 0 <-> Re d = 0 /\ (i <> j -> Im d = 0)).
Proof.
  intros Hu V H. unfold element. destruct (Nat.eqb_spec i j) as [E|E].
  - destruct (div_pos_zero (Re d) (varRe b m k) V) as [P1 P2]. split; auto. split; [intros E0; split; [auto|tauto]|]. intros [-> _]. unfold Rdiv. ring.
  - destruct (H E) as [W Q]. destruct uc; [| |congruence].
    + destruct (div_pos_zero (Re d) (varRe b m k) V) as [P1 P2]. destruct (div_pos_zero (Im d) (varIm b m k) W) as [P3 P4].
      split; [lra|]. split.
      * intros E0. split; [apply P2; lra|intros _; apply P4; lra].
      * intros [E1 E2]. rewrite E1, E2 by auto. unfold Rdiv. ring.
    + destruct (Q eq_refl) as [<- D]. set (v := varRe b m k) in *. set (w := varIm b m k) in *. set (c := covReIm b m k) in *. set (x := Re d). set (y := Im d).
      set (N := w * x ^ 2 - (c + c) * (x * y) + v * y ^ 2). assert (Hi : 0 < / (v * w - c * c)) by (apply Rinv_0_lt_compat; auto).
      assert (EN : v * N = (v * y - c * x) ^ 2 + (v * w - c * c) * x ^ 2) by (unfold N; ring).
      assert (PN : 0 <= N).
      { assert (0 <= v * N) by (rewrite EN; assert (0 <= (v * y - c * x) ^ 2) by apply pow2_ge_0; assert (0 <= x ^ 2) by apply pow2_ge_0; assert (0 <= (v * w - c * c) * x ^ 2) by (apply Rmult_le_pos; lra); lra).
        destruct (Rle_or_lt 0 N) as [|L]; auto. exfalso. nra. }
      split; [unfold Rdiv; apply Rmult_le_pos; lra|]. split.
      * intros E0. unfold Rdiv in E0. apply Rmult_integral in E0. destruct E0 as [E0|E0]; [|lra].
        rewrite E0, Rmult_0_r in EN. assert (A1 : 0 <= (v * y - c * x) ^ 2) by apply pow2_ge_0. assert (A2 : 0 <= x ^ 2) by apply pow2_ge_0.
        assert (A3 : 0 <= (v * w - c * c) * x ^ 2) by (apply Rmult_le_pos; lra).
        assert (X0 : x = 0).
        { assert (Q0 : (v * w - c * c) * x ^ 2 = 0) by lra. apply Rmult_integral in Q0. destruct Q0 as [Q0|Q0]; [lra|].
          replace (x ^ 2) with (x * x) in Q0 by ring. apply Rmult_integral in Q0. tauto. }
        split; auto. intros _. assert (Q0 : (v * y - c * x) ^ 2 = 0) by lra. rewrite X0 in Q0.
        replace ((v * y - c * 0) ^ 2) with (v * y * (v * y)) in Q0 by ring. apply Rmult_integral in Q0.
        assert (Q1 : v * y = 0) by tauto. apply Rmult_integral in Q1. destruct Q1; [lra|auto].
      * intros [E1 E2]. unfold N. fold x in E1. fold y in E2. rewrite E1, E2 by auto. unfold Rdiv. ring.
Qed.

(* ---- data points ---- *)
Open Scope nat_scope.
Lemma ls_cons x l : list_sum (x :: l) = x + list_sum l. Proof. reflexivity. Qed.
Lemma ls_plus {A} (f g : A -> nat) l : list_sum (map (fun x => f x + g x) l) = list_sum (map f l) + list_sum (map g l).
Proof. induction l as [|x l IH]; auto. cbn [map]. rewrite !ls_cons, IH. lia. Qed.
Lemma ls_swap {A B} (f : A -> B -> nat) l r : list_sum (map (fun x => list_sum (map (f x) r)) l) = list_sum (map (fun y => list_sum (map (fun x => f x y) l)) r).
Proof.
  revert r. induction l as [|x l IHl]; intros r.
  - change (0 = list_sum (map (fun _ : B => 0) r)). induction r as [|y r IHr]; auto.
  - cbn [map]. rewrite ls_cons, IHl. rewrite <- (ls_plus (f x) (fun y => list_sum (map (fun x0 => f x0 y) l)) r). f_equal.
Qed.
Lemma ls_ext {A} (f g : A -> nat) l : (forall x, In x l -> f x = g x) -> list_sum (map f l) = list_sum (map g l).
Proof. intros H. f_equal. apply map_ext_in; auto. Qed.
Lemma ls_count {A} (p : A -> bool) l : list_sum (map (fun x => if p x then 1 else 0) l) = length (filter p l).
Proof. induction l as [|x l IH]; auto. cbn [map filter]. rewrite ls_cons, IH. destruct (p x); reflexivity. Qed.
Lemma ls_scal {A} c (f : A -> nat) l : list_sum (map (fun x => c * f x) l) = c * list_sum (map f l).
Proof. induction l as [|x l IH]; [cbn; lia|]. cbn [map]. rewrite !ls_cons, IH. lia. Qed.
Lemma count_window (p : nat -> bool) N f l : f <= l < N -> (forall m, m < N -> (f <= m <= l <-> p m = true)) -> length (filter p (seq 0 N)) = S l - f.
Proof.
  intros H Hp. replace N with (f + ((S l - f) + (N - S l))) by lia. rewrite !seq_app, !filter_app, !app_length. cbn [Nat.add].
  assert (Z : forall s k, (forall m, s <= m < s + k -> p m = false) -> length (filter p (seq s k)) = 0).
  { intros s k Hz. induction k as [|k IH] in s, Hz |- *; auto. cbn [seq filter]. rewrite (Hz s) by lia. apply IH. intros; apply Hz; lia. }
  assert (O : forall s k, (forall m, s <= m < s + k -> p m = true) -> length (filter p (seq s k)) = k).
  { intros s k Hz. induction k as [|k IH] in s, Hz |- *; auto. cbn [seq filter]. rewrite (Hz s) by lia. cbn [length]. f_equal. apply IH. intros; apply Hz; lia. }
  rewrite Z, O, Z; [lia| | |].
  - intros m Hm. destruct (p m) eqn:E; auto. apply Hp in E; lia.
  - intros m Hm. apply Hp; lia.
  - intros m Hm. destruct (p m) eqn:E; auto. apply Hp in E; lia.
Qed.
Lemma pts_fold {A} (g : A -> nat) l : forall z, fold_left (fun pts x => ((pts + Z.of_nat (g x)) mod 2 ^ 64)%Z) l (z mod 2 ^ 64)%Z = ((z + Z.of_nat (list_sum (map g l))) mod 2 ^ 64)%Z.
Proof.
  induction l as [|x l IH]; intros z; cbn [fold_left map].
  - cbn [list_sum fold_right]. change (Z.of_nat (list_sum [])) with 0%Z. rewrite Z.add_0_r. reflexivity.
  - rewrite Zplus_mod_idemp_l, IH, ls_cons. f_equal. lia.
Qed.
Lemma bin_points b lims : limsOk b lims -> rangesOverlap b -> forall z,
  fold_left (fun pts i => fold_left (fun pts j => let p := pairLimits lims i j in
     ((pts + (Z.of_nat (snd p) - Z.of_nat (fst p) + 1)) mod 2 ^ 64)%Z) (seq 0 (nrWaves b)) pts) (seq 0 (nrWaves b)) (z mod 2 ^ 64)%Z =
  ((z + Z.of_nat (list_sum (map (fun m => let k := length (filter (fitted b m) (seq 0 (nrWaves b))) in (k * k)%nat) (seq 0 (nrMassBins b))))) mod 2 ^ 64)%Z.
Proof.
  intros L Ov z. set (n := nrWaves b). set (N := nrMassBins b).
  set (cnt := fun i j => length (filter (fun m => fitted b m i && fitted b m j) (seq 0 N))).
  assert (E : forall i j, i < n -> j < n -> (Z.of_nat (snd (pairLimits lims i j)) - Z.of_nat (fst (pairLimits lims i j)) + 1)%Z = Z.of_nat (cnt i j)).
  { intros i j Hi Hj. destruct (Ov i j Hi Hj) as (m0 & Hm0 & F1 & F2). destruct L as [_ L']. destruct (L' i Hi) as (A1 & A2 & A3). destruct (L' j Hj) as (B1 & B2 & B3).
    pose proof (proj2 (A3 m0 Hm0) F1). pose proof (proj2 (B3 m0 Hm0) F2).
    unfold cnt. rewrite (count_window _ N (fst (pairLimits lims i j)) (snd (pairLimits lims i j))).
    - unfold pairLimits; cbn [fst snd]. lia.
    - unfold pairLimits; cbn [fst snd]. unfold N. lia.
    - intros m Hm. rewrite andb_true_iff, <- (A3 m Hm), <- (B3 m Hm). unfold pairLimits; cbn [fst snd]. lia. }
  assert (I1 : forall i z, i < n -> fold_left (fun pts j => let p := pairLimits lims i j in ((pts + (Z.of_nat (snd p) - Z.of_nat (fst p) + 1)) mod 2 ^ 64)%Z) (seq 0 n) (z mod 2 ^ 64)%Z =
      ((z + Z.of_nat (list_sum (map (cnt i) (seq 0 n)))) mod 2 ^ 64)%Z).
  { intros i z0 Hi. rewrite <- (pts_fold (cnt i)). assert (G : forall l a, (forall j, In j l -> j < n) ->
      fold_left (fun pts j => let p := pairLimits lims i j in ((pts + (Z.of_nat (snd p) - Z.of_nat (fst p) + 1)) mod 2 ^ 64)%Z) l a = fold_left (fun pts j => ((pts + Z.of_nat (cnt i j)) mod 2 ^ 64)%Z) l a).
    { induction l as [|j l IH]; intros a Hl; auto. cbn [fold_left]. cbv zeta. rewrite E by (auto; apply Hl; left; auto). apply IH. intros; apply Hl; right; auto. }
    apply G. intros j Hj. apply in_seq in Hj. lia. }
  assert (I2 : forall l z, (forall i, In i l -> i < n) -> fold_left (fun pts i => fold_left (fun pts j => let p := pairLimits lims i j in ((pts + (Z.of_nat (snd p) - Z.of_nat (fst p) + 1)) mod 2 ^ 64)%Z) (seq 0 n) pts) l (z mod 2 ^ 64)%Z =
      ((z + Z.of_nat (list_sum (map (fun i => list_sum (map (cnt i) (seq 0 n))) l))) mod 2 ^ 64)%Z).
  { induction l as [|i l IH]; intros z0 Hl; cbn [fold_left map].
    - change (Z.of_nat (list_sum [])) with 0%Z. rewrite Z.add_0_r. reflexivity.
    - rewrite I1 by (apply Hl; left; auto). rewrite IH by (intros; apply Hl; right; auto). rewrite ls_cons. f_equal. lia. }
  rewrite I2 by (intros i Hi; apply in_seq in Hi; lia). f_equal. f_equal. f_equal.
  transitivity (list_sum (map (fun i => list_sum (map (fun j => list_sum (map (fun m => if fitted b m i && fitted b m j then 1 else 0) (seq 0 N))) (seq 0 n))) (seq 0 n))).
  { apply ls_ext. intros i _. apply ls_ext. intros j _. unfold cnt. rewrite <- (ls_count (fun m => fitted b m i && fitted b m j)). reflexivity. }
  transitivity (list_sum (map (fun i => list_sum (map (fun m => list_sum (map (fun j => if fitted b m i && fitted b m j then 1 else 0) (seq 0 n))) (seq 0 N))) (seq 0 n))).
  { apply ls_ext. intros i _. apply ls_swap. }
  rewrite ls_swap. apply ls_ext. intros m _. cbv zeta.
  transitivity (list_sum (map (fun i => length (filter (fitted b m) (seq 0 n)) * (if fitted b m i then 1 else 0)) (seq 0 n))).
  { apply ls_ext. intros i _. destruct (fitted b m i); cbn [andb].
    - rewrite (ls_count (fitted b m)). lia.
    - rewrite Nat.mul_0_r. clear. generalize (seq 0 n). induction l as [|j l IH]; auto. }
  rewrite ls_scal, ls_count. reflexivity.
Qed.
