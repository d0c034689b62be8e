(* C35: complexMatrix *)
From Coq Require Import List ZArith Reals Bool Lia Lra.
From Coquelicot Require Import Complex.
From Verif Require Import AmpIntProofs CGBoxModel CMatModel.
Import ListNotations.
Open Scope list_scope.
Open Scope nat_scope.

(* ---- build and get ---- *)
Lemma flat_len {X} (f : nat -> nat -> X) c n l : length (flat_map (fun i => map (f i) (List.seq l c)) (List.seq n 0)) = 0.
Proof. reflexivity. Qed.
Lemma flat_length {X} (f : nat -> nat -> X) c r n : length (flat_map (fun i => map (f i) (List.seq 0 c)) (List.seq n r)) = r * c.
Proof. revert n. induction r as [|r IH]; intros n; cbn [List.seq flat_map]; auto. rewrite app_length, map_length, seq_length, IH. reflexivity. Qed.
Lemma flat_nth {X} (f : nat -> nat -> X) c r n i j : i < r -> j < c ->
  nth_error (flat_map (fun i => map (f i) (List.seq 0 c)) (List.seq n r)) (i * c + j) = Some (f (n + i) j).
Proof.
  revert n i. induction r as [|r IH]; intros n i Hi Hj; [lia|]. cbn [List.seq flat_map]. destruct i as [|i].
  - cbn [Nat.mul Nat.add]. rewrite nth_error_app1 by (rewrite map_length, seq_length; auto).
    rewrite Nat.add_0_r. assert (E : nth_error (List.seq 0 c) j = Some j).
    { rewrite (nth_error_nth' _ 0) by (rewrite seq_length; auto). now rewrite seq_nth. }
    rewrite nth_error_map, E. reflexivity.
  - rewrite nth_error_app2 by (rewrite map_length, seq_length; cbn; lia). rewrite map_length, seq_length.
    replace (S i * c + j - c) with (i * c + j) by (cbn; lia). rewrite IH by lia. do 2 f_equal. lia.
Qed.
Lemma build_wf r c f : wfMat (build r c f).
Proof. unfold wfMat, build. cbn [m_elems m_rows m_cols]. apply flat_length. Qed.
Lemma get_build r c f i j : get (build r c f) i j = if (i <? r) && (j <? c) then Some (f i j) else None.
Proof.
  unfold get, build. cbn [m_elems m_rows m_cols]. destruct (Nat.ltb_spec i r), (Nat.ltb_spec j c); cbn [andb]; auto.
  now rewrite flat_nth.
Qed.
Lemma get_elt m i j : wfMat m -> i < m_rows m -> j < m_cols m -> get m i j = Some (elt m i j).
Proof.
  intros W Hi Hj. unfold get, elt. rewrite (proj2 (Nat.ltb_lt _ _) Hi), (proj2 (Nat.ltb_lt _ _) Hj). cbn [andb].
  apply nth_error_nth'. rewrite W. nia.
Qed.
Lemma get_out m i j : m_rows m <= i \/ m_cols m <= j -> get m i j = None.
Proof. intros H. unfold get. destruct (Nat.ltb_spec i (m_rows m)), (Nat.ltb_spec j (m_cols m)); cbn; auto; lia. Qed.
Lemma elt_build r c f i j : i < r -> j < c -> elt (build r c f) i j = f i j.
Proof.
  intros Hi Hj. pose proof (get_elt (build r c f) i j (build_wf r c f) Hi Hj) as E. rewrite get_build in E.
  rewrite (proj2 (Nat.ltb_lt _ _) Hi), (proj2 (Nat.ltb_lt _ _) Hj) in E. cbn [andb] in E. congruence.
Qed.
(* matrices with the same dimensions and elements are equal *)
Lemma cmat_ext a b : wfMat a -> wfMat b -> m_rows a = m_rows b -> m_cols a = m_cols b ->
  (forall i j, i < m_rows a -> j < m_cols a -> get a i j = get b i j) -> a = b.
Proof.
  intros Wa Wb Er Ec H. destruct a as [r c l], b as [r' c' l']. cbn in *. subst r' c'. f_equal. unfold wfMat in *. cbn in *.
  apply nth_ext with (d := RtoC 0) (d' := RtoC 0); [lia|]. intros n Hn.
  destruct c as [|c]; [lia|]. set (i := n / S c). set (j := n mod S c).
  assert (En : n = i * S c + j) by (unfold i, j; rewrite Nat.mul_comm; apply Nat.div_mod; lia).
  assert (Hj : j < S c) by (apply Nat.mod_upper_bound; lia).
  assert (Hi : i < r) by (apply Nat.div_lt_upper_bound; lia).
  specialize (H i j Hi Hj). rewrite !get_elt in H by auto. unfold elt in H. cbn [m_elems m_cols] in H. rewrite <- En in H. congruence.
Qed.

(* ---- equality ---- *)
Lemma loopE_none {X} (body : X -> option (option bool)) l : (forall x, In x l -> body x <> None) ->
  exists r, loopE body l = Some r /\ (r = None <-> forall x, In x l -> body x = Some None) /\
   (forall b, r = Some b -> exists x, In x l /\ body x = Some (Some b)).
Proof.
  induction l as [|x l IH]; intros H.
  - exists None. cbn. split; auto. split; [split; auto; intros _ x []|discriminate].
  - cbn [loopE]. destruct (body x) as [[b|]|] eqn:E.
    + exists (Some b). split; auto. split; [split; [discriminate|]|].
      * intros A. rewrite (A x) in E by now left. discriminate.
      * intros b' Eb. injection Eb as <-. exists x. split; auto. now left.
    + destruct IH as (r & Er & A & B); [intros; apply H; now right|]. exists r. split; auto. split.
      * rewrite A. split; [intros F y [<-|Hy]; auto|intros F y Hy; apply F; now right].
      * intros b Hb. destruct (B b Hb) as (y & Hy & Ey). exists y. split; auto. now right.
    + exfalso. apply (H x); auto. now left.
Qed.
Lemma Ceqb_eq a b : Ceqb a b = true <-> a = b.
Proof.
  unfold Ceqb. destruct a as [a1 a2], b as [b1 b2]. cbn [fst snd]. destruct (Req_EM_T a1 b1), (Req_EM_T a2 b2); cbn; split; intros H; try discriminate; try congruence.
Qed.
Lemma in_seq0 n i : In i (List.seq 0 n) <-> i < n. Proof. rewrite in_seq. lia. Qed.

(* a comparison loop over a square matrix *)
Lemma square_loop a b (t : C -> C -> bool) (body : nat -> nat -> option (option bool)) : wfMat a -> wfMat b ->
  m_rows a = m_cols a -> m_rows b = m_rows a -> m_cols b = m_cols a ->
  (forall i j x y, get a i j = Some x -> get b i j = Some y -> body i j = Some (if t x y then None else Some false)) ->
  endLoop (loopE (fun i => loopE (body i) (List.seq 0 (m_rows a))) (List.seq 0 (m_cols a))) =
  Some (forallb (fun i => forallb (fun j => t (elt a i j) (elt b i j)) (List.seq 0 (m_cols a))) (List.seq 0 (m_rows a))).
Proof.
  intros Wa Wb Sq Er Ec Hb.
  assert (B : forall i j, i < m_rows a -> j < m_cols a -> body i j = Some (if t (elt a i j) (elt b i j) then None else Some false)).
  { intros i j Hi Hj. apply Hb; apply get_elt; auto; lia. }
  assert (In1 : forall i, i < m_rows a -> loopE (body i) (List.seq 0 (m_rows a)) = Some (if forallb (fun j => t (elt a i j) (elt b i j)) (List.seq 0 (m_cols a)) then None else Some false)).
  { intros i Hi. rewrite <- Sq. assert (G : forall l, (forall j, In j l -> j < m_rows a) -> loopE (body i) l = Some (if forallb (fun j => t (elt a i j) (elt b i j)) l then None else Some false)).
    { induction l as [|j l IH]; intros Hl; [reflexivity|]. cbn [loopE forallb]. rewrite B by (auto; rewrite <- ?Sq; apply Hl; now left).
      destruct (t _ _); cbn [andb]; [apply IH; intros; apply Hl; now right|reflexivity]. }
    apply G. intros j Hj. now apply in_seq0. }
  rewrite <- Sq. assert (G : forall l, (forall i, In i l -> i < m_rows a) ->
     loopE (fun i => loopE (body i) (List.seq 0 (m_rows a))) l = Some (if forallb (fun i => forallb (fun j => t (elt a i j) (elt b i j)) (List.seq 0 (m_rows a))) l then None else Some false)).
  { induction l as [|i l IH]; intros Hl; [reflexivity|]. cbn [loopE forallb]. rewrite In1 by (apply Hl; now left). rewrite <- Sq.
    destruct (forallb _ (List.seq 0 (m_rows a))); cbn [andb]; [apply IH; intros; apply Hl; now right|reflexivity]. }
  rewrite G by (intros i Hi; now apply in_seq0). now destruct (forallb _ _).
Qed.

(* C35: for square matrices operator== is equality; matrices of different dimensions are different *)
Theorem C35_equality_square : forall a b, wfMat a -> wfMat b -> m_rows a = m_cols a ->
  exists r, eqM a b = Some r /\ (r = true <-> a = b).
Proof.
  intros a b Wa Wb Sq. unfold eqM. destruct (Nat.eqb_spec (m_cols a) (m_cols b)) as [Ec|Ec]; cbn [negb orb]; [|exists false; split; auto; split; [discriminate|congruence]].
  destruct (Nat.eqb_spec (m_rows a) (m_rows b)) as [Er|Er]; cbn [negb]; [|exists false; split; auto; split; [discriminate|congruence]].
  rewrite (square_loop a b Ceqb); auto; [|intros i j x y -> ->; reflexivity]. eexists. split; [reflexivity|]. rewrite forallb_forall. split.
  - intros H. apply cmat_ext; auto. intros i j Hi Hj. rewrite !get_elt by (auto; lia). f_equal. apply in_seq0 in Hi. specialize (H i Hi). rewrite forallb_forall in H.
    apply Ceqb_eq, H, in_seq0; auto.
  - intros <- i _. apply forallb_forall. intros j _. now apply Ceqb_eq.
Qed.
Theorem C35_different_dimensions : forall a b, m_rows a <> m_rows b \/ m_cols a <> m_cols b -> eqM a b = Some false.
Proof.
  intros a b H. unfold eqM. destruct (Nat.eqb_spec (m_cols a) (m_cols b)), (Nat.eqb_spec (m_rows a) (m_rows b)); cbn; auto. tauto.
Qed.
(* C35: comparing a non-square matrix with an equal one always leaves the matrix *)
Theorem C35_equality_non_square_undefined : forall a, wfMat a -> m_rows a <> m_cols a -> 0 < m_rows a -> 0 < m_cols a ->
  eqM a a = None.
Proof.
  intros a W N Hr Hc. unfold eqM. rewrite !Nat.eqb_refl. cbn [negb orb].
  set (body := fun i j => do x <- get a i j; do y <- get a i j; Some (if Ceqb x y then None else Some false)).
  change (endLoop (loopE (fun i => loopE (body i) (List.seq 0 (m_rows a))) (List.seq 0 (m_cols a))) = None).
  assert (B : forall i j, body i j = if (i <? m_rows a) && (j <? m_cols a) then Some None else None).
  { intros i j. unfold body. destruct (Nat.ltb_spec i (m_rows a)), (Nat.ltb_spec j (m_cols a)); cbn [andb]; try (rewrite get_out by lia; reflexivity).
    rewrite get_elt by auto. cbn [bnd]. now rewrite (proj2 (Ceqb_eq _ _) eq_refl). }
  assert (G : forall i l, (forall j, In j l -> body i j = Some None \/ body i j = None) ->
     loopE (body i) l = None \/ loopE (body i) l = Some None /\ forall j, In j l -> body i j = Some None).
  { intros i l. induction l as [|j l IH]; intros Hl; [right; split; auto; intros j []|]. cbn [loopE].
    destruct (Hl j (or_introl eq_refl)) as [E|E]; rewrite E; [|now left]. destruct IH as [IH|[IH A]]; [intros; apply Hl; now right|now left|].
    right. split; auto. intros j' [<-|Hj]; auto. }
  assert (G2 : forall l, loopE (fun i => loopE (body i) (List.seq 0 (m_rows a))) l = None \/
     loopE (fun i => loopE (body i) (List.seq 0 (m_rows a))) l = Some None /\ forall i, In i l -> forall j, In j (List.seq 0 (m_rows a)) -> body i j = Some None).
  { induction l as [|i l IH]; [right; split; auto; intros i []|]. cbn [loopE].
    destruct (G i (List.seq 0 (m_rows a))) as [E|[E A]].
    - intros j _. rewrite B. destruct (_ && _); auto.
    - rewrite E. now left.
    - rewrite E. destruct IH as [IH|[IH A']]; [now left|]. right. split; auto. intros i' [<-|Hi]; auto. }
  destruct (G2 (List.seq 0 (m_cols a))) as [E|[E A]]; rewrite E; cbn; auto. exfalso.
  destruct (Nat.lt_ge_cases (m_rows a) (m_cols a)) as [L|L].
  - specialize (A (m_cols a - 1) ltac:(apply in_seq0; lia) 0 ltac:(apply in_seq0; lia)). rewrite B in A.
    rewrite (proj2 (Nat.ltb_ge _ _)) in A by lia. discriminate.
  - specialize (A 0 ltac:(apply in_seq0; lia) (m_rows a - 1) ltac:(apply in_seq0; lia)). rewrite B in A.
    rewrite (proj2 (Nat.ltb_ge (m_rows a - 1) (m_cols a))) in A by lia. rewrite andb_false_r in A. discriminate.
Qed.

(* ---- comparison with a precision ---- *)
Definition within (eps : R) (x y : C) : Prop := (Rabs (fst x - fst y) <= eps)%R /\ (Rabs (snd x - snd y) <= eps)%R.
Definition withinb (eps : R) (x y : C) : bool := negb (Rgtb (Rabs (fst x - fst y)) eps) && negb (Rgtb (Rabs (snd x - snd y)) eps).
Lemma withinb_ok eps x y : withinb eps x y = true <-> within eps x y.
Proof. unfold withinb, within, Rgtb. destruct (Rgt_dec _ _), (Rgt_dec _ _); cbn; split; intros H; try discriminate; try (exfalso; lra); split; lra. Qed.
Theorem C35_equal_to_precision : forall a b eps, wfMat a -> wfMat b -> m_rows a = m_cols a -> m_rows b = m_rows a -> m_cols b = m_cols a ->
  exists r, equalToPrecision a b eps = Some r /\ equalToPrecisionVerbose a b eps = Some r /\
  (r = true <-> forall i j x y, get a i j = Some x -> get b i j = Some y -> within eps x y).
Proof.
  intros a b eps Wa Wb Sq Er Ec. unfold equalToPrecision, equalToPrecisionVerbose. rewrite Er, Ec, !Nat.eqb_refl. cbn [negb orb].
  rewrite (square_loop a b (withinb eps)); auto.
  2:{ intros i j x y -> ->. cbn [bnd]. unfold withinb. destruct (Rgtb (Rabs (fst x - fst y)) eps), (Rgtb (Rabs (snd x - snd y)) eps); reflexivity. }
  eexists. split; [reflexivity|]. split.
  - set (body := fun (i j : nat) (s : bool) => do x <- get a i j; do y <- get b i j;
         let s := if Rgtb (Rabs (fst x - fst y)) eps then false else s in Some (if Rgtb (Rabs (snd x - snd y)) eps then false else s)).
    assert (B : forall i j s, i < m_rows a -> j < m_cols a -> body i j s = Some (s && withinb eps (elt a i j) (elt b i j))).
    { intros i j s Hi Hj. unfold body. rewrite !get_elt by (auto; lia). cbn [bnd]. unfold withinb.
      destruct (Rgtb (Rabs (fst (elt a i j) - fst (elt b i j))) eps), (Rgtb (Rabs (snd (elt a i j) - snd (elt b i j))) eps), s; reflexivity. }
    assert (L : forall l i s, i < m_rows a -> (forall j, In j l -> j < m_cols a) -> loopAll (body i) l s = Some (s && forallb (fun j => withinb eps (elt a i j) (elt b i j)) l)).
    { induction l as [|j l IH]; intros i s Hi Hl; cbn [loopAll forallb]; [now rewrite andb_true_r|].
      rewrite B by (auto; apply Hl; now left). cbn [bnd]. rewrite IH by (auto; intros; apply Hl; now right). now rewrite andb_assoc. }
    assert (L2 : forall l s, (forall i, In i l -> i < m_rows a) -> loopAll (fun i => loopAll (body i) (List.seq 0 (m_rows a))) l s
       = Some (s && forallb (fun i => forallb (fun j => withinb eps (elt a i j) (elt b i j)) (List.seq 0 (m_cols a))) l)).
    { induction l as [|i l IH]; intros s Hl; cbn [loopAll forallb]; [now rewrite andb_true_r|].
      rewrite L by (try (apply Hl; now left); intros j Hj; apply in_seq0 in Hj; lia). cbn [bnd]. rewrite IH by (intros; apply Hl; now right). rewrite Sq. now rewrite andb_assoc. }
    change (loopAll (fun i => loopAll (body i) (List.seq 0 (m_rows a))) (List.seq 0 (m_cols a)) true = Some (forallb (fun i => forallb (fun j => withinb eps (elt a i j) (elt b i j)) (List.seq 0 (m_cols a))) (List.seq 0 (m_rows a)))).
    rewrite <- Sq at 1. rewrite L2 by (intros i Hi; now apply in_seq0). cbn [andb]. rewrite Sq. reflexivity.
  - rewrite forallb_forall. split.
    + intros H i j x y Ex Ey. destruct (Nat.lt_ge_cases i (m_rows a)) as [Hi|Hi]; [|rewrite get_out in Ex by auto; discriminate].
      destruct (Nat.lt_ge_cases j (m_cols a)) as [Hj|Hj]; [|rewrite get_out in Ex by auto; discriminate].
      rewrite get_elt in Ex, Ey by (auto; lia). injection Ex as <-. injection Ey as <-. apply withinb_ok.
      specialize (H i ltac:(now apply in_seq0)). rewrite forallb_forall in H. apply H. now apply in_seq0.
    + intros H i Hi. apply forallb_forall. intros j Hj. apply in_seq0 in Hi, Hj. apply withinb_ok. apply (H i j); apply get_elt; auto; lia.
Qed.

(* ---- transpose, "dagger" ---- *)
(* specification of the adjoint *)
Definition isAdjoint (d m : cmat) : Prop :=
  m_rows d = m_cols m /\ m_cols d = m_rows m /\ forall i j, get d i j = option_map Cconj (get m j i).
Lemma ltb_swap a b c d : (a <? b) && (c <? d) = (c <? d) && (a <? b). Proof. apply andb_comm. Qed.
Theorem C35_transpose : forall m, wfMat m -> m_rows (transpose m) = m_cols m /\ m_cols (transpose m) = m_rows m /\
  (forall i j, get (transpose m) i j = get m j i) /\ transpose (transpose m) = m.
Proof.
  intros m W. assert (G : forall i j, get (transpose m) i j = get m j i).
  { intros i j. unfold transpose. rewrite get_build. destruct (Nat.ltb_spec i (m_cols m)), (Nat.ltb_spec j (m_rows m)); cbn [andb]; try (rewrite get_out by lia; reflexivity).
    now rewrite get_elt. }
  split; auto. split; auto. split; auto. apply cmat_ext; auto; [apply build_wf|]. intros i j Hi Hj. unfold transpose at 1. rewrite get_build. cbn [m_rows m_cols transpose build] in *.
  rewrite (proj2 (Nat.ltb_lt _ _) Hi), (proj2 (Nat.ltb_lt _ _) Hj). cbn [andb]. unfold transpose. rewrite elt_build by auto. now rewrite get_elt.
Qed.
(* C35: dagger conjugates the elements, keeping their positions *)
Theorem C35_dagger_is_conjugate : forall m, wfMat m -> m_rows (dagger m) = m_rows m /\ m_cols (dagger m) = m_cols m /\
  forall i j, get (dagger m) i j = option_map Cconj (get m i j).
Proof.
  intros m W. split; auto. split; auto. intros i j. unfold dagger. rewrite get_build.
  destruct (Nat.ltb_spec i (m_rows m)), (Nat.ltb_spec j (m_cols m)); cbn [andb]; try (rewrite get_out by lia; reflexivity). now rewrite get_elt.
Qed.
(* C35: hence it returns the adjoint of symmetric matrices only *)
Theorem C35_dagger_adjoint_iff_symmetric : forall m, wfMat m ->
  (isAdjoint (dagger m) m <-> m_rows m = m_cols m /\ forall i j, get m i j = get m j i).
Proof.
  intros m W. destruct (C35_dagger_is_conjugate m W) as (Er & Ec & G). unfold isAdjoint. rewrite Er, Ec. split.
  - intros (A & _ & H). split; auto. intros i j. specialize (H i j). rewrite G in H. destruct (get m i j) as [x|], (get m j i) as [y|]; cbn in H; try discriminate; auto.
    injection H as H. f_equal. rewrite <- (Cconj_conj x), <- (Cconj_conj y). destruct x, y. unfold Cconj in *. cbn in *. congruence.
  - intros [A H]. split; auto. split; auto. intros i j. now rewrite G, H.
Qed.
Theorem C35_dagger_refuted : exists m, wfMat m /\ m_rows m = m_cols m /\ ~ isAdjoint (dagger m) m.
Proof.
  exists (mkCMat 2 2 [RtoC 0; RtoC 1; RtoC 0; RtoC 0]). split; [reflexivity|]. split; [reflexivity|]. intros (_ & _ & H). specialize (H 0 1). cbn in H.
  injection H as H. unfold RtoC in H. cbn in H. lra.
Qed.

(* ---- products and sums ---- *)
Lemma sumC_csum f n : sumC f n = csum f n.
Proof. induction n as [|n IH]; cbn; [reflexivity|]. now rewrite IH. Qed.
(* (a b)_ij = sum_k a_ik b_kj, defined exactly if the dimensions fit *)
Theorem C35_product : forall a b, wfMat a -> wfMat b ->
  (m_cols a <> m_rows b -> mulM a b = None) /\
  (m_cols a = m_rows b -> exists p, mulM a b = Some p /\ wfMat p /\ m_rows p = m_rows a /\ m_cols p = m_cols b /\
     forall i j, i < m_rows a -> j < m_cols b -> exists x y,
       (forall k, k < m_cols a -> get a i k = Some (x k) /\ get b k j = Some (y k)) /\ get p i j = Some (csum (fun k => (x k * y k)%C) (m_cols a))).
Proof.
  intros a b Wa Wb. unfold mulM. destruct (Nat.eqb_spec (m_cols a) (m_rows b)) as [E|E]; [|split; [auto|contradiction]]. split; [contradiction|].
  intros _. eexists. split; [reflexivity|]. split; [apply build_wf|]. split; auto. split; auto. intros i j Hi Hj.
  exists (elt a i), (fun k => elt b k j). split; [intros k Hk; split; apply get_elt; auto; lia|].
  rewrite get_build, (proj2 (Nat.ltb_lt _ _) Hi), (proj2 (Nat.ltb_lt _ _) Hj). cbn [andb]. reflexivity.
Qed.
(* multiplication is associative, transposition reverses products, dagger does not *)
Lemma csum_swap' f n m : csum (fun i => csum (f i) m) n = csum (fun j => csum (fun i => f i j) n) m.
Proof. induction n as [|n IH]; cbn; [symmetry; apply csum_zero|]. rewrite IH. now rewrite <- csum_plus. Qed.
Lemma get_in r c f i j : i < r -> j < c -> get (build r c f) i j = Some (f i j).
Proof. intros Hi Hj. now rewrite get_build, (proj2 (Nat.ltb_lt _ _) Hi), (proj2 (Nat.ltb_lt _ _) Hj). Qed.
Theorem C35_product_associative : forall a b c ab bc, mulM a b = Some ab -> mulM b c = Some bc ->
  exists p, mulM ab c = Some p /\ mulM a bc = Some p.
Proof.
  intros a b c ab bc Hab Hbc. unfold mulM in Hab, Hbc. destruct (Nat.eqb_spec (m_cols a) (m_rows b)) as [E1|]; [|discriminate]. destruct (Nat.eqb_spec (m_cols b) (m_rows c)) as [E2|]; [|discriminate].
  injection Hab as <-. injection Hbc as <-. unfold mulM. cbn [m_rows m_cols build]. rewrite E1, E2, !Nat.eqb_refl. eexists. split; [reflexivity|]. f_equal.
  apply cmat_ext; try apply build_wf; auto. intros i j Hi Hj. cbn [m_rows m_cols build] in Hi, Hj. rewrite !get_in by auto. f_equal. change sumC with csum.
  transitivity (csum (fun k => csum (fun k' => (elt a i k * elt b k k' * elt c k' j)%C) (m_rows c)) (m_rows b)).
  - apply csum_ext. intros k Hk. change (mkCMat (m_rows b) (m_cols c) ?l) with (build (m_rows b) (m_cols c) (fun i0 j0 => sumC (fun k0 => (elt b i0 k0 * elt c k0 j0)%C) (m_rows c))).
    rewrite elt_build by auto. change sumC with csum. rewrite <- csum_mult_l. apply csum_ext. intros k' _. ring.
  - rewrite csum_swap'. apply csum_ext. intros k' Hk'. rewrite elt_build by auto. change sumC with csum. rewrite <- csum_mult_r. reflexivity.
Qed.
Theorem C35_transpose_of_product : forall a b p, wfMat a -> wfMat b -> mulM a b = Some p -> mulM (transpose b) (transpose a) = Some (transpose p).
Proof.
  intros a b p Wa Wb H. unfold mulM in *. destruct (Nat.eqb_spec (m_cols a) (m_rows b)) as [E|]; [|discriminate]. injection H as <-.
  cbn [transpose m_rows m_cols build]. rewrite E, Nat.eqb_refl. f_equal. apply cmat_ext; try apply build_wf; auto.
  intros i j Hi Hj. cbn [m_rows m_cols build] in Hi, Hj. unfold transpose. rewrite !get_in by auto. f_equal.
  rewrite elt_build by auto. change sumC with csum. apply csum_ext. intros k Hk. rewrite !elt_build by (auto; lia). ring.
Qed.
Theorem C35_dagger_of_product : forall a b p, wfMat a -> wfMat b -> mulM a b = Some p -> mulM (dagger a) (dagger b) = Some (dagger p).
Proof.
  intros a b p Wa Wb H. unfold mulM in *. destruct (Nat.eqb_spec (m_cols a) (m_rows b)) as [E|]; [|discriminate]. injection H as <-.
  cbn [dagger m_rows m_cols build]. rewrite E, Nat.eqb_refl. f_equal. apply cmat_ext; try apply build_wf; auto.
  intros i j Hi Hj. cbn [m_rows m_cols build] in Hi, Hj. unfold dagger. rewrite !get_in by auto. f_equal.
  rewrite elt_build by auto. change sumC with csum. rewrite csum_conj. apply csum_ext. intros k Hk. rewrite !elt_build by (auto; lia). now rewrite Cconj_mult.
Qed.
Theorem C35_sum_and_difference : forall a b, wfMat a -> wfMat b ->
  (m_rows a <> m_rows b \/ m_cols a <> m_cols b -> addM a b = None /\ subM a b = None) /\
  (m_rows a = m_rows b -> m_cols a = m_cols b -> exists s d, addM a b = Some s /\ subM a b = Some d /\
     forall i j x y, get a i j = Some x -> get b i j = Some y -> get s i j = Some (x + y)%C /\ get d i j = Some (x - y)%C).
Proof.
  intros a b Wa Wb. unfold addM, subM, zipM. destruct (Nat.eqb_spec (m_rows a) (m_rows b)) as [Er|], (Nat.eqb_spec (m_cols a) (m_cols b)) as [Ec|]; cbn [andb];
    (split; [intros [H|H]; try contradiction; auto|]; intros; try contradiction).
  do 2 eexists. split; [reflexivity|]. split; [reflexivity|]. intros i j x y Ex Ey.
  destruct (Nat.lt_ge_cases i (m_rows a)) as [Hi|Hi]; [|rewrite get_out in Ex by auto; discriminate].
  destruct (Nat.lt_ge_cases j (m_cols a)) as [Hj|Hj]; [|rewrite get_out in Ex by auto; discriminate].
  rewrite !get_in by auto. rewrite get_elt in Ex, Ey by (auto; lia). injection Ex as <-. injection Ey as <-. auto.
Qed.

(* ---- storage ---- *)
(* C35: a stored matrix is read back, except that a matrix with one vanishing dimension
   comes back as a 0 x 0 matrix *)
Theorem C35_storage_round_trip : forall m, wfMat m ->
  readMatrix (storeMatrix m) = if (0 <? m_rows m) && (0 <? m_cols m) then m else mkCMat 0 0 [].
Proof.
  intros m W. unfold readMatrix, storeMatrix. cbn [p_size1 p_size2 p_data].
  destruct ((0 <? m_rows m) && (0 <? m_cols m)) eqn:E; [|reflexivity].
  apply cmat_ext; auto; [apply build_wf|]. intros i j Hi Hj. cbn [m_rows m_cols build] in Hi, Hj. rewrite get_in, get_elt by auto. f_equal.
  pose proof (flat_nth (fun i j => elt m i j) (m_cols m) (m_rows m) 0 i j Hi Hj) as F. cbn [Nat.add] in F. now apply nth_error_nth.
Qed.
Example C35_storage_example : readMatrix (storeMatrix (mkCMat 2 0 [])) = mkCMat 0 0 []
  /\ wfMat (mkCMat 1 2 [RtoC 1; RtoC 2]) /\ readMatrix (storeMatrix (mkCMat 1 2 [RtoC 1; RtoC 2])) = mkCMat 1 2 [RtoC 1; RtoC 2].
Proof. repeat split. Qed.

(* ---- ownership ---- *)
(* no two objects hold the same block, and blocks that are held have not been deleted *)
Definition ownInv (h : heap) : Prop :=
  NoDup (map fst (h_objs h)) /\ NoDup (flat_map (fun e => match snd e with Some p => [p] | None => [] end) (h_objs h)) /\
  (forall x p, In (x, Some p) (h_objs h) -> In p (h_live h)) /\ (forall p, In p (h_live h) -> p < h_next h).
(* the source of a copy holds no block, and objects are constructed once *)
Definition opSafe (h : heap) (o : op) : Prop :=
  match o with
  | ONew x => dataOf h x = None
  | OCopy x y => dataOf h x = None /\ dataOf h y = Some None
  | OAssign x y => dataOf h x = Some None /\ dataOf h y = Some None
  | OStore x | ORead x | ODestroy x => exists d, dataOf h x = Some d
  end.
Fixpoint opsSafe (h : heap) (ops : list op) : Prop :=
  match ops with [] => True | o :: r => opSafe h o /\ match stepH h o with Some h' => opsSafe h' r | None => True end end.
Definition blocks (l : list (nat * option nat)) : list nat := flat_map (fun e => match snd e with Some p => [p] | None => [] end) l.
Lemma blocks_in l p : In p (blocks l) <-> exists x, In (x, Some p) l.
Proof.
  unfold blocks. rewrite in_flat_map. split.
  - intros ([x [q|]] & H & E); cbn in E; [destruct E as [<-|[]]; eauto|contradiction].
  - intros [x H]. exists (x, Some p). cbn. auto.
Qed.
Lemma blocks_filter f l : NoDup (blocks l) -> NoDup (blocks (filter f l)).
Proof.
  induction l as [|[x [p|]] l IH]; cbn; auto.
  - intros H. inversion H as [|? ? N ND]; subst. destruct (f (x, Some p)); cbn; auto. constructor; auto.
    intros H'. apply N. apply blocks_in in H' as [y H']. apply filter_In in H' as [H' _]. apply blocks_in. eauto.
  - intros H. destruct (f (x, None)); cbn; auto.
Qed.
Lemma find_data h x d : NoDup (map fst (h_objs h)) -> dataOf h x = Some d -> In (x, d) (h_objs h).
Proof.
  unfold dataOf. intros _ H. destruct (find _ (h_objs h)) as [[y e]|] eqn:F; [|discriminate]. cbn in H. injection H as <-.
  apply find_some in F as [F E]. cbn in E. apply Nat.eqb_eq in E. now subst.
Qed.
Lemma in_rest l x y (d : option nat) : In (y, d) (filter (fun e => negb (fst e =? x)) l) <-> In (y, d) l /\ y <> x.
Proof. rewrite filter_In. cbn. rewrite negb_true_iff, Nat.eqb_neq. reflexivity. Qed.
Lemma rest_nodup l x : NoDup (map fst l) -> NoDup (map fst (filter (fun e => negb (fst e =? x)) l)) /\ ~ In x (map fst (filter (fun e => negb (fst e =? x)) l : list (nat * option nat))).
Proof.
  intros H. split.
  - induction l as [|[y d] l IH]; cbn in *; auto. inversion H as [|? ? N ND]; subst. destruct (y =? x); cbn; auto. constructor; auto.
    intros H'. apply N. apply in_map_iff in H' as ([z e] & E & H'). cbn in E. subst. apply in_rest in H' as [H' _]. apply in_map_iff. exists (y, e). auto.
  - intros H'. apply in_map_iff in H' as ([z e] & E & H'). cbn in E. subst. apply in_rest in H' as [_ H']. auto.
Qed.
Lemma own_unique l x y p : NoDup (blocks l) -> In (x, Some p) l -> In (y, Some p) l -> NoDup (map fst l) -> x = y.
Proof.
  induction l as [|[z [q|]] l IH]; cbn; intros H Hx Hy Hn; [contradiction| |].
  - inversion H as [|? ? N ND]; subst. inversion Hn as [|? ? Nn NDn]; subst. destruct Hx as [Hx|Hx], Hy as [Hy|Hy].
    + congruence.
    + injection Hx as -> ->. exfalso. apply N. apply blocks_in. eauto.
    + injection Hy as -> ->. exfalso. apply N. apply blocks_in. eauto.
    + auto.
  - inversion Hn; subst. destruct Hx as [Hx|Hx]; [discriminate|]. destruct Hy as [Hy|Hy]; [discriminate|]. auto.
Qed.
Lemma release_ok h x d : ownInv h -> dataOf h x = Some d -> exists h1, release h d = Some h1 /\ h_objs h1 = h_objs h /\ h_next h1 = h_next h /\
  (forall q, In q (h_live h1) <-> In q (h_live h) /\ d <> Some q).
Proof.
  intros (Hn & Hb & Hl & Hm) E. destruct d as [p|]; cbn [release].
  - assert (L : In p (h_live h)) by (apply (Hl x); now apply find_data).
    assert (Ex : existsb (Nat.eqb p) (h_live h) = true) by (apply existsb_exists; exists p; split; auto; apply Nat.eqb_refl).
    rewrite Ex. eexists. split; [reflexivity|]. cbn. split; auto. split; auto. intros q. rewrite filter_In, negb_true_iff, Nat.eqb_neq. intuition congruence.
  - exists h. repeat split; auto; intuition congruence.
Qed.
(* C35: as long as no matrix with pending data is copied or assigned, no block is deleted
   twice and every block that is held is alive, for all histories *)
Theorem C35_no_double_delete : forall ops h, ownInv h -> opsSafe h ops -> exists h', runH h ops = Some h' /\ ownInv h'.
Proof.
  induction ops as [|o ops IH]; intros h I S; [exists h; auto|]. destruct S as [So S]. cbn [runH].
  assert (St : exists h', stepH h o = Some h' /\ ownInv h').
  { pose proof I as (Hn & Hb & Hl & Hm). destruct o as [x|x y|x y|x|x|x]; cbn [opSafe stepH] in *.
    - eexists. split; [reflexivity|]. split; [|split; [|split]]; cbn.
      + destruct (rest_nodup (h_objs h) x Hn). now constructor.
      + now apply blocks_filter.
      + intros z p [H|H]; [discriminate|]. apply in_rest in H as [H _]. eauto.
      + auto.
    - destruct So as [_ ->]. cbn [bnd]. eexists. split; [reflexivity|]. split; [|split; [|split]]; cbn.
      + destruct (rest_nodup (h_objs h) x Hn). now constructor.
      + now apply blocks_filter.
      + intros z p [H|H]; [discriminate|]. apply in_rest in H as [H _]. eauto.
      + auto.
    - destruct So as [_ ->]. cbn [bnd]. eexists. split; [reflexivity|]. split; [|split; [|split]]; cbn.
      + destruct (rest_nodup (h_objs h) x Hn). now constructor.
      + now apply blocks_filter.
      + intros z p [H|H]; [discriminate|]. apply in_rest in H as [H _]. eauto.
      + auto.
    - destruct So as [d E]. rewrite E. cbn [bnd]. destruct (release_ok h x d I E) as (h1 & -> & E1 & E2 & L). cbn [bnd]. eexists. split; [reflexivity|].
      split; [|split; [|split]]; cbn; rewrite ?E1, ?E2.
      + destruct (rest_nodup (h_objs h) x Hn). now constructor.
      + constructor; [|now apply blocks_filter]. intros H. apply blocks_in in H as [z H]. apply in_rest in H as [H _]. apply Hl, Hm in H. lia.
      + intros z p [H|H]; [injection H as <- <-; auto|]. apply in_rest in H as [H N]. right. apply L. split; [eauto|]. intros ->. apply N.
        apply (own_unique (h_objs h) z x p); auto. now apply find_data.
      + intros p [<-|H]; [lia|]. apply L in H as [H _]. apply Hm in H. lia.
    - destruct So as [d E]. rewrite E. cbn [bnd]. destruct (release_ok h x d I E) as (h1 & -> & E1 & E2 & L). cbn [bnd]. eexists. split; [reflexivity|].
      split; [|split; [|split]]; cbn; rewrite ?E1, ?E2.
      + destruct (rest_nodup (h_objs h) x Hn). now constructor.
      + now apply blocks_filter.
      + intros z p [H|H]; [discriminate|]. apply in_rest in H as [H N]. apply L. split; [eauto|]. intros ->. apply N.
        apply (own_unique (h_objs h) z x p); auto. now apply find_data.
      + intros p H. apply L in H as [H _]. auto.
    - destruct So as [d E]. rewrite E. cbn [bnd]. destruct (release_ok h x d I E) as (h1 & -> & E1 & E2 & L). cbn [bnd]. eexists. split; [reflexivity|].
      split; [|split; [|split]]; cbn; rewrite ?E1, ?E2.
      + now destruct (rest_nodup (h_objs h) x Hn).
      + now apply blocks_filter.
      + intros z p H. apply in_rest in H as [H N]. apply L. split; [eauto|]. intros ->. apply N.
        apply (own_unique (h_objs h) z x p); auto. now apply find_data.
      + intros p H. apply L in H as [H _]. auto. }
  destruct St as (h' & E & I'). rewrite E in *. cbn [bnd]. now apply IH.
Qed.
Definition emptyHeap : heap := mkHeap [] [] 0.
Lemma emptyHeap_inv : ownInv emptyHeap.
Proof. split; [constructor|]. split; [constructor|]. split; [intros x p []|intros p []]. Qed.
Example C35_safe_history : opsSafe emptyHeap [ONew 0; OCopy 1 0; OStore 0; OStore 0; ORead 0; OAssign 1 0; ODestroy 0; ODestroy 1].
Proof. cbn. repeat split; eauto. Qed.
(* a matrix that has been written to a file and is then copied: the second destructor
   deletes the block again *)
Theorem C35_copy_after_write_refuted : exists ops, runH emptyHeap ops = None /\
  ops = [ONew 0; OStore 0; OCopy 1 0; ODestroy 1; ODestroy 0].
Proof. eexists. split; [|reflexivity]. reflexivity. Qed.
