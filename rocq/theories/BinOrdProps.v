(* C46: order of kinematic bins; C48: unique strings *)
From Coq Require Import String Ascii List ZArith Reals Bool Lia Lra Sorting.Sorted Permutation.
From Verif Require Import PathModel StrModel DecModel CGBoxModel EventMetaModel EventMetaProps BinModel BinProps.
Import ListNotations.
Open Scope list_scope. Open Scope nat_scope.

(* ---- specification ---- *)
(* a precedes b: the first centre that differs, in the order of the variables, is smaller in a *)
Definition precedes (a b : bin) : Prop :=
  vars a = vars b /\ exists n k la lb, nth_error a n = Some (k, la) /\ nth_error b n = Some (k, lb) /\ (center la < center lb)%R /\
    forall i k la lb, i < n -> nth_error a i = Some (k, la) -> nth_error b i = Some (k, lb) -> center la = center lb.
(* the same centre in every variable *)
Definition sameCenters (a b : bin) : Prop := forall k la lb, m_find k a = Some la -> m_find k b = Some lb -> center la = center lb.
(* the bins of a binning: same variables, no empty bin, different bins do not overlap *)
Definition binning (l : list bin) : Prop :=
  Forall dict l /\ Forall nonEmpty l /\ (forall a b, In a l -> In b l -> vars a = vars b) /\
  (forall a b, In a l -> In b l -> a <> b -> overlap a b false = Some false).

(* ---- lemmas ---- *)
Lemma ltLoop_iff a : forall b, vars a = vars b -> (ltLoop a b = true <-> exists n k la lb, nth_error a n = Some (k, la) /\ nth_error b n = Some (k, lb) /\ (center la < center lb)%R /\
    forall i k la lb, i < n -> nth_error a i = Some (k, la) -> nth_error b i = Some (k, lb) -> center la = center lb).
Proof.
  induction a as [|[k [l h]] a IH]; intros [|[k' [l' h']] b] V; cbn [vars map fst] in V; try discriminate.
  - cbn. split; [discriminate|]. intros (n & k & la & lb & H & _). destruct n; discriminate.
  - injection V as <- V. cbn [ltLoop]. cbv zeta. change ((l + h) / 2)%R with (center (l, h)). change ((l' + h') / 2)%R with (center (l', h')).
    destruct (Rltb (center (l', h')) (center (l, h))) eqn:E1.
    { split; [discriminate|]. intros (n & q & la & lb & H1 & H2 & L & Pre). apply Rltb_iff in E1. destruct n; cbn in H1, H2.
      - injection H1 as <- <-. injection H2 as <-. lra.
      - specialize (Pre 0 k (l, h) (l', h') ltac:(lia) eq_refl eq_refl). lra. }
    destruct (Rltb (center (l, h)) (center (l', h'))) eqn:E2.
    { split; [|reflexivity]. intros _. apply Rltb_iff in E2. exists 0, k, (l, h), (l', h'). split; [reflexivity|]. split; [reflexivity|]. split; [exact E2|]. intros i ? ? ? Hi. lia. }
    apply Rltb_false in E1, E2. rewrite (IH b V). split.
    + intros (n & q & la & lb & H1 & H2 & L & Pre). exists (S n), q, la, lb. split; [exact H1|]. split; [exact H2|]. split; [exact L|]. intros i q' xa xb Hi Ha Hb. destruct i; cbn in Ha, Hb.
      * injection Ha as <- <-. injection Hb as <-. lra.
      * eapply Pre; eauto. lia.
    + intros (n & q & la & lb & H1 & H2 & L & Pre). destruct n; cbn in H1, H2.
      * injection H1 as <- <-. injection H2 as <-. lra.
      * exists n, q, la, lb. split; [exact H1|]. split; [exact H2|]. split; [exact L|]. intros i q' xa xb Hi Ha Hb. apply (Pre (S i) q' xa xb); auto. lia.
Qed.
(* C46: what < computes *)
Theorem C46_lt : forall a b, binLt a b = true <-> precedes a b.
Proof.
  intros a b. unfold binLt, precedes. destruct (list_eqb (variables a) (variables b)) eqn:E; cbn [negb].
  - apply list_eqb_iff in E. rewrite (ltLoop_iff a b E). tauto.
  - split; [discriminate|]. intros [H _]. apply list_eqb_false in E. contradiction.
Qed.
Lemma vars_nth (a b : bin) n k la : vars a = vars b -> nth_error a n = Some (k, la) -> exists lb, nth_error b n = Some (k, lb).
Proof.
  intros V H. assert (E : nth_error (vars b) n = Some k). { rewrite <- V. unfold vars. now rewrite (map_nth_error _ _ _ H). }
  unfold vars in E. rewrite nth_error_map in E. destruct (nth_error b n) as [[q lb]|]; [|discriminate]. cbn in E. injection E as ->. eauto.
Qed.
Lemma lt_trans a b c : binLt a b = true -> binLt b c = true -> binLt a c = true.
Proof.
  rewrite !C46_lt. intros (V1 & n & k & la & lb & A1 & B1 & L1 & P1) (V2 & m & q & lb' & lc & B2 & C2 & L2 & P2). split; [congruence|].
  destruct (lt_eq_lt_dec n m) as [[H|H]|H].
  - destruct (vars_nth b c n k lb V2 B1) as [lc' C1]. exists n, k, la, lc'. split; [exact A1|]. split; [exact C1|]. rewrite <- (P2 n k lb lc' H B1 C1). split; [exact L1|].
    intros i x ya yc Hi Ha Hc. destruct (vars_nth a b i x ya V1 Ha) as [yb Hb]. rewrite (P1 i x ya yb Hi Ha Hb). apply (P2 i x yb yc); auto. lia.
  - subst m. rewrite B1 in B2. injection B2 as <- <-. exists n, k, la, lc. split; [exact A1|]. split; [exact C2|]. split; [lra|].
    intros i x ya yc Hi Ha Hc. destruct (vars_nth a b i x ya V1 Ha) as [yb Hb]. rewrite (P1 i x ya yb Hi Ha Hb). now apply (P2 i x yb yc).
  - destruct (vars_nth b a m q lb' (eq_sym V1) B2) as [la' A2]. exists m, q, la', lc. split; [exact A2|]. split; [exact C2|]. rewrite (P1 m q la' lb' H A2 B2). split; [exact L2|].
    intros i x ya yc Hi Ha Hc. destruct (vars_nth a b i x ya V1 Ha) as [yb Hb]. rewrite (P1 i x ya yb ltac:(lia) Ha Hb). now apply (P2 i x yb yc).
Qed.
Lemma lt_irrefl a : binLt a a = false.
Proof. destruct (binLt a a) eqn:E; [|reflexivity]. apply C46_lt in E as (_ & n & k & la & lb & A & B & L & _). rewrite A in B. injection B as <-. lra. Qed.
Lemma dict_nth (a : bin) n k la : dict a -> nth_error a n = Some (k, la) -> m_find k a = Some la.
Proof. intros D H. apply find_in; [exact D|]. eapply nth_error_In; eauto. Qed.
Lemma find_nth (a : bin) k la : dict a -> m_find k a = Some la -> exists n, nth_error a n = Some (k, la).
Proof. intros D H. apply find_in in H; [|exact D]. now apply In_nth_error. Qed.
(* incomparable *)
Lemma ltLoop_incomp a : forall b, vars a = vars b -> ltLoop a b = false -> ltLoop b a = false -> Forall2 (fun x y => center (snd x) = center (snd y)) a b.
Proof.
  induction a as [|[k [l h]] a IH]; intros [|[k' [l' h']] b] V; cbn [vars map fst] in V; try discriminate; [constructor|].
  injection V as <- V. cbn [ltLoop]. cbv zeta. change ((l + h) / 2)%R with (center (l, h)). change ((l' + h') / 2)%R with (center (l', h')).
  destruct (Rltb (center (l', h')) (center (l, h))) eqn:E1; destruct (Rltb (center (l, h)) (center (l', h'))) eqn:E2; try discriminate.
  - apply Rltb_iff in E1, E2. lra.
  - intros H1 H2. apply Rltb_false in E1, E2. constructor; [cbn [snd]; lra|]. now apply IH.
Qed.
Lemma incomparable a b : dict a -> dict b -> vars a = vars b -> (binLt a b = false /\ binLt b a = false <-> sameCenters a b).
Proof.
  intros Da Db V. unfold binLt. replace (list_eqb (variables a) (variables b)) with true by (symmetry; now apply list_eqb_iff). replace (list_eqb (variables b) (variables a)) with true by (symmetry; now apply list_eqb_iff). cbn [negb]. split.
  - intros [H1 H2] k la lb Ha Hb. pose proof (ltLoop_incomp a b V H1 H2) as F. destruct (find_nth a k la Da Ha) as [n Hn]. destruct (vars_nth a b n k la V Hn) as [lb' Hn']. pose proof (dict_nth b n k lb' Db Hn') as Q. rewrite Hb in Q. injection Q as <-.
    clear - F Hn Hn'. revert n Hn Hn'. induction F as [|x y a b E F IH]; intros [|n] Ha Hb; try discriminate; cbn in Ha, Hb; [injection Ha as ->; injection Hb as ->; exact E|eauto].
  - intros H. split.
    + destruct (ltLoop a b) eqn:E; [|reflexivity]. apply ltLoop_iff in E; [|exact V]. destruct E as (n & k & la & lb & A & B & L & _). rewrite (H k la lb (dict_nth _ _ _ _ Da A) (dict_nth _ _ _ _ Db B)) in L. lra.
    + destruct (ltLoop b a) eqn:E; [|reflexivity]. apply ltLoop_iff in E; [|auto]. destruct E as (n & k & lb & la & B & A & L & _). rewrite (H k la lb (dict_nth _ _ _ _ Da A) (dict_nth _ _ _ _ Db B)) in L. lra.
Qed.
(* C46: < is a strict weak order on the bins with the same variables: irreflexive, asymmetric, transitive;
   two bins are incomparable exactly if they have the same centres, which is an equivalence *)
Theorem C46_strict_weak_order : forall a b c, dict a -> dict b -> dict c -> vars a = vars b -> vars b = vars c ->
  binLt a a = false /\
  (binLt a b = true -> binLt b a = false) /\
  (binLt a b = true -> binLt b c = true -> binLt a c = true) /\
  ((binLt a b = false /\ binLt b a = false) <-> sameCenters a b) /\
  (binLt a b = false -> binLt b a = false -> binLt b c = false -> binLt c b = false -> binLt a c = false /\ binLt c a = false).
Proof.
  intros a b c Da Db Dc V1 V2. split; [apply lt_irrefl|]. split.
  { intros H. destruct (binLt b a) eqn:E; [|reflexivity]. pose proof (lt_trans _ _ _ H E). rewrite lt_irrefl in *. discriminate. }
  split; [apply lt_trans|]. split; [now apply incomparable|].
  intros H1 H2 H3 H4. apply incomparable; [assumption|assumption|congruence|]. destruct (incomparable a b Da Db V1) as [I1 _]. destruct (incomparable b c Db Dc V2) as [I2 _]. specialize (I1 (conj H1 H2)). specialize (I2 (conj H3 H4)).
  intros k la lc Ha Hc. assert (Hb : exists lb, m_find k b = Some lb). { apply find_vars. rewrite <- V1. apply find_vars. eauto. } destruct Hb as [lb Hb]. rewrite (I1 _ _ _ Ha Hb). eauto.
Qed.
(* C46: in a binning exactly one of <, =, > holds *)
Theorem C46_total : forall l a b, binning l -> In a l -> In b l ->
  (binLt a b = true \/ a = b \/ binLt b a = true) /\ binGt a b = binLt b a /\ binGe a b = (binLt b a || binEq a b) /\ (binLe a b = true <-> binLt a b = true \/ a = b).
Proof.
  intros l a b (Fd & Fn & V & O) Ha Hb. rewrite Forall_forall in Fd, Fn. specialize (V a b Ha Hb).
  assert (T : binLt a b = true \/ a = b \/ binLt b a = true).
  { destruct (binLt a b) eqn:E1; [now left|]. destruct (binLt b a) eqn:E2; [right; now right|]. right. left.
    destruct (binEq a b) eqn:Q; [now apply bins_eqb_iff|]. exfalso. assert (Nq : a <> b) by (intros ->; assert (binEq b b = true) by (now apply bins_eqb_iff); congruence).
    specialize (O a b Ha Hb Nq). apply overlap_false in O. apply O. apply overlap_true. split; [exact V|]. intros k l0 h l' h' Qa Qb. pose proof (proj1 (incomparable a b (Fd _ Ha) (Fd _ Hb) V) (conj E1 E2) k _ _ Qa Qb) as C. unfold center in C. cbn [fst snd] in C.
    pose proof (Fn _ Ha _ _ _ Qa). pose proof (Fn _ Hb _ _ _ Qb). unfold meets. lra. }
  assert (E : binEq a b = true <-> a = b) by apply bins_eqb_iff.
  assert (As : binLt a b = true -> binLt b a = false). { intros H. destruct (binLt b a) eqn:Q; [|reflexivity]. pose proof (lt_trans _ _ _ H Q). rewrite lt_irrefl in *. discriminate. }
  split; [exact T|]. unfold binGt, binGe, binLe. destruct (binEq a b) eqn:Q.
  - assert (a = b) by tauto. subst b. rewrite !lt_irrefl. cbn. tauto.
  - assert (a <> b) by (intros X; apply E in X; congruence). destruct (binLt a b) eqn:E1.
    + rewrite (As eq_refl). cbn. intuition congruence.
    + destruct T as [T|[T|T]]; [discriminate|contradiction|]. rewrite T. cbn. intuition congruence.
Qed.

(* sorting *)
Definition asc (x y : bin) : Prop := binLt y x = false.
Lemma insertBin_perm x l : Permutation (x :: l) (insertBin x l).
Proof. induction l as [|y r IH]; cbn; [auto|]. destruct (binLt x y); [auto|]. rewrite perm_swap. now constructor. Qed.
Lemma insertBin_sorted x l : StronglySorted asc l -> StronglySorted asc (insertBin x l).
Proof.
  induction l as [|y r IH]; intros H; cbn; [repeat constructor|]. apply StronglySorted_inv in H as [H F]. destruct (binLt x y) eqn:E.
  - constructor; [now constructor|]. rewrite Forall_forall in *. intros z [<-|Hz]; unfold asc.
    + destruct (binLt y x) eqn:Q; [|reflexivity]. pose proof (lt_trans _ _ _ E Q). rewrite lt_irrefl in *. discriminate.
    + specialize (F z Hz). unfold asc in F. destruct (binLt z x) eqn:Q; [|reflexivity]. pose proof (lt_trans _ _ _ Q E). congruence.
  - constructor; [auto|]. apply Forall_forall. intros z Hz. apply (Permutation_in _ (Permutation_sym (insertBin_perm x r))) in Hz as [<-|Hz]; [exact E|]. rewrite Forall_forall in F. auto.
Qed.
Lemma sort_gen l : forall acc, StronglySorted asc acc -> Permutation (l ++ acc) (fold_left (fun acc x => insertBin x acc) l acc) /\ StronglySorted asc (fold_left (fun acc x => insertBin x acc) l acc).
Proof.
  induction l as [|x l IH]; intros acc H; cbn [fold_left app]; [auto|]. destruct (IH (insertBin x acc) (insertBin_sorted x acc H)) as [P S]. split; [|exact S]. rewrite <- P. rewrite <- insertBin_perm. apply Permutation_middle.
Qed.
Lemma sorted_unique l : forall l', (forall a b, In a l -> In b l -> asc a b -> asc b a -> a = b) -> Permutation l l' -> StronglySorted asc l -> StronglySorted asc l' -> l = l'.
Proof.
  induction l as [|a l IH]; intros l' An P S S'. { apply Permutation_nil in P. congruence. }
  destruct l' as [|b l']. { apply Permutation_sym, Permutation_nil in P. discriminate. }
  apply StronglySorted_inv in S as [S F]. apply StronglySorted_inv in S' as [S' F']. rewrite Forall_forall in F, F'.
  assert (E : a = b).
  { assert (Ia : In a (b :: l')) by (eapply Permutation_in; [exact P|now left]). assert (Ib : In b (a :: l)) by (eapply Permutation_in; [apply Permutation_sym; exact P|now left]).
    destruct Ia as [->|Ia]; [reflexivity|]. destruct Ib as [->|Ib]; [reflexivity|]. apply An; [now left|now right|auto|auto]. }
  subst b. f_equal. apply IH; auto. { intros x y Hx Hy. apply An; now right. } now apply Permutation_cons_inv in P.
Qed.
(* C46: the sorted list of the bins is the ascending rearrangement of the list, and does not depend on the order of the input: the number of an integral bin is well defined *)
Theorem C46_sorted : forall l, Permutation l (sortBins l) /\ (forall i j a b, i < j -> nth_error (sortBins l) i = Some a -> nth_error (sortBins l) j = Some b -> ~ precedes b a).
Proof.
  intros l. destruct (sort_gen l [] (SSorted_nil _)) as [P S]. rewrite app_nil_r in P. split; [exact P|]. fold (sortBins l) in S. intros i j a b Hij Ha Hb X. apply C46_lt in X.
  revert i j Hij Ha Hb. induction S as [|x r S IH F]; intros i j Hij Ha Hb; [destruct i; discriminate|]. destruct j; [lia|]. destruct i; cbn in Ha, Hb.
  - injection Ha as ->. rewrite Forall_forall in F. specialize (F b (nth_error_In _ _ Hb)). unfold asc in F. congruence.
  - eapply (IH i j); eauto. lia.
Qed.
Theorem C46_bin_numbers : forall l l', binning l -> Permutation l l' -> sortBins l = sortBins l'.
Proof.
  intros l l' B P. destruct (sort_gen l [] (SSorted_nil _)) as [P1 S1]. destruct (sort_gen l' [] (SSorted_nil _)) as [P2 S2]. rewrite app_nil_r in P1, P2. unfold sortBins. apply sorted_unique; auto.
  - intros a b Ha Hb H1 H2. apply (Permutation_in _ (Permutation_sym P1)) in Ha, Hb. unfold asc in *. destruct (C46_total l a b B Ha Hb) as [[H|[H|H]] _]; congruence.
  - now rewrite <- P1, <- P2.
Qed.

(* ---- examples ---- *)
Definition mBin (lo hi : R) : bin := [(lit "mass"%string, (lo, hi))].
Definition tBin (lo hi : R) : bin := [(lit "t"%string, (lo, hi))].
Lemma mBin_dict lo hi : dict (mBin lo hi). Proof. repeat constructor. Qed.
Lemma mBin_find lo hi k lh : m_find k (mBin lo hi) = Some lh -> k = lit "mass"%string /\ lh = (lo, hi).
Proof. unfold mBin. cbn [m_find]. destruct (str_eqb k _) eqn:E; [|discriminate]. intros H. injection H as <-. split; [now apply str_eqb_eq|reflexivity]. Qed.
Example C46_ex : binning [mBin 0 1; mBin 1 2; mBin 2 3].
Proof.
  split; [repeat (constructor; [apply mBin_dict|]); constructor|]. split; [repeat (constructor; [intros k lo hi H; apply mBin_find in H as [_ H]; injection H as -> ->; lra|]); constructor|].
  split; [intros a b [<-|[<-|[<-|[]]]] [<-|[<-|[<-|[]]]]; reflexivity|].
  assert (X : forall a b c d, (b <= c \/ d <= a)%R -> overlap (mBin a b) (mBin c d) false = Some false).
  { intros a b c d H. apply overlap_false. intros E. apply overlap_true in E as [_ E]. specialize (E (lit "mass"%string) a b c d). unfold mBin in E. cbn [m_find] in E. rewrite str_eqb_refl in E. specialize (E eq_refl eq_refl). unfold meets in E. lra. }
  intros a b [<-|[<-|[<-|[]]]] [<-|[<-|[<-|[]]]] N; try (exfalso; now apply N); apply X; lra.
Qed.
(* C46: two bins of the same variable can both be greater than the other one *)
Theorem C46_gt_refuted : exists a b, dict a /\ dict b /\ nonEmpty a /\ nonEmpty b /\ vars a = vars b /\ binGt a b = true /\ binGt b a = true.
Proof.
  exists (mBin 0 3), (mBin 1 2). split; [apply mBin_dict|]. split; [apply mBin_dict|].
  split; [intros k lo hi H; apply mBin_find in H as [_ H]; injection H as -> ->; lra|]. split; [intros k lo hi H; apply mBin_find in H as [_ H]; injection H as -> ->; lra|]. split; [reflexivity|].
  assert (S : forall a b c d, (a + b = c + d)%R -> sameCenters (mBin a b) (mBin c d)). { intros a b c d H k la lb Ha Hb. apply mBin_find in Ha as [_ ->]. apply mBin_find in Hb as [_ ->]. unfold center. cbn. now rewrite H. }
  assert (N : forall a b c d, (a <> c)%R -> binEq (mBin a b) (mBin c d) = false). { intros a b c d H. destruct (binEq _ _) eqn:E; [|reflexivity]. apply bins_eqb_iff in E. unfold mBin in E. congruence. }
  destruct (proj2 (incomparable (mBin 0 3) (mBin 1 2) (mBin_dict _ _) (mBin_dict _ _) eq_refl) (S 0 3 1 2 ltac:(lra))%R) as [H1 H2].
  unfold binGt, binLe. rewrite H1, H2. cbn [orb]. rewrite (N 0 3 1 2)%R by lra. rewrite (N 1 2 0 3)%R by lra. auto.
Qed.
(* C46: with different variables "incomparable" is not transitive *)
Theorem C46_mixed_variables_refuted : exists a b c, dict a /\ dict b /\ dict c /\ binLt a b = false /\ binLt b a = false /\ binLt b c = false /\ binLt c b = false /\ binLt a c = true.
Proof.
  exists (mBin 0 1), (tBin 0 1), (mBin 1 2). split; [apply mBin_dict|]. split; [repeat constructor|]. split; [apply mBin_dict|]. repeat (split; [reflexivity|]).
  apply C46_lt. split; [reflexivity|]. exists 0, (lit "mass"%string), (0, 1)%R, (1, 2)%R. split; [reflexivity|]. split; [reflexivity|]. split; [unfold center; cbn; lra|]. intros i ? ? ? H. lia.
Qed.

(* ---- C48 ---- *)
Lemma split_no c s : ~ In c s -> split c s = [s].
Proof.
  induction s as [|x s IH]; intros N; [reflexivity|]. cbn. destruct (Ascii.eqb x c) eqn:E; [apply Ascii.eqb_eq in E; subst; exfalso; apply N; now left|]. rewrite IH; [reflexivity|]. intros H. apply N. now right.
Qed.
Lemma split_app c s r : ~ In c s -> split c (s ++ c :: r) = s :: split c r.
Proof.
  induction s as [|x s IH]; intros N; cbn. { now rewrite Ascii.eqb_refl. }
  destruct (Ascii.eqb x c) eqn:E; [apply Ascii.eqb_eq in E; subst; exfalso; apply N; now left|]. rewrite IH; [reflexivity|]. intros H. apply N. now right.
Qed.
Lemma split_join c l : l <> [] -> Forall (fun w => ~ In c w) l -> split c (join c l) = l.
Proof.
  induction l as [|w [|v l] IH]; intros N F; [contradiction| |]; apply Forall_cons_iff in F as [F1 F2].
  - cbn. now apply split_no.
  - cbn [join]. rewrite split_app by assumption. f_equal. apply IH; [discriminate|exact F2].
Qed.
Lemma count_app c a b : count c (a ++ b) = count c a + count c b. Proof. induction a; cbn; [reflexivity|]. rewrite IHa. lia. Qed.
Lemma count_no c s : ~ In c s -> count c s = 0.
Proof. induction s as [|x s IH]; intros N; [reflexivity|]. cbn. destruct (Ascii.eqb x c) eqn:E; [apply Ascii.eqb_eq in E; subst; exfalso; apply N; now left|]. apply IH. intros H. apply N. now right. Qed.
Lemma set_last {V} k (v : V) m : dict m -> (forall x, In x (vars m) -> str_ltb x k = true) -> m_set k v m = m ++ [(k, v)].
Proof.
  induction m as [|[q w] m IH]; intros D H; [reflexivity|]. cbn. pose proof (H q (or_introl eq_refl)) as L. rewrite (str_ltb_asym _ _ L).
  destruct (str_eqb k q) eqn:E; [apply str_eqb_eq in E; subst; rewrite str_ltb_irrefl in L; discriminate|]. f_equal. apply dict_cons in D as [D _]. apply IH; [exact D|]. intros x Hx. apply H. now right.
Qed.

Section Str.
  Context {F : Type} (leb : F -> F -> bool) (repr : F -> str) (float : str -> option F).
  (* the numbers are written without ',' and '=' and read back exactly *)
  Definition exactNumbers : Prop := forall x, float (repr x) = Some x /\ ~ In comma (repr x) /\ ~ In equals (repr x).
  Definition goodNames (b : smap (F * F)) : Prop := forall k, In k (vars b) -> ~ In comma k /\ ~ In equals k.
  Definition validBin (b : smap (F * F)) : Prop := dict b /\ forall k lo hi, m_find k b = Some (lo, hi) -> leb lo hi = true.

  Lemma parts_spec (X : exactNumbers) b : forall acc, dict (acc ++ b) -> goodNames b -> partsLoop float (map (variableStr repr) b) acc = Some (acc ++ b).
  Proof.
    induction b as [|[k [lo hi]] b IH]; intros acc D G; cbn [map partsLoop]. { now rewrite app_nil_r. }
    destruct (X lo) as (L1 & L2 & L3). destruct (X hi) as (U1 & U2 & U3). destruct (G k (or_introl eq_refl)) as [K1 K2].
    assert (Sp : split equals (variableStr repr (k, (lo, hi))) = [k; repr lo; repr hi]). { unfold variableStr. cbn [fst snd]. rewrite !split_app by assumption. now rewrite split_no. }
    assert (Ct : count equals (variableStr repr (k, (lo, hi))) = 2). { unfold variableStr. cbn [fst snd]. rewrite count_app. cbn. rewrite count_app. cbn. rewrite !count_no by assumption. reflexivity. }
    rewrite Ct, Sp, L1, U1. cbn [Nat.eqb bnd]. assert (Ds : dict acc /\ forall x, In x (vars acc) -> str_ltb x k = true).
    { clear - D. induction acc as [|[q w] acc IH]; [split; [constructor|intros ? []]|]. cbn [app] in D. apply dict_cons in D as [D Fd]. destruct (IH D) as [I1 I2]. rewrite Forall_forall in Fd. split.
      - apply dict_cons. split; [exact I1|]. apply Forall_forall. intros y Hy. apply Fd. apply in_or_app. now left.
      - intros x [<-|Hx]; [|auto]. specialize (Fd (k, (lo, hi))). unfold key_lt in Fd. cbn in Fd. apply Fd. apply in_or_app. right. now left. }
    destruct Ds as [D1 D2]. rewrite (set_last _ _ _ D1 D2). rewrite IH; [now rewrite <- app_assoc| |]. { now rewrite <- app_assoc. } intros q Hq. apply G. now right.
  Qed.
End Str.
(* C48: reading the unique string gives the bin back *)
Theorem C48_round_trip : forall (F : Type) (leb : F -> F -> bool) (repr : F -> str) (float : str -> option F) b,
  exactNumbers repr float -> validBin leb b -> goodNames b -> fromUniqueStr leb float (uniqueStr repr b) = Some b.
Proof.
  intros F leb repr float b X [D V] G. unfold fromUniqueStr, uniqueStr.
  assert (P : match join comma (map (variableStr repr) b) with [] => Some [] | _ => partsLoop float (split comma (join comma (map (variableStr repr) b))) [] end = Some b).
  { destruct b as [|x b]; [reflexivity|]. set (l := map (variableStr repr) (x :: b)) in *.
    assert (Nc : Forall (fun w => ~ In comma w) l). { apply Forall_forall. intros w Hw. apply in_map_iff in Hw as ([k [lo hi]] & <- & Hw). destruct (X lo) as (_ & L2 & _). destruct (X hi) as (_ & U2 & _). destruct (G k) as [K1 _]; [change k with (fst (k, (lo, hi))); now apply in_map|].
      unfold variableStr. cbn [fst snd]. intros H. apply in_app_or in H as [H|[H|H]]; [auto|discriminate|]. apply in_app_or in H as [H|[H|H]]; [auto|discriminate|auto]. }
    destruct (join comma l) as [|c s] eqn:E.
    - exfalso. unfold l in E. cbn [map] in E. destruct x as [k [lo hi]]. unfold variableStr at 1 in E. cbn [fst snd] in E. cbn [join] in E. destruct (map (variableStr repr) b); destruct k; discriminate.
    - rewrite <- E. rewrite split_join; [|discriminate|exact Nc]. unfold l. now rewrite (parts_spec repr float X (x :: b) []). }
  rewrite P. cbn [bnd]. unfold multiBinF. replace (forallb _ b) with true; [reflexivity|]. symmetry. apply forallb_forall. intros [k [lo hi]] H. apply find_in in H; [|exact D]. exact (V _ _ _ H).
Qed.
(* C48: so the string is unique *)
Theorem C48_unique : forall (F : Type) (leb : F -> F -> bool) (repr : F -> str) (float : str -> option F) a b,
  exactNumbers repr float -> validBin leb a -> validBin leb b -> goodNames a -> goodNames b -> uniqueStr repr a = uniqueStr repr b -> a = b.
Proof. intros F leb repr float a b X Va Vb Ga Gb E. pose proof (C48_round_trip F leb repr float a X Va Ga) as H. rewrite E, (C48_round_trip F leb repr float b X Vb Gb) in H. congruence. Qed.

(* integers written in decimal *)
Definition floatZ (s : str) : option Z := match readInt s with Some (z, []) => Some z | _ => None end.
Lemma intNumbers : exactNumbers showInt floatZ.
Proof.
  intros x. split; [|].
  - unfold floatZ. pose proof (readInt_show x [] I) as H. rewrite app_nil_r in H. now rewrite H.
  - assert (D : forall c, In c (showInt x) -> isDigit c = true \/ c = "-"%char). { intros c. unfold showInt. destruct (x <? 0)%Z eqn:E; [intros [<-|H]; [now right|]|intros H]; left; destruct (showNN_spec (if (x <? 0)%Z then (-x)%Z else x)) as (_ & F & _); rewrite E in *; try (apply Z.ltb_lt in E; lia); try (apply Z.ltb_ge in E; lia); rewrite forallb_forall in F; auto. }
    split; intros H; apply D in H as [H|H]; discriminate.
Qed.
Example C48_ex : fromUniqueStr Z.leb floatZ (lit "mass=1=2,t=-3=4"%string) = Some [(lit "mass"%string, (1, 2)%Z); (lit "t"%string, (-3, 4)%Z)].
Proof. reflexivity. Qed.
(* C48: a variable name with ',' and '=' spoils the round trip: two different bins have the same string *)
Theorem C48_names_refuted : exists a b, validBin Z.leb a /\ validBin Z.leb b /\ a <> b /\ uniqueStr showInt a = uniqueStr showInt b.
Proof.
  exists [(lit "a"%string, (0, 1)%Z); (lit "b"%string, (2, 3)%Z)], [(lit "a=0=1,b"%string, (2, 3)%Z)].
  assert (W : forall m : smap (Z * Z), forallb (fun x => Z.leb (fst (snd x)) (snd (snd x))) m = true -> dict m -> forall k lo hi, m_find k m = Some (lo, hi) -> Z.leb lo hi = true).
  { intros m H D k lo hi Hk. apply find_in in Hk; [|exact D]. rewrite forallb_forall in H. exact (H _ Hk). }
  split; [|split; [|split; [discriminate|reflexivity]]]; (split; [repeat constructor|apply W; [reflexivity|repeat constructor]]).
Qed.
(* C48: a part that cannot be read is skipped, not rejected *)
Theorem C48_unreadable_refuted : exists s, fromUniqueStr Z.leb floatZ s = Some [(lit "t"%string, (3, 4)%Z)] /\ uniqueStr showInt [(lit "t"%string, (3, 4)%Z)] <> s.
Proof. exists (lit "mass=1,t=3=4"%string). split; [reflexivity|discriminate]. Qed.
