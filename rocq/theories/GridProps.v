(* C64: binnings given by the edges of a grid; C45: a grid partitions the events *)
From Coq Require Import String Ascii List ZArith Reals Bool Lia Lra Sorting.Sorted Permutation.
From Verif Require Import PathModel StrModel CGBoxModel EventMetaModel EventMetaProps BinModel BinProps BinOrdProps.
Import ListNotations.
Open Scope list_scope. Open Scope nat_scope.

(* ---- specification ---- *)
(* neighbouring edges do not decrease *)
Definition nondecreasing (l : list R) : Prop := forall i x y, nth_error l i = Some x -> nth_error l (S i) = Some y -> (x <= y)%R.
Definition goodAxes (axes : list (str * list R)) : Prop :=
  axes <> [] /\ NoDup (map fst axes) /\ forall k e, In (k, e) axes -> 2 <= length e /\ nondecreasing e.
(* a bin of the grid: one interval between neighbouring edges for each axis *)
Definition isCell (axes : list (str * list R)) (b : bin) : Prop :=
  dict b /\ (forall k, In k (vars b) <-> In k (map fst axes)) /\
  forall k e, In (k, e) axes -> exists i lo hi, nth_error e i = Some lo /\ nth_error e (S i) = Some hi /\ m_find k b = Some (lo, hi).
(* the event is inside the grid *)
Definition inGrid (axes : list (str * list R)) (ev : smap R) : Prop :=
  dict ev /\ (forall k, In k (vars ev) <-> In k (map fst axes)) /\
  forall k e, In (k, e) axes -> exists x, m_find k ev = Some x /\ (nth 0 e 0 <= x < last e 0)%R.
Definition cells (axes : list (str * list R)) : nat := fold_right (fun a n => (length (snd a) - 1) * n) 1 axes.

(* ---- the order of the indices ---- *)
Fixpoint allIdx (limits : list nat) : list (list nat) :=
  match limits with
  | [] => [[]]
  | l :: ls => flat_map (fun r => map (fun i => i :: r) (List.seq 1 (l - 1))) (allIdx ls)
  end.
Definition valid (x limits : list nat) : Prop := Forall2 (fun i l => 1 <= i < l) x limits.
Lemma allIdx_valid limits : forall x, In x (allIdx limits) <-> valid x limits.
Proof.
  induction limits as [|l ls IH]; intros x; cbn [allIdx].
  - split; [intros [<-|[]]; constructor|]. intros H. inversion H. now left.
  - rewrite in_flat_map. split.
    + intros (r & Hr & Hx). apply in_map_iff in Hx as (i & <- & Hi). apply in_seq in Hi. constructor; [lia|]. now apply IH.
    + intros H. inversion H as [|i ? r ? Hi Hr]; subst. exists r. split; [now apply IH|]. apply in_map_iff. exists i. split; [reflexivity|]. apply in_seq. lia.
Qed.
Lemma NoDup_app' {A} (a b : list A) : NoDup a -> NoDup b -> (forall x, In x a -> In x b -> False) -> NoDup (a ++ b).
Proof. induction a as [|x a IH]; intros Ha Hb H; [exact Hb|]. cbn. apply NoDup_cons_iff in Ha as [N Ha]. constructor. { intros X. apply in_app_or in X as [X|X]; [auto|]. eapply H; eauto. now left. } apply IH; auto. intros y Hy. apply H. now right. Qed.

Lemma allIdx_NoDup limits : NoDup (allIdx limits).
Proof.
  induction limits as [|l ls IH]; cbn [allIdx]; [repeat constructor; auto|].
  induction IH as [|r rs N ND IH2]; cbn [flat_map]; [constructor|]. apply NoDup_app'; [|exact IH2|].
  - apply FinFun.Injective_map_NoDup; [|apply seq_NoDup]. intros i j E. congruence.
  - intros x Hx Hy. apply in_map_iff in Hx as (i & <- & _). apply in_flat_map in Hy as (r' & Hr & Hy). apply in_map_iff in Hy as (j & E & _). injection E as <- <-. contradiction.
Qed.
Lemma allIdx_length limits : length (allIdx limits) = fold_right (fun l n => (l - 1) * n) 1 limits.
Proof.
  induction limits as [|l ls IH]; cbn [allIdx fold_right]; [reflexivity|]. rewrite <- IH. clear IH. induction (allIdx ls) as [|r rs IH2]; cbn [flat_map length]; [lia|]. rewrite app_length, map_length, seq_length, IH2. nia.
Qed.

Lemma carry_valid x limits : valid x limits -> carry x limits = x.
Proof.
  intros H. induction H as [|i l x ls Hi H IH]; [reflexivity|]. destruct x as [|j x]; [reflexivity|]. cbn [carry]. replace (Nat.eqb i l) with false by (symmetry; apply Nat.eqb_neq; lia). f_equal. exact IH.
Qed.
Lemma next_inner i r l ls : valid r ls -> S i < l -> next (i :: r) (l :: ls) = S i :: r.
Proof. intros V H. unfold next. apply (carry_valid (S i :: r) (l :: ls)). constructor; [lia|exact V]. Qed.
Lemma next_outer i r l ls : r <> [] -> S i = l -> next (i :: r) (l :: ls) = 1 :: next r ls.
Proof. intros N H. destruct r as [|j r]; [contradiction|]. unfold next. cbn [carry]. replace (Nat.eqb (S i) l) with true by (symmetry; now apply Nat.eqb_eq). reflexivity. Qed.

(* consecutive states *)
Fixpoint chain (limits : list nat) (L : list (list nat)) (fin : list nat) : Prop :=
  match L with [] => True | x :: r => next x limits = hd fin r /\ chain limits r fin end.
Lemma chain_block l ls r T fin : valid r ls -> forall k i, i + k = l -> chain (l :: ls) T fin -> (1 <= k -> next ((l - 1) :: r) (l :: ls) = hd fin T) ->
  chain (l :: ls) (map (fun i => i :: r) (List.seq i k) ++ T) fin.
Proof.
  intros V. induction k as [|k IH]; intros i E C Hl; cbn [List.seq map app]; [exact C|]. cbn [chain]. split.
  - destruct k as [|k]; cbn [List.seq map app hd].
    + replace (l - 1) with i in Hl by lia. apply Hl. lia.
    + apply next_inner; [exact V|lia].
  - apply IH; [lia|exact C|]. intros _. apply Hl. lia.
Qed.
Lemma hd_flat l (rs : list (list nat)) fin : 2 <= l -> hd (1 :: fin) (flat_map (fun r => map (fun i => i :: r) (List.seq 1 (l - 1))) rs) = 1 :: hd fin rs.
Proof. intros H. destruct rs as [|r rs]; [reflexivity|]. cbn [flat_map]. destruct (l - 1) as [|n] eqn:E; [lia|]. reflexivity. Qed.
Lemma chain_step l ls rs fin : 2 <= l -> ls <> [] -> (forall r, In r rs -> valid r ls) -> chain ls rs fin ->
  chain (l :: ls) (flat_map (fun r => map (fun i => i :: r) (List.seq 1 (l - 1))) rs) (1 :: fin).
Proof.
  intros Hl Nl. induction rs as [|r rs IH]; intros V C; [exact I|]. cbn [flat_map]. destruct C as [C1 C2]. assert (Vr : valid r ls) by (apply V; now left).
  apply chain_block; [exact Vr|lia| |].
  - apply IH; [|exact C2]. intros q Hq. apply V. now right.
  - intros _. rewrite hd_flat by assumption. rewrite next_outer; [now rewrite C1| |lia]. destruct r; [inversion Vr; subst; contradiction|discriminate].
Qed.
Definition final (limits : list nat) : list nat := repeat 1 (length limits - 1) ++ [last limits 0].
Lemma chain_all limits : limits <> [] -> Forall (fun l => 2 <= l) limits -> chain limits (allIdx limits) (final limits).
Proof.
  induction limits as [|l ls IH]; intros N F; [contradiction|]. apply Forall_cons_iff in F as [Hl F]. destruct ls as [|l2 ls].
  - cbn [allIdx flat_map]. apply chain_block; [constructor|lia|exact I|]. intros _. cbn. f_equal. lia.
  - assert (E : final (l :: l2 :: ls) = 1 :: final (l2 :: ls)). { unfold final. cbn [length last]. replace (S (S (length ls)) - 1) with (S (length ls)) by lia. replace (S (length ls) - 1) with (length ls) by lia. reflexivity. }
    rewrite E. apply (chain_step l (l2 :: ls)); [exact Hl|discriminate| |apply IH; [discriminate|exact F]]. intros r Hr. exact (proj1 (allIdx_valid (l2 :: ls) r) Hr).
Qed.
Lemma allIdx_hd limits : Forall (fun l => 2 <= l) limits -> hd_error (allIdx limits) = Some (repeat 1 (length limits)).
Proof.
  induction limits as [|l ls IH]; intros F; [reflexivity|]. apply Forall_cons_iff in F as [Hl F]. specialize (IH F). cbn [allIdx]. destruct (allIdx ls) as [|r rs]; [discriminate|]. cbn in IH. injection IH as ->. cbn [flat_map]. destruct (l - 1) eqn:E; [lia|]. reflexivity.
Qed.
Lemma last_valid x limits : valid x limits -> limits <> [] -> last x 0 < last limits 0.
Proof.
  intros V. induction V as [|i l x ls H V IH]; intros N; [contradiction|]. destruct ls as [|l2 ls]; inversion V as [|i2 ? x2 ? H2 V2]; subst; [cbn; lia|]. change (last (i2 :: x2) 0 < last (l2 :: ls) 0). apply IH. discriminate.
Qed.
Lemma last_final limits : limits <> [] -> last (final limits) 0 = last limits 0.
Proof. intros _. unfold final. now rewrite last_last. Qed.
Lemma valid_len (axes : list (str * list R)) y : valid y (map (fun a => length (snd a)) axes) -> length y = length axes.
Proof. intros W. remember (map (fun a => length (snd a)) axes) as ls. transitivity (length ls); [|subst; now rewrite map_length]. clear Heqls. induction W; cbn; auto. Qed.
Lemma valid_pos y limits j i : valid y limits -> nth_error y j = Some i -> 1 <= i.
Proof. intros V. revert j. induction V as [|a l x ls Ha V IH]; intros [|j] E; try discriminate; cbn in E; [injection E as <-; lia|eauto]. Qed.

(* ---- the cells ---- *)
Lemma cell_some axes : forall x, NoDup (map fst axes) -> valid x (map (fun a => length (snd a)) axes) ->
  exists b, cell axes x = Some b /\ dict b /\ (forall k, In k (vars b) <-> In k (map fst axes)) /\
    forall j k e i, nth_error axes j = Some (k, e) -> nth_error x j = Some i -> exists lo hi, nth_error e (i - 1) = Some lo /\ nth_error e i = Some hi /\ m_find k b = Some (lo, hi).
Proof.
  induction axes as [|[k e] axes IH]; intros x ND V; inversion V as [|i l x' ls Hi V']; subst.
  - exists []. split; [reflexivity|]. split; [constructor|]. split; [reflexivity|]. intros [|j]; discriminate.
  - cbn [map fst] in ND. apply NoDup_cons_iff in ND as [Nk ND]. destruct (IH x' ND V') as (b & E & D & K & H). cbn [cell snd] in *.
    destruct (nth_error e (i - 1)) as [lo|] eqn:El; [|apply nth_error_None in El; lia]. destruct (nth_error e i) as [hi|] eqn:Eh; [|apply nth_error_None in Eh; lia]. cbn [bnd]. rewrite E. cbn [bnd].
    exists (m_set k (lo, hi) b). split; [reflexivity|]. split; [now apply m_set_sorted|]. split.
    + intros q. unfold vars. rewrite m_set_keys. cbn [map fst In]. rewrite <- K. unfold vars. intuition congruence.
    + intros [|j] q f n Ha Hx; cbn in Ha, Hx.
      * injection Ha as <- <-. injection Hx as <-. exists lo, hi. split; [exact El|]. split; [exact Eh|]. rewrite m_find_set by exact D. now rewrite str_eqb_refl.
      * destruct (H j q f n Ha Hx) as (lo' & hi' & H1 & H2 & H3). exists lo', hi'. split; [exact H1|]. split; [exact H2|]. rewrite m_find_set by exact D. destruct (str_eqb q k) eqn:Q; [|exact H3]. exfalso. apply str_eqb_eq in Q. subst q. apply Nk. apply in_map_iff. exists (k, f). split; [reflexivity|]. eapply nth_error_In; eauto.
Qed.
Definition cellOf (axes : list (str * list R)) (x : list nat) : bin := match cell axes x with Some b => b | None => [] end.
Lemma cell_valid axes x : goodAxes axes -> valid x (map (fun a => length (snd a)) axes) -> cell axes x = Some (cellOf axes x) /\ multiBin (cellOf axes x) = Some (cellOf axes x) /\ isCell axes (cellOf axes x).
Proof.
  intros (_ & ND & G) V. destruct (cell_some axes x ND V) as (b & E & D & K & H). unfold cellOf. rewrite E. split; [reflexivity|].
  assert (C : forall k e, In (k, e) axes -> exists i lo hi, nth_error e i = Some lo /\ nth_error e (S i) = Some hi /\ m_find k b = Some (lo, hi)).
  { intros k e Hk. apply In_nth_error in Hk as [j Hj]. destruct (nth_error x j) as [i|] eqn:Ei.
    - destruct (H j k e i Hj Ei) as (lo & hi & H1 & H2 & H3). exists (i - 1), lo, hi. split; [exact H1|]. pose proof (valid_pos _ _ _ _ V Ei). replace (S (i - 1)) with i by lia. auto.
    - exfalso. apply nth_error_None in Ei. rewrite (valid_len axes x V) in Ei. assert (j < length axes) by (apply nth_error_Some; congruence). lia. }
  split; [|split; [exact D|]; split; [exact K|exact C]].
  unfold multiBin. replace (forallb _ b) with true; [reflexivity|]. symmetry. apply forallb_forall. intros [k [lo hi]] Hk. apply find_in in Hk; [|exact D]. assert (Ik : In k (map fst axes)) by (apply K; apply find_vars; eauto). apply in_map_iff in Ik as ([q e] & Eq & Ik). cbn in Eq. subst q.
  destruct (C k e Ik) as (i & lo' & hi' & N1 & N2 & F). rewrite Hk in F. injection F as <- <-. destruct (G k e Ik) as [_ G2]. specialize (G2 i lo hi N1 N2). rewrite (proj2 (Rltb_false hi lo)); [reflexivity|lra].
Qed.
Lemma gridLoop_chain axes limits : goodAxes axes -> limits = map (fun a => length (snd a)) axes -> forall L x fuel acc, (forall y, In y (x :: L) -> valid y limits) -> chain limits (x :: L) (final limits) -> S (length (x :: L)) <= fuel ->
  gridLoop fuel axes limits x acc = Some (acc ++ map (cellOf axes) (x :: L)).
Proof.
  intros G El. assert (Nl : limits <> []). { subst. destruct G as (G & _). destruct axes; [contradiction|discriminate]. }
  induction L as [|y L IH]; intros x fuel acc V C F; (destruct fuel as [|fuel]; [cbn in F; lia|]); cbn [gridLoop].
  - pose proof (last_valid x limits (V x (or_introl eq_refl)) Nl) as Lt. replace (Nat.eqb (last x 0) (last limits 0)) with false by (symmetry; apply Nat.eqb_neq; lia).
    destruct (cell_valid axes x G) as (E1 & E2 & _). { rewrite <- El. apply V. now left. } rewrite E1. cbn [bnd]. rewrite E2. cbn [bnd]. destruct C as [C _]. cbn [hd] in C. rewrite C.
    destruct fuel as [|fuel]; [cbn in F; lia|]. cbn [gridLoop]. rewrite last_final by assumption. now rewrite Nat.eqb_refl.
  - pose proof (last_valid x limits (V x (or_introl eq_refl)) Nl) as Lt. replace (Nat.eqb (last x 0) (last limits 0)) with false by (symmetry; apply Nat.eqb_neq; lia).
    destruct (cell_valid axes x G) as (E1 & E2 & _). { rewrite <- El. apply V. now left. } rewrite E1. cbn [bnd]. rewrite E2. cbn [bnd]. destruct C as [C1 C2]. cbn [hd] in C1. rewrite C1. rewrite IH.
    + now rewrite <- app_assoc.
    + intros z Hz. apply V. now right.
    + exact C2.
    + cbn in F |- *. lia.
Qed.
Lemma gridBins_eq axes : goodAxes axes -> gridBins axes = Some (map (cellOf axes) (allIdx (map (fun a => length (snd a)) axes))).
Proof.
  intros G. unfold gridBins. set (limits := map (fun a => length (snd a)) axes).
  assert (F : Forall (fun l => 2 <= l) limits). { apply Forall_forall. intros l Hl. apply in_map_iff in Hl as ([k e] & <- & Hl). destruct G as (_ & _ & G). apply (G k e Hl). }
  assert (Nl : limits <> []). { unfold limits. destruct G as (G & _). destruct axes; [contradiction|discriminate]. }
  pose proof (allIdx_hd limits F) as H. pose proof (chain_all limits Nl F) as C. pose proof (allIdx_length limits) as Len. assert (V : forall y, In y (allIdx limits) -> valid y limits) by (intros y; apply allIdx_valid).
  replace (length axes) with (length limits) by (unfold limits; now rewrite map_length).
  destruct (allIdx limits) as [|x L]; [discriminate|]. cbn in H. injection H as ->. apply (gridLoop_chain axes limits G eq_refl L _ _ []); [exact V|exact C|].
  rewrite Len. unfold gridFuel. apply le_n_S. clear. induction limits as [|a l IH]; cbn [fold_right]; [lia|]. nia.
Qed.

(* C64: the list of the bins of a grid: all combinations of intervals, each one once *)
Theorem C64_grid : forall axes, goodAxes axes -> exists l, gridBins axes = Some l /\ length l = cells axes /\ (forall b, In b l <-> isCell axes b).
Proof.
  intros axes G. exists (map (cellOf axes) (allIdx (map (fun a => length (snd a)) axes))). split; [now apply gridBins_eq|]. split.
  { rewrite map_length, allIdx_length. unfold cells. clear. induction axes as [|a l IH]; cbn [map fold_right]; [reflexivity|]. now rewrite IH. }
  intros b. rewrite in_map_iff. split.
  - intros (x & <- & Hx). apply allIdx_valid in Hx. now apply cell_valid.
  - intros (D & K & H).
    assert (X : forall ax, (forall k e, In (k, e) ax -> In (k, e) axes) -> exists x, valid x (map (fun a => length (snd a)) ax) /\ forall j k e i, nth_error ax j = Some (k, e) -> nth_error x j = Some i -> exists lo hi, nth_error e (i - 1) = Some lo /\ nth_error e i = Some hi /\ m_find k b = Some (lo, hi)).
    { induction ax as [|[k e] ax IH]; intros Inc. { exists []. split; [constructor|]. intros [|j]; discriminate. }
      destruct IH as (x & V & P). { intros q f Hq. apply Inc. now right. } destruct (H k e (Inc k e (or_introl eq_refl))) as (i & lo & hi & N1 & N2 & F). exists (S i :: x). split.
      - constructor; [|exact V]. cbn [snd]. assert (S i < length e) by (apply nth_error_Some; congruence). lia.
      - intros [|j] q f n Ha Hx; cbn in Ha, Hx; [injection Ha as <- <-; injection Hx as <-; exists lo, hi; cbn; rewrite Nat.sub_0_r; auto|eauto]. }
    destruct (X axes (fun k e H => H)) as (x & V & P). exists x. split; [|now apply allIdx_valid]. destruct (cell_valid axes x G V) as (E & _ & (D' & K' & _)). apply dict_ext; auto.
    destruct G as (_ & ND & _). destruct (cell_some axes x ND V) as (b' & E' & _ & _ & H'). rewrite E in E'. injection E' as <-.
    intros k. destruct (in_dec (list_eq_dec ascii_dec) k (map fst axes)) as [Hk|Hk].
    + apply in_map_iff in Hk as ([q e] & Eq & Hk). cbn in Eq. subst q. apply In_nth_error in Hk as [j Hj]. destruct (nth_error x j) as [i|] eqn:Ei.
      * destruct (P j k e i Hj Ei) as (lo & hi & P1 & P2 & P3). destruct (H' j k e i Hj Ei) as (lo' & hi' & Q1 & Q2 & Q3). congruence.
      * exfalso. apply nth_error_None in Ei. rewrite (valid_len axes x V) in Ei. assert (j < length axes) by (apply nth_error_Some; congruence). lia.
    + transitivity (@None (R * R)); [|symmetry]; apply m_find_none; fold (vars (cellOf axes x)); fold (vars b); [rewrite K'|rewrite K]; exact Hk.
Qed.

(* intervals of an axis *)
Lemma nondec_le e i j x y : nondecreasing e -> i <= j -> nth_error e i = Some x -> nth_error e j = Some y -> (x <= y)%R.
Proof.
  intros N H. revert y. induction H as [|j H IH]; intros y Hx Hy; [rewrite Hx in Hy; injection Hy as <-; lra|]. destruct (nth_error e j) as [z|] eqn:E.
  - specialize (IH z Hx eq_refl). specialize (N j z y E Hy). lra.
  - exfalso. apply nth_error_None in E. assert (S j < length e) by (apply nth_error_Some; congruence). lia.
Qed.
Lemma interval_exists e x : (nth 0 e 0 <= x < last e 0)%R -> exists i lo hi, nth_error e i = Some lo /\ nth_error e (S i) = Some hi /\ (lo <= x < hi)%R.
Proof.
  induction e as [|a e IH]; cbn; [lra|]. destruct e as [|b e]; cbn in *; [lra|]. intros H. destruct (Rlt_dec x b) as [L|L].
  - exists 0, a, b. split; [reflexivity|]. split; [reflexivity|]. lra.
  - destruct IH as (i & lo & hi & H1 & H2 & H3); [lra|]. exists (S i), lo, hi. auto.
Qed.
Lemma interval_unique e i j lo hi lo' hi' x : nondecreasing e -> nth_error e i = Some lo -> nth_error e (S i) = Some hi -> (lo <= x < hi)%R -> nth_error e j = Some lo' -> nth_error e (S j) = Some hi' -> (lo' <= x < hi')%R -> i = j.
Proof.
  intros N A1 A2 A B1 B2 B. destruct (lt_eq_lt_dec i j) as [[H|H]|H]; [exfalso|exact H|exfalso].
  - pose proof (nondec_le e (S i) j hi lo' N ltac:(lia) A2 B1). lra.
  - pose proof (nondec_le e (S j) i hi' lo N ltac:(lia) B2 A1). lra.
Qed.
Lemma same_vars {V W} (m : smap V) : forall m' : smap W, dict m -> dict m' -> (forall k, In k (vars m) <-> In k (vars m')) -> vars m = vars m'.
Proof.
  induction m as [|[k v] m IH]; intros [|[k' v'] m'] D D' K; cbn [vars map fst] in *.
  - reflexivity.
  - exfalso. apply (proj2 (K k')). now left.
  - exfalso. apply (proj1 (K k)). now left.
  - apply dict_cons in D as [D Fd]. apply dict_cons in D' as [D' Fd']. rewrite Forall_forall in Fd, Fd'.
    assert (Lm : forall q, In q (map fst m) -> str_ltb k q = true). { intros q Hq. apply in_map_iff in Hq as (y & <- & Hy). exact (Fd _ Hy). }
    assert (Lm' : forall q, In q (map fst m') -> str_ltb k' q = true). { intros q Hq. apply in_map_iff in Hq as (y & <- & Hy). exact (Fd' _ Hy). }
    assert (Ek : k = k'). { destruct (proj1 (K k) (or_introl eq_refl)) as [Z|Z]; [auto|]. destruct (proj2 (K k') (or_introl eq_refl)) as [Y|Y]; [auto|]. apply Lm' in Z. apply Lm in Y. apply str_ltb_asym in Y. congruence. }
    subst k'. f_equal. apply IH; auto. intros q. split; intros Hq.
    + destruct (proj1 (K q) (or_intror Hq)) as [<-|Z]; [apply Lm in Hq; rewrite str_ltb_irrefl in Hq; discriminate|exact Z].
    + destruct (proj2 (K q) (or_intror Hq)) as [<-|Z]; [apply Lm' in Hq; rewrite str_ltb_irrefl in Hq; discriminate|exact Z].
Qed.
Lemma nth_error_same {A} (a : list A) : forall b, (forall j, nth_error a j = nth_error b j) -> a = b.
Proof. induction a as [|x a IH]; intros [|y b] H; [reflexivity|specialize (H 0); discriminate|specialize (H 0); discriminate|]. pose proof (H 0) as H0. cbn in H0. injection H0 as ->. f_equal. apply IH. intros j. exact (H (S j)). Qed.
(* C45: every event inside the grid is in exactly one of its bins *)
Theorem C45_grid_partition : forall axes l ev, goodAxes axes -> gridBins axes = Some l -> inGrid axes ev ->
  exists n, (exists b, nth_error l n = Some b /\ inBin b ev = Some true) /\ forall m b, nth_error l m = Some b -> inBin b ev = Some true -> m = n.
Proof.
  intros axes l ev G E (De & Ke & He). rewrite (gridBins_eq axes G) in E. injection E as <-. pose proof G as (Na & ND & Ge). set (limits := map (fun a => length (snd a)) axes).
  (* the indices of the event *)
  assert (X : forall ax, (forall k e, In (k, e) ax -> In (k, e) axes) -> exists x, valid x (map (fun a => length (snd a)) ax) /\ forall j k e i, nth_error ax j = Some (k, e) -> nth_error x j = Some i -> exists lo hi v, nth_error e (i - 1) = Some lo /\ nth_error e i = Some hi /\ m_find k ev = Some v /\ (lo <= v < hi)%R).
  { induction ax as [|[k e] ax IH]; intros Inc. { exists []. split; [constructor|]. intros [|j]; discriminate. }
    destruct IH as (x & V & P). { intros q f Hq. apply Inc. now right. } destruct (He k e (Inc k e (or_introl eq_refl))) as (v & Hv & Lv). destruct (interval_exists e v Lv) as (i & lo & hi & N1 & N2 & F). exists (S i :: x). split.
    - constructor; [|exact V]. cbn [snd]. assert (S i < length e) by (apply nth_error_Some; congruence). lia.
    - intros [|j] q f n Ha Hx; cbn in Ha, Hx; [injection Ha as <- <-; injection Hx as <-; exists lo, hi, v; cbn; rewrite Nat.sub_0_r; auto|eauto]. }
  destruct (X axes (fun k e H => H)) as (x & V & P). fold limits in V. assert (Ix : In x (allIdx limits)) by now apply allIdx_valid. apply In_nth_error in Ix as [n Hn].
  assert (Len : forall y, valid y limits -> length y = length axes) by (intros y W; now apply valid_len).
  (* characterisation of inBin for cells *)
  assert (Q : forall y, valid y limits -> inBin (cellOf axes y) ev = Some true <-> forall j k e i, nth_error axes j = Some (k, e) -> nth_error y j = Some i -> exists lo hi v, nth_error e (i - 1) = Some lo /\ nth_error e i = Some hi /\ m_find k ev = Some v /\ (lo <= v < hi)%R).
  { intros y W. destruct (cell_some axes y ND W) as (b & Eb & Db & Kb & Hb). unfold cellOf. rewrite Eb. destruct (C45_inBin b ev Db De) as (r & -> & Hr). transitivity (r = true); [split; [intros Z; now injection Z|now intros ->]|]. rewrite Hr. split.
    - intros [_ I] j k e i Hj Hi. destruct (Hb j k e i Hj Hi) as (lo & hi & N1 & N2 & F). destruct (I _ _ _ F) as (v & Hv & L). exists lo, hi, v. auto.
    - intros H. split.
      + apply same_vars; auto. intros k. rewrite Ke, Kb. tauto.
      + intros k lo hi F. assert (Ik : In k (map fst axes)) by (apply Kb; apply find_vars; eauto). apply in_map_iff in Ik as ([q e] & Eq & Ik). cbn in Eq. subst q. apply In_nth_error in Ik as [j Hj].
        destruct (nth_error y j) as [i|] eqn:Ei; [|exfalso; apply nth_error_None in Ei; rewrite (Len y W) in Ei; assert (j < length axes) by (apply nth_error_Some; congruence); lia].
        destruct (Hb j k e i Hj Ei) as (lo' & hi' & N1 & N2 & F'). rewrite F in F'. injection F' as <- <-. destruct (H j k e i Hj Ei) as (lo' & hi' & v & M1 & M2 & Hv & L). exists v. split; [exact Hv|]. assert (lo' = lo) by congruence. assert (hi' = hi) by congruence. now subst. }
  exists n. split. { exists (cellOf axes x). split; [now apply map_nth_error|]. now apply (Q x V). }
  intros m b Hm Hb. rewrite nth_error_map in Hm. fold limits in Hm. destruct (nth_error (allIdx limits) m) as [y|] eqn:Ey; [|discriminate]. cbn in Hm. injection Hm as <-. assert (W : valid y limits) by (apply allIdx_valid; eapply nth_error_In; eauto). rewrite (Q y W) in Hb.
  assert (x = y).
  { apply nth_error_same. intros j. destruct (nth_error axes j) as [[k e]|] eqn:Ea.
    - assert (Lj : j < length axes) by (apply nth_error_Some; congruence). destruct (nth_error x j) as [i|] eqn:Exj; [|apply nth_error_None in Exj; rewrite (Len x V) in Exj; lia]. destruct (nth_error y j) as [i'|] eqn:Eyj; [|apply nth_error_None in Eyj; rewrite (Len y W) in Eyj; lia]. f_equal.
      destruct (P j k e i Ea Exj) as (lo & hi & v & A1 & A2 & A3 & A4). destruct (Hb j k e i' Ea Eyj) as (lo' & hi' & v' & B1 & B2 & B3 & B4). assert (v' = v) by congruence. subst v'.
      pose proof (valid_pos _ _ _ _ V Exj). pose proof (valid_pos _ _ _ _ W Eyj). destruct (Ge k e (nth_error_In _ _ Ea)) as [_ Nd].
      assert (i - 1 = i' - 1); [|lia]. eapply (interval_unique e (i - 1) (i' - 1)); try eassumption; [replace (S (i - 1)) with i by lia; exact A2|replace (S (i' - 1)) with i' by lia; exact B2].
    - apply nth_error_None in Ea. transitivity (@None nat); [|symmetry]; apply nth_error_None; [rewrite (Len x V)|rewrite (Len y W)]; exact Ea. }
  subst y. pose proof (allIdx_NoDup limits) as Nd. rewrite NoDup_nth_error in Nd. symmetry. apply Nd; [apply nth_error_Some; congruence|congruence].
Qed.

(* C64: a grid given by edges or by a range is read as the grid of its edges *)
Theorem C64_equidistant : forall round xMin xMax n, 1 <= n -> (forall i, i <= n -> (xMin + (xMax - xMin) / INR n * INR i <> 0)%R) ->
  exists e, axisEdges round (Equi xMin xMax n) = Some e /\ length e = S n /\ forall i, i <= n -> nth_error e i = Some (round (xMin + (xMax - xMin) / INR n * INR i)%R).
Proof.
  intros round xMin xMax n Hn Nz. cbn [axisEdges]. unfold expandAxis. destruct n as [|n]; [lia|]. set (N := S n) in *.
  assert (X : forall k s, s + k <= S N -> exists e, (fix loop (is : list nat) : option (list R) :=
            match is with [] => Some [] | i :: r => do x <- roundDigits round (xMin + (xMax - xMin) / INR N * INR i)%R; do l <- loop r; Some (x :: l) end) (List.seq s k) = Some e /\ length e = k /\ forall i, i < k -> nth_error e i = Some (round (xMin + (xMax - xMin) / INR N * INR (s + i))%R)).
  { induction k as [|k IH]; intros s H; cbn [List.seq]. { exists []. split; [reflexivity|]. split; [reflexivity|]. intros i Hi. lia. }
    destruct (IH (S s) ltac:(lia)) as (e & E & L & He). unfold roundDigits at 1. destruct (Req_EM_T _ 0) as [Z|_]; [exfalso; apply (Nz s); [lia|exact Z]|]. cbn [bnd]. rewrite E. cbn [bnd]. eexists. split; [reflexivity|]. split; [cbn; now rewrite L|].
    intros [|i] Hi; cbn [nth_error]; [now rewrite Nat.add_0_r|]. rewrite He by lia. now replace (S s + i) with (s + S i) by lia. }
  destruct (X (S N) 0 ltac:(lia)) as (e & E & L & He). exists e. split; [exact E|]. split; [exact L|]. intros i Hi. rewrite He by lia. reflexivity.
Qed.
(* C64: a range with an edge at 0 is not accepted: the list of bins is empty, without an exception
   (and the file manager falls back to the bins of the event files) *)
Theorem C64_zero_edge_refuted : exists axes, (forall k a, In (k, a) axes -> exists x y n, a = Equi x y n /\ (x < y)%R /\ 1 <= n) /\ axes <> [] /\ forall round, readGrid round axes = Some [].
Proof.
  exists [(lit "t"%string, Equi 0 1 2)]. split. { intros k a [H|[]]. injection H as <- <-. exists 0%R, 1%R, 2. split; [reflexivity|]. split; [lra|lia]. }
  split; [discriminate|]. intros round. cbn. unfold roundDigits. destruct (Req_EM_T _ 0) as [_|N]; [reflexivity|]. exfalso. apply N. lra.
Qed.
Definition demoAxes : list (str * list R) := [(lit "mass"%string, [0; 1; 2]%R); (lit "t"%string, [0; 1; 5; 6]%R)].
Lemma demoAxes_good : goodAxes demoAxes.
Proof.
  split; [discriminate|]. split; [repeat constructor; cbn; intuition discriminate|]. intros k e [H|[H|[]]]; injection H as <- <-; (split; [cbn; lia|]); intros [|[|[|[|i]]]] x y Hx Hy; cbn in Hx, Hy; try discriminate; try (injection Hx as <-; injection Hy as <-; lra); destruct i; discriminate.
Qed.
Example C64_ex : exists l, gridBins demoAxes = Some l /\ length l = 6 /\ inGrid demoAxes [(lit "mass"%string, 1%R); (lit "t"%string, 5%R)].
Proof.
  destruct (C64_grid _ demoAxes_good) as (l & E & L & _). exists l. split; [exact E|]. split; [exact L|]. split; [repeat constructor|]. split; [reflexivity|].
  intros k e [H|[H|[]]]; injection H as <- <-; eexists; (split; [reflexivity|]); cbn; lra.
Qed.
(* C64: a list of bins is taken as it is if every bin is valid and all have the same variables, otherwise it is dropped *)
Definition validBins (l : list bin) : Prop := (forall b k lo hi, In b l -> In (k, (lo, hi)) b -> (lo <= hi)%R) /\ (forall a b, In a l -> In b l -> vars a = vars b).
Lemma multiBin_iff b : (multiBin b = Some b <-> forall k lo hi, In (k, (lo, hi)) b -> (lo <= hi)%R) /\ (multiBin b = Some b \/ multiBin b = None).
Proof.
  unfold multiBin. destruct (forallb _ b) eqn:E; (split; [|auto]).
  - split; [|reflexivity]. intros _ k lo hi H. rewrite forallb_forall in E. specialize (E _ H). cbn in E. apply negb_true_iff, Rltb_false in E. exact E.
  - split; [discriminate|]. intros H. exfalso. assert (X : forallb (fun '(_, (lo, hi)) => negb (Rltb hi lo)) b = true); [|congruence]. apply forallb_forall. intros [k [lo hi]] Hk. apply negb_true_iff, Rltb_false. eauto.
Qed.
Lemma listLoop_spec l : forall acc, ((forall b, In b l -> multiBin b = Some b) -> listLoop l acc = acc ++ l) /\ (~ (forall b, In b l -> multiBin b = Some b) -> listLoop l acc = []).
Proof.
  induction l as [|b l IH]; intros acc; cbn [listLoop]. { split; [now rewrite app_nil_r|]. intros H. exfalso. apply H. intros ? []. }
  destruct (multiBin_iff b) as [_ [E|E]]; rewrite E.
  - destruct (IH (acc ++ [b])) as [I1 I2]. split; intros H.
    + rewrite I1; [now rewrite <- app_assoc|]. intros c Hc. apply H. now right.
    + apply I2. intros X. apply H. intros c [<-|Hc]; auto.
  - split; [|reflexivity]. intros H. specialize (H b (or_introl eq_refl)). congruence.
Qed.
Theorem C64_list : forall l, (validBins l -> readList l = l) /\ (~ validBins l -> readList l = []).
Proof.
  intros l. unfold readList. destruct (listLoop_spec l []) as [L1 L2]. cbn [app] in L1.
  assert (X : (forall b, In b l -> multiBin b = Some b) <-> forall b k lo hi, In b l -> In (k, (lo, hi)) b -> (lo <= hi)%R).
  { split; [intros H b k lo hi Hb; apply (proj1 (multiBin_iff b)); auto|intros H b Hb; apply multiBin_iff; eauto]. }
  assert (Y : forall a, l = a -> (sameVariables a = a /\ (forall a b, In a l -> In b l -> vars a = vars b)) \/ (sameVariables a = [] /\ ~ (forall a b, In a l -> In b l -> vars a = vars b))).
  { intros a <-. unfold sameVariables. destruct l as [|b0 r]; [left; split; [reflexivity|intros ? ? []]|]. destruct (forallb _ _) eqn:E.
    - left. split; [reflexivity|]. rewrite forallb_forall in E. intros a b Ha Hb. pose proof (E a Ha) as Ea. pose proof (E b Hb) as Eb. unfold sameBinningVariables, variables in Ea, Eb. apply list_eqb_iff in Ea, Eb. unfold vars. congruence.
    - right. split; [reflexivity|]. intros H. assert (Z : forallb (fun b => sameBinningVariables b b0) (b0 :: r) = true); [|congruence]. apply forallb_forall. intros b Hb. apply list_eqb_iff. apply (H b b0 Hb). now left. }
  split.
  - intros [V1 V2]. rewrite (L1 (proj2 X V1)). destruct (Y l eq_refl) as [[E _]|[_ N]]; [exact E|contradiction].
  - intros N. destruct (Y l eq_refl) as [[E V]|[E _]].
    + rewrite L2; [reflexivity|]. intros H. apply N. split; [now apply X|exact V].
    + destruct (forallb (fun b => match multiBin b with Some _ => true | None => false end) l) eqn:F.
      * rewrite L1; [exact E|]. intros b Hb. rewrite forallb_forall in F. specialize (F b Hb). destruct (multiBin_iff b) as [_ [Q|Q]]; [exact Q|]. rewrite Q in F. discriminate.
      * rewrite L2; [reflexivity|]. intros H. assert (Z : forallb (fun b => match multiBin b with Some _ => true | None => false end) l = true); [|congruence]. apply forallb_forall. intros b Hb. now rewrite (H b Hb).
Qed.
