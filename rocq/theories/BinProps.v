(* C45, C46, C47: kinematic bins *)
From Coq Require Import String Ascii List ZArith Reals Bool Lia Lra Sorting.Sorted Permutation.
From Verif Require Import PathModel StrModel CGBoxModel EventMetaModel EventMetaProps BinModel.
Import ListNotations.
Open Scope list_scope. Open Scope nat_scope.

(* ---- specification ---- *)
(* a dict: one entry per key, written in the order of the keys *)
Definition dict {V} (m : smap V) : Prop := StronglySorted (@key_lt V) m.
(* an event (the values of its variables) is inside the boundaries *)
Definition inside (ev : smap R) (b : bin) : Prop :=
  forall k lo hi, m_find k b = Some (lo, hi) -> exists x, m_find k ev = Some x /\ (lo <= x < hi)%R.
Definition vars {V} (m : smap V) : list str := map fst m.
(* some value is in the bin, for each variable *)
Definition nonEmpty (b : bin) : Prop := forall k lo hi, m_find k b = Some (lo, hi) -> (lo < hi)%R.
Definition center (lh : R * R) : R := ((fst lh + snd lh) / 2)%R.

(* ---- lemmas ---- *)
Lemma Rltb_iff x y : Rltb x y = true <-> (x < y)%R. Proof. unfold Rltb. destruct (Rlt_dec x y); intuition discriminate. Qed.
Lemma Rleb_iff x y : Rleb x y = true <-> (x <= y)%R. Proof. unfold Rleb. destruct (Rle_dec x y); intuition discriminate. Qed.
Lemma Rltb_false x y : Rltb x y = false <-> (y <= x)%R. Proof. unfold Rltb. destruct (Rlt_dec x y); split; try discriminate; intros; lra. Qed.
Lemma Rleb_false x y : Rleb x y = false <-> (y < x)%R. Proof. unfold Rleb. destruct (Rle_dec x y); split; try discriminate; intros; lra. Qed.
Lemma dict_cons {V} (x : str * V) m : dict (x :: m) <-> dict m /\ Forall (key_lt x) m.
Proof. unfold dict. split; [intros H; inversion H; auto|intros [? ?]; constructor; auto]. Qed.
Lemma find_in {V} k (v : V) m : dict m -> (m_find k m = Some v <-> In (k, v) m). Proof. apply m_find_in. Qed.
Lemma find_vars {V} k (m : smap V) : (exists v, m_find k m = Some v) <-> In k (vars m). Proof. apply m_find_key. Qed.
Lemma dict_NoDup {V} (m : smap V) : dict m -> NoDup (vars m). Proof. apply sorted_NoDup. Qed.
(* equal dicts *)
Lemma dict_ext {V} (a b : smap V) : dict a -> dict b -> (forall k, m_find k a = m_find k b) -> a = b.
Proof.
  revert b. induction a as [|[k v] a IH]; intros [|[k' v'] b] Da Db H.
  - reflexivity.
  - specialize (H k'). cbn in H. rewrite str_eqb_refl in H. discriminate.
  - specialize (H k). cbn in H. rewrite str_eqb_refl in H. discriminate.
  - apply dict_cons in Da as [Da Fa]. apply dict_cons in Db as [Db Fb].
    assert (E : k = k').
    { destruct (str_eqb k k') eqn:Q; [now apply str_eqb_eq|]. exfalso. assert (Q' : str_eqb k' k = false) by (now rewrite str_eqb_sym).
      assert (A : In k (vars b)). { apply find_vars. specialize (H k). cbn in H. rewrite str_eqb_refl, Q in H. eauto. }
      assert (B : In k' (vars a)). { apply find_vars. specialize (H k'). cbn in H. rewrite str_eqb_refl, Q' in H. eauto. }
      apply in_map_iff in A as ([? ?] & <- & A). apply in_map_iff in B as ([? ?] & <- & B). rewrite Forall_forall in Fa, Fb. specialize (Fa _ B). specialize (Fb _ A). unfold key_lt in Fa, Fb. cbn in *.
      apply str_ltb_asym in Fa. congruence. }
    subst k'. assert (E : v = v') by (specialize (H k); cbn in H; rewrite str_eqb_refl in H; congruence). subst v'. f_equal.
    apply IH; auto. intros q. destruct (str_eqb q k) eqn:Q.
    + apply str_eqb_eq in Q. subst q. transitivity (@None V); [|symmetry]; apply m_find_none; intros X; apply in_map_iff in X as ([? ?] & E & X); cbn in E; subst; rewrite Forall_forall in Fa, Fb.
      * specialize (Fa _ X). unfold key_lt in Fa. cbn in Fa. rewrite str_ltb_irrefl in Fa. discriminate.
      * specialize (Fb _ X). unfold key_lt in Fb. cbn in Fb. rewrite str_ltb_irrefl in Fb. discriminate.
    + specialize (H q). cbn in H. now rewrite Q in H.
Qed.
Lemma list_eqb_false a b : list_eqb a b = false <-> a <> b.
Proof. destruct (list_eqb a b) eqn:E; [apply list_eqb_iff in E|]; split; intros; try congruence. intros X. apply list_eqb_iff in X. congruence. Qed.

Lemma inBinLoop_spec b info : (forall k, In k (vars info) -> In k (vars b)) -> exists r, inBinLoop b info = Some r /\
  (r = true <-> forall k x, In (k, x) info -> exists lo hi, m_find k b = Some (lo, hi) /\ (lo <= x < hi)%R).
Proof.
  induction info as [|[k x] info IH]; intros H; cbn [inBinLoop].
  - exists true. split; [reflexivity|]. split; [intros _ ? ? []|reflexivity].
  - destruct IH as (r & E & Hr). { intros q Hq. apply H. now right. }
    destruct (proj2 (find_vars k b)) as [[lo hi] Hb]; [apply H; now left|]. rewrite Hb. cbn [bnd fst snd].
    destruct (Rltb x lo) eqn:E1.
    { exists false. split; [reflexivity|]. split; [discriminate|]. intros G. destruct (G k x (or_introl eq_refl)) as (l & h & Q & L). rewrite Hb in Q. injection Q as <- <-. apply Rltb_iff in E1. lra. }
    destruct (Rleb hi x) eqn:E2; cbn [orb].
    { exists false. split; [reflexivity|]. split; [discriminate|]. intros G. destruct (G k x (or_introl eq_refl)) as (l & h & Q & L). rewrite Hb in Q. injection Q as <- <-. apply Rleb_iff in E2. lra. }
    exists r. split; [exact E|]. rewrite Hr. apply Rltb_false in E1. apply Rleb_false in E2. split.
    + intros G q y [Q|Q]; [injection Q as <- <-; exists lo, hi; auto|auto].
    + intros G q y Q. apply G. now right.
Qed.

(* C45: an event is accepted exactly if it has the variables of the bin and each value is in [lower, upper);
   the C++ function needs only the variables of the bin *)
Theorem C45_inBin : forall b ev, dict b -> dict ev ->
  exists r, inBin b ev = Some r /\ (r = true <-> vars ev = vars b /\ inside ev b).
Proof.
  intros b ev Db De. unfold inBin. destruct (list_eqb (map fst ev) (map fst b)) eqn:E; cbn [negb].
  2:{ exists false. split; [reflexivity|]. split; [discriminate|]. intros [H _]. apply list_eqb_false in E. contradiction. }
  apply list_eqb_iff in E. destruct (inBinLoop_spec b ev) as (r & Er & Hr). { unfold vars. now rewrite E. }
  exists r. split; [exact Er|]. rewrite Hr. split.
  - intros H. split; [exact E|]. intros k lo hi Hk. destruct (proj2 (find_vars k ev)) as [x Hx]. { unfold vars. rewrite E. apply find_vars. eauto. }
    exists x. split; [exact Hx|]. apply find_in in Hx; [|exact De]. destruct (H _ _ Hx) as (l & h & Q & L). rewrite Hk in Q. injection Q as <- <-. exact L.
  - intros [_ H] k x Hx. apply find_in in Hx; [|exact De]. destruct (proj2 (find_vars k b)) as [[lo hi] Hb]. { unfold vars. rewrite <- E. apply find_vars. eauto. }
    exists lo, hi. split; [exact Hb|]. destruct (H _ _ _ Hb) as (y & Q & L). congruence.
Qed.
Theorem C45_inBoundaries : forall b ev, dict b -> inBoundaries ev b = true <-> inside ev b.
Proof.
  intros b ev Db. unfold inBoundaries. rewrite forallb_forall. split.
  - intros H k lo hi Hk. apply find_in in Hk; [|exact Db]. specialize (H _ Hk). cbn in H. destruct (m_find k ev) as [x|]; [|discriminate]. exists x. split; [reflexivity|].
    destruct (Rlt_dec x lo); [discriminate|]. destruct (Rle_dec hi x); [discriminate|]. lra.
  - intros H [k [lo hi]] Hk. apply find_in in Hk; [|exact Db]. destruct (H _ _ _ Hk) as (x & -> & L). destruct (Rlt_dec x lo); [lra|]. destruct (Rle_dec hi x); [lra|reflexivity].
Qed.

(* ---- overlap ---- *)
Definition meets (strict : bool) (l h l' h' : R) : Prop := if strict then (l' <= h /\ l <= h')%R else (l' < h /\ l < h')%R.
Lemma overlapLoop_spec a b strict ks : (forall k, In k ks -> In k (vars a) /\ In k (vars b)) -> exists r, overlapLoop a b strict ks = Some r /\
  (r = true <-> forall k l h l' h', In k ks -> m_find k a = Some (l, h) -> m_find k b = Some (l', h') -> meets strict l h l' h').
Proof.
  induction ks as [|k ks IH]; intros H; cbn [overlapLoop].
  - exists true. split; [reflexivity|]. split; [intros _ ? ? ? ? ? []|reflexivity].
  - destruct IH as (r & E & Hr). { intros q Hq. apply H. now right. }
    destruct (H k (or_introl eq_refl)) as [Ha Hb]. apply find_vars in Ha as [[l h] Ha]. apply find_vars in Hb as [[l' h'] Hb].
    unfold overlapInVariable. rewrite Ha, Hb. cbn [bnd fst snd].
    assert (X : (comparator strict h l' = false /\ comparator strict h' l = false) <-> meets strict l h l' h').
    { unfold comparator, meets. destruct strict; rewrite ?Rltb_false, ?Rleb_false; split; intros [? ?]; split; lra. }
    destruct (comparator strict h l') eqn:E1; [|destruct (comparator strict h' l) eqn:E2]; cbn [bnd].
    1,2: exists false; (split; [reflexivity|]); (split; [discriminate|]); intros G; specialize (G k l h l' h' (or_introl eq_refl) Ha Hb); apply X in G; destruct G; congruence.
    exists r. split; [exact E|]. rewrite Hr. split.
    + intros G q ? ? ? ? [<-|Q] Qa Qb; [rewrite Ha in Qa; rewrite Hb in Qb; injection Qa as <- <-; injection Qb as <- <-; now apply X|eapply G; eauto].
    + intros G q ? ? ? ? Q. apply G. now right.
Qed.
(* C47: what overlap computes: with strict, bins that share a boundary overlap, otherwise not *)
Theorem C47_overlap : forall a b strict, exists r, overlap a b strict = Some r /\
  (r = true <-> vars a = vars b /\ forall k l h l' h', m_find k a = Some (l, h) -> m_find k b = Some (l', h') -> if strict then (l' <= h /\ l <= h')%R else (l' < h /\ l < h')%R).
Proof.
  intros a b strict. unfold overlap. destruct (list_eqb (variables a) (variables b)) eqn:E; cbn [negb].
  2:{ exists false. split; [reflexivity|]. split; [discriminate|]. intros [H _]. apply list_eqb_false in E. contradiction. }
  apply list_eqb_iff in E. destruct (overlapLoop_spec a b strict (variables a)) as (r & Er & Hr). { intros k Hk. split; [exact Hk|]. unfold variables in *. unfold vars. now rewrite <- E. }
  exists r. split; [exact Er|]. rewrite Hr. split.
  - intros H. split; [exact E|]. intros k l h l' h' Ha Hb. apply (H k); auto. apply find_vars. eauto.
  - intros [_ H] k l h l' h' _. apply H.
Qed.
Lemma overlap_true a b strict : overlap a b strict = Some true <-> vars a = vars b /\ forall k l h l' h', m_find k a = Some (l, h) -> m_find k b = Some (l', h') -> meets strict l h l' h'.
Proof. destruct (C47_overlap a b strict) as (r & -> & H). rewrite <- H. split; [intros X; now injection X|now intros ->]. Qed.
Lemma overlap_false a b strict : overlap a b strict = Some false <-> overlap a b strict <> Some true.
Proof. destruct (C47_overlap a b strict) as ([|] & -> & _); split; congruence. Qed.
Theorem C47_overlap_sym : forall a b strict, overlap a b strict = overlap b a strict.
Proof.
  assert (S : forall a b strict, overlap a b strict = Some true -> overlap b a strict = Some true).
  { intros a b strict H. apply overlap_true in H as [V H]. apply overlap_true. split; [auto|]. intros k l h l' h' Ha Hb. specialize (H _ _ _ _ _ Hb Ha). unfold meets in *. destruct strict; tauto. }
  intros a b strict. destruct (C47_overlap a b strict) as ([|] & E & _).
  - rewrite E. symmetry. now apply S.
  - rewrite E. symmetry. apply overlap_false. intros X. apply S in X. congruence.
Qed.
(* the event at the larger of the lower boundaries *)
Lemma find_map {V W} (f : str -> V -> W) (m : smap V) k : m_find k (map (fun x => (fst x, f (fst x) (snd x))) m) = option_map (f k) (m_find k m).
Proof.
  induction m as [|[q v] m IH]; [reflexivity|]. cbn [map m_find fst snd]. destruct (str_eqb k q) eqn:E; [|exact IH]. apply str_eqb_eq in E. now subst.
Qed.
Lemma map_dict {V W} (f : str -> V -> W) (m : smap V) : dict m -> dict (map (fun x => (fst x, f (fst x) (snd x))) m).
Proof.
  unfold dict. induction m as [|[k v] m IH]; intros H; cbn [map]; [constructor|]. apply dict_cons in H as [H F]. constructor; [auto|]. apply Forall_forall. intros y Hy. apply in_map_iff in Hy as ([q w] & <- & Hy). rewrite Forall_forall in F. exact (F _ Hy).
Qed.
Lemma map_vars {V W} (f : str -> V -> W) (m : smap V) : vars (map (fun x => (fst x, f (fst x) (snd x))) m) = vars m.
Proof. unfold vars. rewrite map_map. apply map_ext. now intros []. Qed.
Definition maxLow (b : bin) (k : str) (lh : R * R) : R := match m_find k b with Some lh' => Rmax (fst lh) (fst lh') | None => fst lh end.
(* C47: bins without empty intervals overlap (strict = False) exactly if an event is in both *)
Theorem C47_overlap_event : forall a b, dict a -> dict b -> nonEmpty a -> nonEmpty b ->
  (overlap a b false = Some true <-> exists ev, dict ev /\ inBin a ev = Some true /\ inBin b ev = Some true).
Proof.
  intros a b Da Db Na Nb. rewrite overlap_true. split.
  - intros [V H]. set (f := maxLow b). exists (map (fun x => (fst x, f (fst x) (snd x))) a).
    assert (De : dict (map (fun x => (fst x, f (fst x) (snd x))) a)) by now apply map_dict.
    assert (G : forall k, In k (vars a) -> exists l h l' h', m_find k a = Some (l, h) /\ m_find k b = Some (l', h') /\ (l' < h /\ l < h')%R /\ (l < h)%R /\ (l' < h')%R).
    { intros k Hk. assert (Hk' : In k (vars b)) by (now rewrite <- V). apply find_vars in Hk as [[l h] Ha]. apply find_vars in Hk' as [[l' h'] Hb]. exists l, h, l', h'. split; [exact Ha|]. split; [exact Hb|]. split; [exact (H _ _ _ _ _ Ha Hb)|]. split; [eapply Na; eauto|eapply Nb; eauto]. }
    split; [exact De|]. split.
    + destruct (C45_inBin a _ Da De) as (r & -> & Hr). f_equal. apply Hr. split; [apply map_vars|]. intros k l h Ha. destruct (G k) as (l1 & h1 & l' & h' & Qa & Qb & L1 & L2 & L3); [apply find_vars; eauto|].
      rewrite Ha in Qa. injection Qa as <- <-. exists (Rmax l l'). split; [rewrite find_map, Ha; cbn; unfold f, maxLow; now rewrite Qb|]. unfold Rmax. destruct (Rle_dec l l'); lra.
    + destruct (C45_inBin b _ Db De) as (r & -> & Hr). f_equal. apply Hr. split; [rewrite map_vars; exact V|]. intros k l' h' Hb. destruct (G k) as (l & h & l1 & h1 & Qa & Qb & L1 & L2 & L3); [rewrite V; apply find_vars; eauto|].
      rewrite Hb in Qb. injection Qb as <- <-. exists (Rmax l l'). split; [rewrite find_map, Qa; cbn; unfold f, maxLow; now rewrite Hb|]. unfold Rmax. destruct (Rle_dec l l'); lra.
  - intros (ev & De & Ha & Hb). destruct (C45_inBin a ev Da De) as (r & Ra & Hr). rewrite Ha in Ra. injection Ra as <-. destruct (C45_inBin b ev Db De) as (r & Rb & Hr'). rewrite Hb in Rb. injection Rb as <-.
    destruct (proj1 Hr eq_refl) as [V1 I1]. destruct (proj1 Hr' eq_refl) as [V2 I2]. split; [congruence|]. intros k l h l' h' Qa Qb. destruct (I1 _ _ _ Qa) as (x & X1 & L1). destruct (I2 _ _ _ Qb) as (y & Y1 & L2). assert (x = y) by congruence. subst. unfold meets. lra.
Qed.
(* C45: an event is in at most one of the bins of a list without overlaps *)
Theorem C45_at_most_one : forall l ev i j a b, Forall dict l -> dict ev ->
  (forall i j a b, i < j -> nth_error l i = Some a -> nth_error l j = Some b -> overlap a b false = Some false) ->
  nth_error l i = Some a -> nth_error l j = Some b -> inBin a ev = Some true -> inBin b ev = Some true -> i = j.
Proof.
  assert (W : forall l ev i j a b, i < j -> Forall dict l -> dict ev ->
  (forall i j a b, i < j -> nth_error l i = Some a -> nth_error l j = Some b -> overlap a b false = Some false) ->
  nth_error l i = Some a -> nth_error l j = Some b -> inBin a ev = Some true -> inBin b ev = Some true -> False).
  { intros l ev i j a b Hij Fd De Ov Hi Hj Ia Ib. specialize (Ov i j a b Hij Hi Hj). apply overlap_false in Ov. apply Ov. rewrite Forall_forall in Fd.
    assert (Da : dict a) by (apply Fd; eapply nth_error_In; eauto). assert (Db : dict b) by (apply Fd; eapply nth_error_In; eauto).
    destruct (C45_inBin a ev Da De) as (r & Ra & Hr). rewrite Ia in Ra. injection Ra as <-. destruct (C45_inBin b ev Db De) as (r & Rb & Hr'). rewrite Ib in Rb. injection Rb as <-.
    destruct (proj1 Hr eq_refl) as [V1 I1]. destruct (proj1 Hr' eq_refl) as [V2 I2]. apply overlap_true. split; [congruence|]. intros k l0 h l' h' Qa Qb. destruct (I1 _ _ _ Qa) as (x & X1 & L1). destruct (I2 _ _ _ Qb) as (y & Y1 & L2). assert (x = y) by congruence. subst. unfold meets. lra. }
  intros l ev i j a b Fd De Ov Hi Hj Ia Ib. destruct (lt_eq_lt_dec i j) as [[H|H]|H]; [exfalso|exact H|exfalso].
  - exact (W l ev i j a b H Fd De Ov Hi Hj Ia Ib).
  - exact (W l ev j i b a H Fd De Ov Hj Hi Ib Ia).
Qed.

(* C47: containment *)
Theorem C47_contains : forall a b, dict a -> (binContains a b = true <->
  forall k lo hi, m_find k a = Some (lo, hi) -> exists lo' hi', m_find k b = Some (lo', hi') /\ (lo <= lo' /\ hi' <= hi)%R).
Proof.
  intros a b Da. unfold binContains. rewrite forallb_forall. split.
  - intros H k lo hi Hk. apply find_in in Hk; [|exact Da]. specialize (H _ Hk). cbn in H. destruct (m_find k b) as [[lo' hi']|]; [|discriminate]. exists lo', hi'. split; [reflexivity|].
    destruct (Rleb lo lo') eqn:E1; [|discriminate]. destruct (Rleb hi' hi) eqn:E2; [|discriminate]. apply Rleb_iff in E1, E2. auto.
  - intros H [k [lo hi]] Hk. apply find_in in Hk; [|exact Da]. destruct (H _ _ _ Hk) as (lo' & hi' & -> & L1 & L2). apply Rleb_iff in L1, L2. now rewrite L1, L2.
Qed.
Theorem C47_contains_order : forall a b c, dict a -> dict b -> dict c ->
  binContains a a = true /\ (binContains a b = true -> binContains b c = true -> binContains a c = true) /\
  (binContains a b = true -> binContains b a = true -> a = b).
Proof.
  intros a b c Da Db Dc. rewrite !C47_contains by assumption. split; [|split].
  - intros k lo hi H. exists lo, hi. split; [exact H|lra].
  - intros H1 H2 k lo hi H. destruct (H1 _ _ _ H) as (l & h & E & L). destruct (H2 _ _ _ E) as (l' & h' & E' & L'). exists l', h'. split; [exact E'|lra].
  - intros H1 H2. apply dict_ext; auto. intros k. destruct (m_find k a) as [[l h]|] eqn:Ea.
    + destruct (H1 _ _ _ Ea) as (l' & h' & Eb & L). rewrite Eb. destruct (H2 _ _ _ Eb) as (l2 & h2 & Ea' & L'). rewrite Ea in Ea'. injection Ea' as <- <-. do 2 f_equal; lra.
    + destruct (m_find k b) as [[l h]|] eqn:Eb; [|reflexivity]. destruct (H2 _ _ _ Eb) as (l' & h' & Ea' & _). congruence.
Qed.
(* C47: every event of the inner bin is in the outer one, as the C++ code selects events; and conversely if the inner bin is not empty *)
Theorem C47_contains_events : forall a b, dict a -> dict b -> nonEmpty b ->
  (binContains a b = true <-> forall ev, dict ev -> inBoundaries ev b = true -> inBoundaries ev a = true).
Proof.
  intros a b Da Db Nb. rewrite C47_contains by assumption. split.
  - intros H ev De Hb. rewrite C45_inBoundaries in * by assumption. intros k lo hi Hk. destruct (H _ _ _ Hk) as (lo' & hi' & E & L). destruct (Hb _ _ _ E) as (x & Hx & Lx). exists x. split; [exact Hx|lra].
  - intros H k lo hi Hk.
    (* an event at the lower edge, and one close to the upper edge *)
    set (g := fun (t : R) (_ : str) (lh : R * R) => (fst lh + t * (snd lh - fst lh))%R). set (at_ := fun t : R => map (fun x => (fst x, g t (fst x) (snd x))) b).
    assert (A : forall t, (0 <= t < 1)%R -> inBoundaries (at_ t) b = true).
    { intros t Ht. apply C45_inBoundaries; [exact Db|]. intros q l h Q. exists (l + t * (h - l))%R. split; [unfold at_; rewrite (find_map (g t)), Q; reflexivity|]. specialize (Nb _ _ _ Q). split; [assert (0 <= t * (h - l))%R by (apply Rmult_le_pos; lra); lra|]. assert (t * (h - l) < 1 * (h - l))%R by (apply Rmult_lt_compat_r; lra). lra. }
    assert (B : forall t, (0 <= t < 1)%R -> inBoundaries (at_ t) a = true). { intros t Ht. apply H; [|now apply A]. unfold at_. now apply (map_dict (g t)). }
    pose proof (B 0%R ltac:(lra)) as B0. apply C45_inBoundaries in B0; [|exact Da]. destruct (B0 _ _ _ Hk) as (x & Hx & Lx). unfold at_ in Hx. rewrite (find_map (g 0%R)) in Hx. destruct (m_find k b) as [[l h]|] eqn:E; [|discriminate]. cbn [option_map] in Hx. injection Hx as <-. unfold g in Lx. cbn [fst snd] in Lx. exists l, h. split; [reflexivity|]. split; [lra|].
    destruct (Rle_dec h hi) as [|N]; [assumption|exfalso]. specialize (Nb _ _ _ E). assert (Hl : (l < hi)%R) by lra.
    set (t := ((hi - l) / (h - l))%R). assert (T0 : (0 <= t)%R) by (unfold t; apply Rmult_le_pos; [lra|]; left; apply Rinv_0_lt_compat; lra).
    assert (T1 : (t < 1)%R) by (unfold t; apply Rmult_lt_reg_r with (h - l)%R; [lra|]; field_simplify; lra).
    pose proof (B t (conj T0 T1)) as B1. apply C45_inBoundaries in B1; [|exact Da]. destruct (B1 _ _ _ Hk) as (x & Hx & Lx'). unfold at_ in Hx. rewrite (find_map (g t)), E in Hx. cbn [option_map] in Hx. injection Hx as <-. unfold g in Lx'. cbn [fst snd] in Lx'.
    assert (l + t * (h - l) = hi)%R by (unfold t; field; lra). lra.
Qed.
