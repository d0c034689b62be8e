(* C51: Bose symmetrisation enumerates all permutations of identical particles once.
   C66: the symmetrised amplitude does not depend on which of several identical particles is which. *)
From Coq Require Import String Ascii List ZArith Bool Reals Lia Lra Permutation Sorted.
From Coquelicot Require Import Complex.
From Verif Require Import PathModel StrModel CGBoxModel BoseModel BoseProofs.
Import ListNotations.
Open Scope list_scope. Open Scope nat_scope.

(* ---------------- specification ---------------- *)
(* a relabelling of the final-state particles that maps every particle to one with the same name *)
Definition bosePerm (names : list str) (pm : list nat) : Prop :=
  Permutation (List.seq 0 (length names)) pm /\ forall i, i < length names -> nth (nth i pm 0) names [] = nth i names [].

(* ---------------- index lists ---------------- *)
Section Names.
Variable names : list str.
Notation n := (length names).
Notation orig := (map snd (fsIndices names)).
Lemma fsIndices_eq : fsIndices names = idxMap names n. Proof. reflexivity. Qed.
Lemma occ_in k nm i : In i (occ names k nm) <-> i < k /\ nth i names [] = nm.
Proof. unfold occ. rewrite filter_In, in_seq, str_eqb_eq. intuition lia. Qed.
Lemma occ_asc k nm : asc (occ names k nm).
Proof.
  unfold asc, occ. assert (G : forall k s, StronglySorted lt (filter (fun i => str_eqb (nth i names []) nm) (List.seq s k))).
  { clear. induction k as [|k IH]; intros s; cbn; [constructor|]. destruct (str_eqb _ _); [|apply IH]. constructor; [apply IH|].
    apply Forall_forall. intros x Hx. apply filter_In in Hx as [Hx _]. apply in_seq in Hx. lia. }
  apply G.
Qed.
Lemma idx_entry nm l : In (nm, l) (fsIndices names) -> l = occ names n nm /\ l <> [].
Proof.
  intros H. rewrite fsIndices_eq in H. destruct (idxMap_ok names n) as [S F]. apply (m_find_in nm l _ S) in H. rewrite F in H.
  destruct (occ names n nm) as [|x t]; [discriminate|]. injection H as <-. split; [reflexivity|discriminate].
Qed.
Lemma idx_has i : i < n -> In (nth i names [], occ names n (nth i names [])) (fsIndices names).
Proof.
  intros H. rewrite fsIndices_eq. destruct (idxMap_ok names n) as [S F]. apply (m_find_in _ _ _ S). rewrite F.
  destruct (occ names n (nth i names [])) as [|x t] eqn:E; [|reflexivity].
  assert (X : In i (occ names n (nth i names []))) by (apply occ_in; auto). rewrite E in X. destruct X.
Qed.
Lemma orig_asc : Forall asc orig.
Proof. apply Forall_forall. intros l Hl. apply in_map_iff in Hl as ([nm l'] & <- & H). apply idx_entry in H as [-> _]. apply occ_asc. Qed.
Lemma orig_in i : In i (concat orig) <-> i < n.
Proof.
  rewrite in_concat. split.
  - intros (l & Hl & Hi). apply in_map_iff in Hl as ([nm l'] & <- & H). apply idx_entry in H as [-> _]. now apply occ_in in Hi.
  - intros H. exists (occ names n (nth i names [])). split; [apply in_map_iff; exists (nth i names [], occ names n (nth i names [])); split; [reflexivity|now apply idx_has]|]. apply occ_in. auto.
Qed.
Lemma sorted_keys_NoDup (m : list (str * list nat)) : StronglySorted key_lt m -> NoDup (map fst m).
Proof.
  induction m as [|[k v] m IH]; intros H; [constructor|]. inversion H as [|? ? H1 H2]; subst. cbn. constructor; [|now apply IH].
  intros X. apply in_map_iff in X as ([k' v'] & <- & X). rewrite Forall_forall in H2. specialize (H2 _ X). unfold key_lt in H2. cbn in H2. now rewrite str_ltb_irrefl in H2.
Qed.
Lemma orig_NoDup : NoDup (concat orig).
Proof.
  assert (G : forall m, NoDup (map fst m) -> (forall nm l, In (nm, l) m -> l = occ names n nm) -> NoDup (concat (map snd m))).
  { induction m as [|[nm l] m IH]; intros HN H; [constructor|]. cbn [map fst snd concat] in *. apply NoDup_cons_iff in HN as [H1 H2]. apply NoDup_app2.
    - rewrite (H nm l) by now left. apply asc_NoDup, occ_asc.
    - apply IH; [exact H2|]. intros nm' l' H'. apply H. now right.
    - intros x Hx Hy. rewrite (H nm l) in Hx by now left. apply occ_in in Hx as [_ Hx]. apply in_concat in Hy as (l' & Hl & Hy). apply in_map_iff in Hl as ([nm' l''] & <- & Hin).
      rewrite (H nm' l'') in Hy by now right. apply occ_in in Hy as [_ Hy]. apply H1. apply in_map_iff. exists (nm', l''). split; [cbn; congruence|exact Hin]. }
  apply G; [rewrite fsIndices_eq; apply sorted_keys_NoDup, idxMap_ok|]. intros nm l H. now apply idx_entry in H.
Qed.
Lemma orig_perm : Permutation (concat orig) (List.seq 0 n).
Proof. apply NoDup_Permutation; [apply orig_NoDup|apply seq_NoDup|]. intros i. rewrite orig_in, in_seq. lia. Qed.

(* ---------------- maps ---------------- *)
Lemma perm_lengths (a b : list (list nat)) : Forall2 (@Permutation nat) a b -> Forall2 (fun o q => length q = length o) a b.
Proof. intros H. induction H; constructor; auto. symmetry. now apply Permutation_length. Qed.
Lemma bmap_length new : length (bmap n orig new) = n.
Proof. unfold bmap. now rewrite fold_set_length, repeat_length. Qed.
Lemma bmap_pairs new o q : Forall2 (fun o q => length q = length o) orig new -> In (o, q) (pairs orig new) -> nth o (bmap n orig new) 0 = q.
Proof.
  intros H Hin. unfold bmap. apply fold_set_nth; [rewrite pairs_fst by exact H; apply orig_NoDup| |exact Hin].
  rewrite pairs_fst, repeat_length by exact H. apply Forall_forall. intros x. apply orig_in.
Qed.
Lemma map_nth_pairs (f : nat -> nat) (l : list (nat * nat)) : (forall o q, In (o, q) l -> f o = q) -> map f (map fst l) = map snd l.
Proof. intros H. rewrite map_map. apply map_ext_in. intros [o q] Hin. cbn. now apply H. Qed.
Lemma nth_seq_id (l : list nat) : map (fun i => nth i l 0) (List.seq 0 (length l)) = l.
Proof. induction l as [|x l IH]; [reflexivity|]. cbn [length List.seq map nth]. f_equal. rewrite <- seq_shift, map_map. exact IH. Qed.
Lemma perm_concat (a b : list (list nat)) : Forall2 (@Permutation nat) a b -> Permutation (concat a) (concat b).
Proof. intros H. induction H; [constructor|]. cbn. now apply Permutation_app. Qed.
Lemma pairs_in_combine (a b : list (list nat)) o q : In (o, q) (pairs a b) -> exists l r, In (l, r) (List.combine a b) /\ In (o, q) (List.combine l r).
Proof. unfold pairs. rewrite in_flat_map. intros ([l r] & H1 & H2). eauto. Qed.
Lemma Forall2_combine {A B} (P : A -> B -> Prop) a b x y : Forall2 P a b -> In (x, y) (List.combine a b) -> P x y.
Proof. intros H. induction H; cbn; [tauto|]. intros [E|E]; [injection E as -> ->; auto|auto]. Qed.

Lemma bmap_bosePerm new : Forall2 (@Permutation nat) orig new -> bosePerm names (bmap n orig new).
Proof.
  intros H. pose proof (perm_lengths _ _ H) as HL. split.
  - rewrite <- (nth_seq_id (bmap n orig new)), bmap_length.
    transitivity (concat new); [transitivity (concat orig); [symmetry; apply orig_perm|now apply perm_concat]|].
    rewrite <- (pairs_snd orig new HL), <- (map_nth_pairs (fun i => nth i (bmap n orig new) 0)), pairs_fst by (exact HL || intros o q; now apply bmap_pairs).
    apply Permutation_map, orig_perm.
  - intros i Hi. apply orig_in in Hi. rewrite <- (pairs_fst orig new HL) in Hi. apply in_map_iff in Hi as ([o q] & <- & Hin). cbn [fst].
    rewrite (bmap_pairs new o q HL Hin). apply pairs_in_combine in Hin as (l & r & Hlr & Hoq).
    pose proof (Forall2_combine _ _ _ _ _ H Hlr) as Hp. apply in_combine_l in Hlr. apply in_map_iff in Hlr as ([nm l'] & El & Hl). cbn in El. subst l'. apply idx_entry in Hl as [-> _].
    pose proof (in_combine_l _ _ _ _ Hoq) as Ho. pose proof (in_combine_r _ _ _ _ Hoq) as Hq. apply occ_in in Ho as [_ ->].
    apply (Permutation_in q (Permutation_sym Hp)) in Hq. now apply occ_in in Hq.
Qed.
Lemma concat_map_pairs (f : nat -> nat) (a : list (list nat)) : pairs a (map (map f) a) = map (fun o => (o, f o)) (concat a).
Proof.
  unfold pairs. induction a as [|l a IH]; [reflexivity|]. cbn [map List.combine flat_map fst snd concat]. rewrite map_app, IH. f_equal.
  clear. induction l as [|x l IH]; [reflexivity|]. cbn. now rewrite IH.
Qed.
Lemma bosePerm_lt pm i : bosePerm names pm -> i < n -> nth i pm 0 < n.
Proof.
  intros [H _] Hi. assert (X : In (nth i pm 0) (List.seq 0 n)).
  { apply (Permutation_in _ (Permutation_sym H)), nth_In. rewrite <- (Permutation_length H), seq_length. exact Hi. }
  apply in_seq in X. lia.
Qed.
Lemma bosePerm_bmap pm : bosePerm names pm -> exists new, Forall2 (@Permutation nat) orig new /\ bmap n orig new = pm.
Proof.
  intros HB. pose proof HB as [HP HN]. exists (map (map (fun o => nth o pm 0)) orig).
  assert (L : length pm = n) by (rewrite <- (Permutation_length HP); apply seq_length).
  assert (ND : NoDup pm) by (apply (Permutation_NoDup HP), seq_NoDup).
  assert (F2 : Forall2 (@Permutation nat) orig (map (map (fun o => nth o pm 0)) orig)).
  { assert (G : Forall (fun l => exists nm, l = occ names n nm) orig).
    { apply Forall_forall. intros l Hl. apply in_map_iff in Hl as ([nm l'] & <- & H). apply idx_entry in H as [-> _]. exists nm. reflexivity. }
    induction G as [|l ls [nm ->] G IH]; [constructor|]. cbn [map]. constructor; [|exact IH].
    symmetry. apply NoDup_Permutation_bis.
    * assert (I : forall l, NoDup l -> Forall (fun i => i < n) l -> NoDup (map (fun o => nth o pm 0) l)).
      { clear - ND L. induction l as [|x l IH]; intros H1 H2; [constructor|]. apply NoDup_cons_iff in H1 as [Hx H1]. apply Forall_cons_iff in H2 as [H2 H3]. cbn. constructor; [|auto].
        intros X. apply in_map_iff in X as (y & E & Hy). rewrite Forall_forall in H3. specialize (H3 y Hy). apply Hx.
        rewrite (NoDup_nth pm 0) in ND. rewrite <- (ND y x); auto; lia. }
      apply I; [apply asc_NoDup, occ_asc|]. apply Forall_forall. intros i Hi. now apply occ_in in Hi.
    * now rewrite map_length.
    * intros x Hx. apply in_map_iff in Hx as (i & <- & Hi). apply occ_in in Hi as [Hi <-]. apply occ_in. split; [now apply bosePerm_lt|now apply HN]. }
  split; [exact F2|]. apply (nth_ext _ _ 0 0); [now rewrite bmap_length|]. rewrite bmap_length. intros i Hi.
  apply bmap_pairs; [now apply perm_lengths|]. rewrite concat_map_pairs. apply in_map_iff. exists i. split; [reflexivity|now apply orig_in].
Qed.
Lemma bmap_inj a b : Forall2 (@Permutation nat) orig a -> Forall2 (@Permutation nat) orig b -> bmap n orig a = bmap n orig b -> a = b.
Proof.
  intros Ha Hb E.
  assert (G : forall (pm : list nat) or new, Forall2 (fun o q : list nat => length q = length o) or new ->
    (forall o q, In (o, q) (pairs or new) -> nth o pm 0 = q) -> new = map (map (fun o => nth o pm 0)) or).
  { clear. intros pm or new HL. unfold pairs. induction HL as [|l q o' new' H1 H2 IH]; intros HP; [reflexivity|]. cbn [map].
    cbn [List.combine flat_map fst snd] in HP. f_equal.
    - rewrite <- (combine_snd l q H1) at 1. rewrite <- (combine_fst l q H1) at 2. symmetry. apply map_nth_pairs. intros o q0 Hin. apply HP. apply in_app_iff. now left.
    - apply IH. intros o q0 Hin. apply HP. apply in_app_iff. now right. }
  rewrite (G (bmap n orig a) orig a), (G (bmap n orig a) orig b); [reflexivity| | | |].
  - now apply perm_lengths.
  - intros o q Hin. rewrite E. apply bmap_pairs; [now apply perm_lengths|exact Hin].
  - now apply perm_lengths.
  - intros o q Hin. apply bmap_pairs; [now apply perm_lengths|exact Hin].
Qed.
End Names.

Lemma filter_length_le {A} (f : A -> bool) l : length (filter f l) <= length l.
Proof. induction l as [|x l IH]; cbn; [lia|]. destruct (f x); cbn; lia. Qed.
Lemma len_refl (l : list (list nat)) : Forall2 (fun o q => length q = length o) l l.
Proof. induction l; constructor; auto. Qed.
Lemma pairs_diag i (or : list (list nat)) : In i (concat or) -> In (i, i) (pairs or or).
Proof.
  unfold pairs. intros X. induction or as [|l ls IH]; [destruct X|]. cbn [concat List.combine flat_map fst snd] in *. apply in_app_iff in X. apply in_app_iff. destruct X as [X|X]; [left|right; auto].
  clear - X. induction l as [|x l IH]; [destruct X|]. cbn. destruct X as [->|X]; [now left|right; auto].
Qed.
Lemma prodFact_right l : prodFact (map (@length nat) l) = fold_right (fun l a => (INR (fact (length l)) * a)%R) 1%R l.
Proof.
  unfold prodFact. assert (G : forall l a, fold_left (fun a n => (a * INR (fact n))%R) (map (@length nat) l) a = (a * fold_right (fun l a => (INR (fact (length l)) * a)%R) 1%R l)%R).
  { clear. induction l as [|x l IH]; intros a; cbn [map fold_left fold_right]; [ring|]. rewrite IH. ring. }
  rewrite G. ring.
Qed.
Lemma orig_nonempty names : names <> [] -> exists x r, map snd (fsIndices names) = x :: r.
Proof.
  intros H. destruct (map snd (fsIndices names)) as [|x r] eqn:E; [|eauto]. exfalso. destruct names as [|a names]; [congruence|].
  pose proof (proj2 (orig_in (a :: names) 0) ltac:(cbn; lia)) as X. rewrite E in X. destruct X.
Qed.
(* the terms, explicitly *)
Lemma getBose_eq names : names <> [] -> getBoseSymmetrization names =
  Some (map (fun qs => ST (RtoC (1 / sqrt (prodFact (map (@length nat) (map snd (fsIndices names)))))) (bmap (length names) (map snd (fsIndices names)) qs)) (prodPerms (map snd (fsIndices names)))).
Proof.
  intros H. unfold getBoseSymmetrization. destruct (orig_nonempty names H) as (x & r & E).
  pose proof (genBose_ok (length names) (map snd (fsIndices names)) (fact (length names)) (bmap (length names) (map snd (fsIndices names))) (map snd (fsIndices names)) [] [] (length r)) as G.
  cbn [length app] in G. rewrite E in *. rewrite G.
  - cbn [bnd snd]. f_equal. rewrite map_map. reflexivity.
  - reflexivity.
  - rewrite <- E. apply orig_asc.
  - rewrite <- E. apply Forall_forall. intros l Hl. apply fact_le. apply in_map_iff in Hl as ([nm l'] & <- & Hl). apply idx_entry in Hl as [-> _]. cbn [snd].
    unfold occ. etransitivity; [apply filter_length_le|]. now rewrite seq_length.
  - intros qs Hqs. rewrite map_id in Hqs || (apply in_map_iff in Hqs as (q & <- & Hqs); cbn [app]). apply prodPerms_in in Hqs. apply buildMap_ok. now apply perm_lengths.
Qed.

(* Bose symmetrisation yields every relabelling of identical particles, each once, the identity first; all terms have the
   same factor and the squares of the factors add up to 1. *)
Theorem C51_bose_symmetrization : forall names, names <> [] -> exists f terms, getBoseSymmetrization names = Some terms /\
  NoDup (map stMap terms) /\ (forall pm, In pm (map stMap terms) <-> bosePerm names pm) /\
  (exists rest, map stMap terms = List.seq 0 (length names) :: rest) /\
  Forall (fun t => stFactor t = RtoC f) terms /\ (0 < f)%R /\ (INR (length terms) * (f * f) = 1)%R.
Proof.
  intros names H. rewrite (getBose_eq names H). eexists _, _. split; [reflexivity|]. set (or := map snd (fsIndices names)).
  rewrite map_map. cbn [stMap]. split; [|split; [|split; [|split]]].
  - assert (G : forall L, NoDup L -> (forall x, In x L -> Forall2 (@Permutation nat) or x) -> NoDup (map (bmap (length names) or) L)).
    { induction L as [|x L IH]; intros HN HF; [constructor|]. apply NoDup_cons_iff in HN as [Hx HN]. cbn. constructor; [|apply IH; auto; intros y Hy; apply HF; now right].
      intros X. apply in_map_iff in X as (y & Ey & Hy). apply Hx. rewrite <- (bmap_inj names y x); auto; apply HF; [now right|now left]. }
    apply G; [apply prodPerms_nodup; eapply Forall_impl; [|apply orig_asc]; intros l; apply asc_NoDup|]. intros x. apply prodPerms_in.
  - intros pm. rewrite in_map_iff. split.
    + intros (qs & <- & Hq). apply bmap_bosePerm. now apply prodPerms_in.
    + intros Hp. apply bosePerm_bmap in Hp as (new & Hn & <-). exists new. split; [reflexivity|]. now apply prodPerms_in.
  - destruct (prodPerms_hd or) as [T ->]; [apply orig_asc|]. cbn [map]. eexists. f_equal.
    apply (nth_ext _ _ 0 0); [now rewrite bmap_length, seq_length|]. rewrite bmap_length. intros i Hi. rewrite seq_nth by exact Hi. cbn.
    apply bmap_pairs; [apply len_refl|]. apply pairs_diag. now apply orig_in.
  - apply Forall_forall. intros t Ht. apply in_map_iff in Ht as (qs & <- & _). reflexivity.
  - rewrite map_length, prodPerms_length, prodFact_right. fold or. set (P := fold_right _ _ _).
    assert (HP : (0 < P)%R). { unfold P. clearbody or. clear. induction or as [|l ls IH]; cbn; [lra|]. apply Rmult_lt_0_compat; [|exact IH]. apply lt_0_INR, lt_O_fact. }
    pose proof (sqrt_lt_R0 P HP) as HS. split; [apply Rdiv_lt_0_compat; lra|].
    rewrite <- (sqrt_sqrt P) at 1 by lra. field. lra.
Qed.

Example C51_ex : exists terms, getBoseSymmetrization [lit "pi-"%string; lit "pi+"%string; lit "pi-"%string] = Some terms /\
  map stMap terms = [[0; 1; 2]; [2; 1; 0]].
Proof. eexists. split; [rewrite getBose_eq by discriminate; reflexivity|]. reflexivity. Qed.

(* all permutations of all groups (used by the isospin symmetrisation) *)
Lemma sortN_perm l : Permutation l (sortN l).
Proof.
  induction l as [|x l IH]; [constructor|]. cbn. fold (sortN l). transitivity (x :: sortN l); [now constructor|]. clear IH. induction (sortN l) as [|y t IH]; [reflexivity|].
  cbn [insertN]. destruct (x <? y); [reflexivity|]. transitivity (y :: x :: t); [constructor|]. now constructor.
Qed.
Lemma sortN_asc l : NoDup l -> asc (sortN l).
Proof.
  induction l as [|x l IH]; intros H; [constructor|]. apply NoDup_cons_iff in H as [Hx H]. cbn. fold (sortN l). specialize (IH H).
  assert (Hs : ~ In x (sortN l)) by (intros X; apply Hx; now apply (Permutation_in x (Permutation_sym (sortN_perm l)))).
  clear Hx H. induction (sortN l) as [|y t IHt]; [repeat constructor|]. inversion IH as [|? ? H1 H2]; subst. cbn [insertN]. destruct (x <? y) eqn:E.
  - apply Nat.ltb_lt in E. constructor; [exact IH|]. constructor; [exact E|]. eapply Forall_impl; [|exact H2]. cbn. intros; lia.
  - apply Nat.ltb_ge in E. constructor.
    + apply IHt; [exact H1|]. intros X. apply Hs. now right.
    + assert (Hy : y < x). { destruct (Nat.eq_dec x y) as [->|]; [exfalso; apply Hs; now left|lia]. }
      clear - Hy H2. induction t as [|z t IH]; [constructor; auto|]. apply Forall_cons_iff in H2 as [A B]. cbn [insertN]. destruct (x <? z); constructor; auto.
Qed.
Lemma collect_ok fuel f cur : asc cur -> fact (length cur) <= fuel -> collect fuel f cur = Some (flat_map f (lexPerms (length cur) cur)).
Proof.
  intros Ha Hf. unfold collect. destruct (lexPerms_linked (length cur) cur eq_refl Ha) as [HL HT].
  rewrite (permLoop_collect (fun x : list nat => x) (fun l _ => l) f _ (lexPerms (length cur) cur) fuel cur [] cur); auto.
  now rewrite lexPerms_length.
Qed.
Lemma Forall2_rev {A B} (P : A -> B -> Prop) a b : Forall2 P a b -> Forall2 P (rev a) (rev b).
Proof. intros H. induction H; [constructor|]. cbn. apply Forall2_app; [assumption|]. now constructor. Qed.
Theorem C51_group_permutations : forall groups fuel, groups <> [] -> Forall (@NoDup nat) groups -> Forall (fun g => fact (length g) <= fuel) groups ->
  exists L, getAllGroupPermutations fuel groups = Some L /\ NoDup L /\ forall qs, In qs L <-> Forall2 (@Permutation nat) groups qs.
Proof.
  intros groups fuel Hne HN HF. unfold getAllGroupPermutations. set (rg := rev groups).
  assert (G : forall rg, rg <> [] -> Forall (@NoDup nat) rg -> Forall (fun g => fact (length g) <= fuel) rg ->
    exists L, groupPermutations fuel rg = Some L /\ NoDup L /\ forall qs, In qs L <-> Forall2 (@Permutation nat) rg (rev qs)).
  { clear. induction rg as [|g rg IH]; intros Hne HN HF; [congruence|]. apply Forall_cons_iff in HN as [N1 N2]. apply Forall_cons_iff in HF as [F1 F2].
    assert (Hl : length (sortN g) = length g) by (symmetry; apply Permutation_length, sortN_perm).
    assert (HA : asc (sortN g)) by now apply sortN_asc.
    assert (LP : forall p, In p (lexPerms (length (sortN g)) (sortN g)) <-> Permutation g p).
    { intros p. rewrite lexPerms_in by reflexivity. split; intros H; [transitivity (sortN g); [apply sortN_perm|exact H]|transitivity g; [symmetry; apply sortN_perm|exact H]]. }
    assert (LN : NoDup (lexPerms (length (sortN g)) (sortN g))) by (apply lexPerms_nodup; [reflexivity|now apply asc_NoDup]).
    destruct rg as [|g' rg].
    - cbn [groupPermutations]. rewrite collect_ok by (exact HA || now rewrite Hl). eexists. split; [reflexivity|]. split.
      + rewrite flat_map_concat_map. clear - LN. induction LN as [|x l Hx HN IH]; [constructor|]. cbn. constructor; [|exact IH].
        intros X. apply Hx. clear - X. induction l as [|y l IH]; [destruct X|]. cbn in X. destruct X as [E|X]; [left; congruence|right; auto].
      + intros qs. rewrite in_flat_map. split.
        * intros (p & Hp & [<-|[]]). cbn. constructor; [now apply LP|constructor].
        * intros H. inversion H as [|? q ? t H1 H2 E1 E2]; subst. inversion H2; subst. exists q. split; [now apply LP|]. left. rewrite <- (rev_involutive qs), <- E2. reflexivity.
    - destruct (IH ltac:(discriminate) N2 F2) as (sub & Es & Ns & Is). cbn [groupPermutations] in *. rewrite Es. cbn [bnd]. rewrite collect_ok by (exact HA || now rewrite Hl).
      eexists. split; [reflexivity|]. split.
      + clear - LN Ns. induction LN as [|x l Hx HN IH]; [constructor|]. cbn [flat_map]. apply NoDup_app2; [|exact IH|].
        * apply FinFun.Injective_map_NoDup; [intros a b E; now apply app_inj_tail in E|exact Ns].
        * intros z Hz Hz'. apply in_map_iff in Hz as (a & <- & _). apply in_flat_map in Hz' as (y & Hy & Hz). apply in_map_iff in Hz as (b & E & _). apply app_inj_tail in E as [_ ->]. tauto.
      + intros qs. rewrite in_flat_map. split.
        * intros (p & Hp & H). apply in_map_iff in H as (a & <- & Ha). rewrite rev_app_distr. cbn. constructor; [now apply LP|now apply Is].
        * intros H. inversion H as [|? q ? t H1 H2 E1 E2]; subst. exists q. split; [now apply LP|]. apply in_map_iff. exists (rev t). split; [rewrite <- (rev_involutive qs), <- E2; reflexivity|].
          apply Is. now rewrite rev_involutive. }
  destruct (G rg) as (L & E & N & I).
  - unfold rg. intros X. apply Hne. rewrite <- (rev_involutive groups), X. reflexivity.
  - now apply Forall_rev.
  - now apply Forall_rev.
  - exists L. split; [exact E|]. split; [exact N|]. intros qs. rewrite I. unfold rg. split; intros H.
    + apply Forall2_rev in H. now rewrite !rev_involutive in H.
    + now apply Forall2_rev.
Qed.

(* ---------------- exchange of identical particles ---------------- *)
Lemma amp_csum {V} (d : V) cache nFs amp terms : forall a, fold_left (fun a t => (a + stFactor t * symTermAmp d cache nFs amp (stMap t))%C) terms a =
  fold_left Cplus (map (fun t => stFactor t * symTermAmp d cache nFs amp (stMap t))%C terms) a.
Proof. induction terms as [|t terms IH]; intros a; [reflexivity|]. cbn. apply IH. Qed.
Lemma csum_perm l1 l2 : Permutation l1 l2 -> forall a, fold_left Cplus l1 a = fold_left Cplus l2 a.
Proof.
  intros H. induction H; intros a; cbn; auto.
  - f_equal. rewrite <- !Cplus_assoc. f_equal. apply Cplus_comm.
  - now rewrite IHPermutation1.
Qed.
Lemma flat_map_perm {A B} (f g : A -> list B) l : (forall x, In x l -> Permutation (f x) (g x)) -> Permutation (flat_map f l) (flat_map g l).
Proof. induction l as [|x l IH]; intros H; [constructor|]. cbn. apply Permutation_app; [apply H; now left|apply IH; intros y Hy; apply H; now right]. Qed.
Lemma map_nth_seq {A} (f : nat -> A) n i d : i < n -> nth i (map f (List.seq 0 n)) d = f i.
Proof. intros H. rewrite nth_indep with (d' := f 0) by (now rewrite map_length, seq_length). rewrite map_nth, seq_nth by exact H. reflexivity. Qed.

(* momenta after relabelling the particles *)
Definition relabel {V} (d : V) (s : list nat) (momenta : list V) : list V := map (fun i => nth (nth i s 0) momenta d) (List.seq 0 (length momenta)).
Definition comp (s b : list nat) : list nat := map (fun i => nth (nth i b 0) s 0) (List.seq 0 (length b)).
Lemma bosePerm_len names s : bosePerm names s -> length s = length names.
Proof. intros [H _]. rewrite <- (Permutation_length H). apply seq_length. Qed.
Lemma comp_bose names s b : bosePerm names s -> bosePerm names b -> bosePerm names (comp s b).
Proof.
  intros Hs Hb. pose proof (bosePerm_len _ _ Hs) as Ls. pose proof (bosePerm_len _ _ Hb) as Lb. split.
  - unfold comp. rewrite Lb. destruct Hs as [Ps _], Hb as [Pb _].
    assert (E : map (fun i => nth (nth i b 0) s 0) (List.seq 0 (length names)) = map (fun j => nth j s 0) b).
    { transitivity (map (fun j => nth j s 0) (map (fun i => nth i b 0) (List.seq 0 (length b)))); [now rewrite map_map, Lb|now rewrite nth_seq_id]. }
    rewrite E. transitivity s; [exact Ps|]. transitivity (map (fun j => nth j s 0) (List.seq 0 (length s))); [now rewrite nth_seq_id|]. rewrite Ls. now apply Permutation_map.
  - intros i Hi. unfold comp. rewrite Lb, map_nth_seq by exact Hi. destruct Hs as [Ps Hs]. rewrite Hs by now apply bosePerm_lt. now apply Hb.
Qed.
Lemma comp_inj names s a b : bosePerm names s -> bosePerm names a -> bosePerm names b -> comp s a = comp s b -> a = b.
Proof.
  intros Hs Ha Hb E. pose proof (bosePerm_len _ _ Ha) as La. pose proof (bosePerm_len _ _ Hb) as Lb. pose proof (bosePerm_len _ _ Hs) as Ls.
  apply (nth_ext _ _ 0 0); [congruence|]. intros i Hi. rewrite La in Hi.
  assert (X : nth i (comp s a) 0 = nth i (comp s b) 0) by congruence. unfold comp in X. rewrite La, Lb, !map_nth_seq in X by exact Hi.
  assert (ND : NoDup s) by (destruct Hs as [Ps _]; apply (Permutation_NoDup Ps), seq_NoDup). rewrite (NoDup_nth s 0) in ND.
  apply ND; [rewrite Ls; now apply bosePerm_lt|rewrite Ls; now apply bosePerm_lt|exact X].
Qed.

(* For every decay (an arbitrary function of the momenta of the final-state particles), every set of isospin terms and every
   event, exchanging the momenta of identical particles leaves the symmetrised amplitude unchanged. *)
Theorem C66_exchange_invariance : forall V (d : V) names iso terms amp momenta s,
  initSymTermMaps names iso true = Some terms ->
  (forall l t, iso = Some l -> In t l -> length (stMap t) = length names /\ Forall (fun i => i < length names) (stMap t)) ->
  length momenta = length names -> bosePerm names s ->
  amplitude d (relabel d s momenta) (length names) amp terms = amplitude d momenta (length names) amp terms.
Proof.
  intros V d names iso terms amp momenta s HT Hiso Hm Hs. set (n := length names) in *. unfold initSymTermMaps in HT.
  match type of HT with bnd ?e _ = _ => destruct e as [isoMaps|] eqn:EI; [|discriminate HT] end. cbn [bnd] in HT.
  assert (HI : Forall (fun t => length (stMap t) = n /\ Forall (fun i => i < n) (stMap t)) isoMaps).
  { destruct iso as [l|].
    - assert (G : Forall (fun t => length (stMap t) = n /\ Forall (fun i => i < n) (stMap t)) l) by (apply Forall_forall; intros t Ht; now apply (Hiso l t)).
      destruct l as [|t1 [|t2 l]]; [discriminate EI| |].
      + injection EI as <-. apply Forall_cons_iff in G as [G _]. repeat constructor; apply G.
      + destruct (forallb _ _) in EI; [|discriminate EI]. injection EI as <-. exact G.
    - injection EI as <-. repeat constructor; cbn; [apply seq_length|]. apply Forall_forall. intros i Hi. apply in_seq in Hi. lia. }
  clear EI Hiso.
  assert (Hne : names <> []).
  { intros ->. cbn in HT. discriminate HT. }
  destruct (C51_bose_symmetrization names Hne) as (f & bt & EB & ND & BI & _ & HF & _). rewrite EB in HT. cbn [bnd] in HT.
  assert (HT' : terms = flat_map (fun i => map (fun b => ST (stFactor i * stFactor b)%C (composeMaps (stMap i) (stMap b))) bt) isoMaps).
  { destruct bt; [discriminate HT|]. now injection HT as <-. }
  subst terms. clear HT. unfold amplitude. rewrite !amp_csum. apply csum_perm. rewrite !flat_map_concat_map, !concat_map, !map_map, <- !flat_map_concat_map.
  apply flat_map_perm. intros i Hi. rewrite !map_map. cbn [stFactor stMap]. rewrite Forall_forall in HI. destruct (HI i Hi) as [Li Fi].
  (* all terms have the same factor *)
  assert (E : forall c, map (fun b => (stFactor i * stFactor b * symTermAmp d c n amp (composeMaps (stMap i) (stMap b)))%C) bt =
    map (fun pm => (stFactor i * RtoC f * symTermAmp d c n amp (composeMaps (stMap i) pm))%C) (map stMap bt)).
  { intros c. rewrite map_map. apply map_ext_in. intros t Ht. rewrite Forall_forall in HF. now rewrite (HF t Ht). }
  rewrite !E. clear E.
  assert (R : forall pm, In pm (map stMap bt) -> symTermAmp d (relabel d s momenta) n amp (composeMaps (stMap i) pm) = symTermAmp d momenta n amp (composeMaps (stMap i) (comp s pm))).
  { intros pm Hp. apply BI in Hp. pose proof (bosePerm_len _ _ Hp) as Lp. unfold symTermAmp, revertMomenta.
    assert (L1 : length (composeMaps (stMap i) pm) = n) by (unfold composeMaps; rewrite map_length, seq_length; exact Lp).
    assert (L2 : length (composeMaps (stMap i) (comp s pm)) = n) by (unfold composeMaps, comp; rewrite !map_length, !seq_length; exact Lp).
    assert (L3 : length (relabel d s momenta) = n) by (unfold relabel; rewrite map_length, seq_length; exact Hm).
    rewrite L1, L2, L3, Hm, !Nat.eqb_refl. cbn [andb]. f_equal. apply map_ext_in. intros j Hj. apply in_seq in Hj.
    unfold composeMaps. rewrite map_nth_seq by (rewrite Lp; fold n; lia).
    assert (Lc : length (comp s pm) = n) by (unfold comp; rewrite map_length, seq_length; exact Lp). rewrite map_nth_seq by (rewrite Lc; lia).
    assert (Hij : nth j (stMap i) 0 < n) by (rewrite Forall_forall in Fi; apply Fi, nth_In; lia).
    unfold comp. rewrite map_nth_seq by (rewrite Lp; exact Hij). unfold relabel. rewrite map_nth_seq; [reflexivity|]. rewrite Hm. now apply bosePerm_lt. }
  transitivity (map (fun pm => (stFactor i * RtoC f * symTermAmp d momenta n amp (composeMaps (stMap i) pm))%C) (map (comp s) (map stMap bt))).
  - rewrite (map_map (comp s)). erewrite map_ext_in; [reflexivity|]. intros pm Hp. cbn. now rewrite R.
  - apply Permutation_map. apply NoDup_Permutation_bis.
    + assert (G : forall L, NoDup L -> (forall x, In x L -> bosePerm names x) -> NoDup (map (comp s) L)).
      { induction L as [|x L IH]; intros HN HP; [constructor|]. apply NoDup_cons_iff in HN as [Hx HN]. cbn. constructor; [|apply IH; auto; intros y Hy; apply HP; now right].
        intros X. apply in_map_iff in X as (y & Ey & Hy). apply Hx. rewrite <- (comp_inj names s y x); auto; apply HP; [now right|now left]. }
      apply G; [exact ND|]. intros x. apply BI.
    + rewrite !map_length. apply le_n.
    + intros x Hx. apply in_map_iff in Hx as (y & <- & Hy). apply BI. apply comp_bose; [exact Hs|now apply BI].
Qed.

Example C66_ex : exists terms, initSymTermMaps [lit "pi-"%string; lit "pi+"%string; lit "pi-"%string] None true = Some terms /\ bosePerm [lit "pi-"%string; lit "pi+"%string; lit "pi-"%string] [2; 1; 0].
Proof.
  eexists. split.
  - unfold initSymTermMaps. rewrite getBose_eq by discriminate. cbn [bnd]. reflexivity.
  - split; [apply NoDup_Permutation; [apply seq_NoDup|repeat constructor; cbn; intuition lia|intros x; cbn; intuition lia]|].
    intros [|[|[|i]]] Hi; cbn in *; try reflexivity; lia.
Qed.

Example C51_group_ex : exists L, getAllGroupPermutations 2 [[3; 1]; [0]] = Some L /\ length L = 2.
Proof. eexists. split; [reflexivity|reflexivity]. Qed.
