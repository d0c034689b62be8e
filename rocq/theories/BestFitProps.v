(* C34: selection of the best fit result per multibin *)
From Coq Require Import String List ZArith Reals Bool Lia Lra Sorting.Sorted Sorting.Permutation.
From Verif Require Import PathModel StrModel CGBoxModel BestFitModel.
Import ListNotations.
Open Scope list_scope.

(* ---------------- specification ---------------- *)
(* the results of bin k that take part, in input order *)
Definition candidates (onlyConv : bool) (files : list (list res)) (k : str) : list res :=
  filter (fun r => str_eqb (r_bin r) k && (negb onlyConv || r_conv r)) (concat files).
Definition noNaN (files : list (list res)) : Prop := forall r, In r (concat files) -> r_lik r <> None.
(* value of a likelihood that is not NaN *)
Definition val (r : res) : R := match r_lik r with Some x => x | None => 0%R end.
(* position i of l holds the first result of minimal likelihood among those fulfilling p *)
Definition firstBestAt (p : res -> bool) (l : list res) (i : nat) : Prop :=
  exists r, nth_error l i = Some r /\ p r = true /\
    forall j r', nth_error l j = Some r' -> p r' = true -> (val r <= val r')%R /\ ((j < i)%nat -> (val r < val r')%R).
Definition anyRes (_ : res) : bool := true.

(* ---------------- proofs ---------------- *)
Lemma firstBest_unique p l i j : firstBestAt p l i -> firstBestAt p l j -> i = j.
Proof.
  intros (r & E & P & H) (r' & E' & P' & H'). destruct (H _ _ E' P') as [A B], (H' _ _ E P) as [A' B'].
  destruct (Nat.lt_trichotomy i j) as [L|[L|L]]; auto; [specialize (B' L)|specialize (B L)]; lra.
Qed.
Lemma nth_snoc {X} (l : list X) x j y : nth_error (l ++ [x]) j = Some y -> nth_error l j = Some y /\ (j < length l)%nat \/ j = length l /\ y = x.
Proof.
  intros H. destruct (Nat.lt_ge_cases j (length l)) as [L|L].
  - left. rewrite nth_error_app1 in H; auto.
  - right. rewrite nth_error_app2 in H by auto. destruct (j - length l)%nat as [|m] eqn:E; cbn in H.
    + injection H as <-. split; [lia|auto].
    + destruct m; discriminate.
Qed.
Lemma firstBest_snoc_keep p l i x r : firstBestAt p l i -> nth_error l i = Some r -> (p x = true -> (val r <= val x)%R) -> firstBestAt p (l ++ [x]) i.
Proof.
  intros (r0 & E & P & H) E' Hx. rewrite E in E'. injection E' as ->. exists r.
  assert (L : (i < length l)%nat) by (apply nth_error_Some; congruence).
  split; [rewrite nth_error_app1; auto|]. split; auto. intros j r' Ej Pj. apply nth_snoc in Ej as [[Ej Lj]|[-> ->]]; auto.
  split; [auto|lia].
Qed.
Lemma firstBest_snoc_new p l i x r : firstBestAt p l i -> nth_error l i = Some r -> p x = true -> (val x < val r)%R -> firstBestAt p (l ++ [x]) (length l).
Proof.
  intros (r0 & E & P & H) E' Px Hx. rewrite E in E'. injection E' as ->. exists x.
  split; [rewrite nth_error_app2, Nat.sub_diag by auto; reflexivity|]. split; auto. intros j r' Ej Pj.
  apply nth_snoc in Ej as [[Ej Lj]|[-> ->]]; [|split; [lra|lia]]. destruct (H _ _ Ej Pj). split; [lra|intros; lra].
Qed.
Lemma firstBest_snoc_first p l x : existsb p l = false -> p x = true -> firstBestAt p (l ++ [x]) (length l).
Proof.
  intros N Px. exists x. split; [rewrite nth_error_app2, Nat.sub_diag by auto; reflexivity|]. split; auto. intros j r' Ej Pj.
  apply nth_snoc in Ej as [[Ej Lj]|[-> ->]]; [|split; [lra|lia]]. exfalso.
  assert (existsb p l = true) by (apply existsb_exists; exists r'; split; auto; eapply nth_error_In; eauto). congruence.
Qed.

(* what the maps hold about the entries c (of one bin) seen so far; the position is
   meaningful only if [exact] *)
Definition bestOk (exact : bool) (p : res -> bool) (c : list (pos * res)) (m : list (str * (lik * pos * nat))) (k : str) : Prop :=
  match m_find k m with
  | None => existsb p (map snd c) = false
  | Some (x, q, i) => exists i' r, (exact = true -> i = i') /\ nth_error c i' = Some (q, r) /\ r_lik r = x /\ firstBestAt p (map snd c) i'
  end.
Lemma nth_map_some {X Y} (f : X -> Y) l i x : nth_error l i = Some x -> nth_error (map f l) i = Some (f x).
Proof. intros H. rewrite nth_error_map, H. reflexivity. Qed.
Lemma bestOk_step ex p c m k q r it : StronglySorted key_lt m -> r_bin r = k -> p r = true -> r_lik r <> None ->
  (forall e, In e c -> r_lik (snd e) <> None) -> (ex = true -> it = length c) ->
  bestOk ex p c m k -> bestOk ex p (c ++ [(q, r)]) (updBest m q r it) k.
Proof.
  intros S Hk P Hn Hc Hit H. unfold bestOk, updBest in *. rewrite Hk, map_app. cbn [map snd].
  destruct (m_find k m) as [[[x q0] i]|] eqn:E.
  - destruct H as (i' & r0 & Hi & E0 & Ex & F). pose proof (nth_map_some snd _ _ _ E0) as E1. cbn [snd] in E1.
    assert (Hr0 : r_lik r0 <> None) by (apply (Hc (q0, r0)); eapply nth_error_In; eauto).
    destruct (ltL (r_lik r) x) eqn:L.
    + rewrite m_find_set, str_eqb_refl by auto. exists (length c), r. split; auto.
      split; [rewrite nth_error_app2, Nat.sub_diag by auto; reflexivity|].
      split; auto. rewrite <- (map_length snd c). eapply firstBest_snoc_new; eauto.
      rewrite <- Ex in L. unfold ltL, val in *. destruct (r_lik r), (r_lik r0); try discriminate. now destruct (Rlt_dec _ _).
    + rewrite E. exists i', r0. split; auto. split; [rewrite nth_error_app1; [auto|]; apply nth_error_Some; congruence|]. split; auto.
      eapply firstBest_snoc_keep; eauto. intros _. rewrite <- Ex in L. unfold ltL, val in *. destruct (r_lik r), (r_lik r0); try congruence.
      destruct (Rlt_dec _ _); [discriminate|lra].
  - rewrite m_find_set, str_eqb_refl by auto. exists (length c), r. split; auto.
    split; [rewrite nth_error_app2, Nat.sub_diag by auto; reflexivity|].
    split; auto. rewrite <- (map_length snd c). now apply firstBest_snoc_first.
Qed.
Lemma bestOk_skip ex p c m k q r : p r = false -> bestOk ex p c m k -> bestOk ex p (c ++ [(q, r)]) m k.
Proof.
  intros P. unfold bestOk. rewrite map_app. cbn [map snd]. destruct (m_find k m) as [[[x q0] i]|].
  - intros (i' & r0 & Hi & E0 & Ex & F). exists i', r0. split; auto. split; [rewrite nth_error_app1; [auto|]; apply nth_error_Some; congruence|]. split; auto.
    eapply firstBest_snoc_keep; eauto; [apply nth_map_some with (f := snd) in E0; exact E0|congruence].
  - intros H. rewrite existsb_app, H. cbn. now rewrite P.
Qed.
Lemma updBest_sorted m q r i : StronglySorted key_lt m -> StronglySorted key_lt (updBest m q r i).
Proof.
  intros S. unfold updBest. destruct (m_find _ m) as [[[x ?] ?]|]; [destruct (ltL _ _)|]; auto using m_set_sorted.
Qed.
Lemma updBest_other m q r i k : StronglySorted key_lt m -> r_bin r <> k -> m_find k (updBest m q r i) = m_find k m.
Proof.
  intros S N. assert (E : str_eqb k (r_bin r) = false) by (apply str_eqb_neq; congruence).
  unfold updBest. destruct (m_find _ m) as [[[x ?] ?]|]; [destruct (ltL _ _)|]; auto; now rewrite m_find_set, E by auto.
Qed.
Lemma bestOk_other ex p c m k q r i : StronglySorted key_lt m -> r_bin r <> k -> bestOk ex p c m k -> bestOk ex p c (updBest m q r i) k.
Proof. intros S N. unfold bestOk. now rewrite updBest_other. Qed.

Definition sel (onlyConv : bool) (k : str) (e : pos * res) : bool := str_eqb (r_bin (snd e)) k && (negb onlyConv || r_conv (snd e)).
Record inv (onlyBest strip onlyConv : bool) (P : list (pos * res)) (s : state) : Prop := mkInv {
  i_sl : StronglySorted key_lt (s_lists s); i_sa : StronglySorted key_lt (s_all s);
  i_sb : StronglySorted key_lt (s_best s); i_sc : StronglySorted key_lt (s_cbest s);
  i_all : forall k, In k (map fst (s_all s)) <-> filter (sel onlyConv k) P <> [];
  i_best : forall k, bestOk (negb onlyBest) anyRes (filter (sel onlyConv k) P) (s_best s) k;
  i_cbest : onlyBest = false -> forall k, bestOk true r_conv (filter (sel onlyConv k) P) (s_cbest s) k;
  i_lists : forall k, m_find k (s_lists s) = if onlyBest then None else
            match filter (sel onlyConv k) P with [] => None | l => Some (map (fun e => fillFrom (snd e) (negb strip) (negb strip)) l) end }.

Lemma inv_step ob sp oc P s e : (forall e, In e P -> r_lik (snd e) <> None) -> r_lik (snd e) <> None ->
  inv ob sp oc P s -> inv ob sp oc (P ++ [e]) (step ob sp oc s e).
Proof.
  intros HP He [Sl Sa Sb Sc HA HB HC HL]. destruct e as [q r]. cbn [snd] in He.
  assert (HF : forall k, filter (sel oc k) (P ++ [(q, r)]) = filter (sel oc k) P ++ (if sel oc k (q, r) then [(q, r)] else [])).
  { intros k. rewrite filter_app. cbn [filter]. reflexivity. }
  unfold step. destruct (oc && negb (r_conv r)) eqn:Skip.
  - assert (N : forall k, sel oc k (q, r) = false).
    { intros k. unfold sel. cbn [snd]. apply andb_true_iff in Skip as [-> H]. apply negb_true_iff in H. rewrite H. cbn. apply andb_false_r. }
    constructor; auto; intros; try rewrite HF, N, app_nil_r; auto.
  - assert (Y : forall k, sel oc k (q, r) = str_eqb (r_bin r) k).
    { intros k. unfold sel. cbn [snd]. destruct oc, (r_conv r); try discriminate; cbn; apply andb_true_r. }
    assert (LL : ob = false -> length (listOf (r_bin r) (s_lists s)) = length (filter (sel oc (r_bin r)) P)).
    { intros ->. unfold listOf. rewrite HL. destruct (filter _ P); cbn [length]; auto. now rewrite map_length. }
    assert (HPk : forall k e, In e (filter (sel oc k) P) -> r_lik (snd e) <> None) by (intros k e H; apply filter_In in H as [H _]; auto).
    constructor; cbn [s_lists s_all s_best s_cbest].
    + destruct ob; auto using m_set_sorted.
    + auto using m_set_sorted.
    + auto using updBest_sorted.
    + destruct (negb ob && r_conv r); auto using updBest_sorted.
    + intros k. rewrite m_set_keys, HA, HF, Y. destruct (str_eqb (r_bin r) k) eqn:E.
      * apply str_eqb_eq in E. split; [intros _ H; apply app_eq_nil in H as [_ H]; discriminate H|auto].
      * apply str_eqb_neq in E. rewrite app_nil_r. intuition congruence.
    + intros k. rewrite HF, Y. destruct (str_eqb (r_bin r) k) eqn:E.
      * apply str_eqb_eq in E. apply bestOk_step; auto; [apply HPk|]. intros H. apply negb_true_iff in H. rewrite LL by auto. now rewrite E.
      * apply str_eqb_neq in E. rewrite app_nil_r. now apply bestOk_other.
    + intros -> k. cbn [negb andb]. rewrite HF, Y. destruct (str_eqb (r_bin r) k) eqn:E.
      * apply str_eqb_eq in E. destruct (r_conv r) eqn:C.
        -- apply bestOk_step; auto; [apply HPk|]. intros _. rewrite LL by auto. now rewrite E.
        -- now apply bestOk_skip; auto.
      * apply str_eqb_neq in E. rewrite app_nil_r. destruct (r_conv r); auto. now apply bestOk_other; auto.
    + intros k. destruct ob; [apply (HL k)|]. rewrite m_find_set, HF, Y, (str_eqb_sym k) by auto. destruct (str_eqb (r_bin r) k) eqn:E.
      * apply str_eqb_eq in E. unfold listOf. rewrite HL, E. destruct (filter (sel oc k) P) as [|a l]; [reflexivity|].
        cbn [app map]. now rewrite map_app.
      * rewrite app_nil_r. apply (HL k).
Qed.
Lemma inv_fold ob sp oc P : (forall e, In e P -> r_lik (snd e) <> None) -> inv ob sp oc P (fold_left (step ob sp oc) P st0).
Proof.
  induction P as [|e P IH] using rev_ind; intros H.
  - constructor; cbn; try constructor; auto; try (intros; unfold bestOk; reflexivity); try (intros; now destruct ob); try (intros H'; now contradiction H').
  - rewrite fold_left_app. cbn [fold_left]. apply inv_step; [intros; apply H, in_or_app; auto|apply H, in_or_app; cbn; auto|].
    apply IH. intros; apply H, in_or_app; auto.
Qed.

(* positions of the entries *)
Lemma entries_aux (files : list (list res)) n :
  map snd (concat (map (fun f => map (fun e => ((fst f, fst e), snd e)) (List.combine (List.seq 0 (length (snd f))) (snd f)))
              (List.combine (List.seq n (length files)) files))) = concat files.
Proof.
  revert n. induction files as [|f fs IH]; intros n; [reflexivity|]. cbn [List.combine length List.seq map concat fst snd].
  rewrite map_app, IH. f_equal. rewrite map_map. cbn [snd]. generalize 0%nat.
  induction f as [|x f IHf]; intros m; [reflexivity|]. cbn [List.combine length List.seq map snd]. now rewrite IHf.
Qed.
Lemma entries_snd files : map snd (entriesOf files) = concat files.
Proof. apply entries_aux. Qed.
Lemma combine_seq_nth {X} (l : list X) n i x : In (i, x) (List.combine (List.seq n (length l)) l) -> (n <= i)%nat /\ nth_error l (i - n) = Some x.
Proof.
  revert n. induction l as [|y l IH]; intros n; cbn [length List.seq List.combine]; [intros []|]. intros [H|H].
  - injection H as <- <-. now rewrite Nat.sub_diag.
  - apply IH in H as [L H]. split; [lia|]. replace (i - n)%nat with (S (i - S n)) by lia. exact H.
Qed.
Lemma entry_ok files q r : In (q, r) (entriesOf files) -> getEntry files q = Some r.
Proof.
  unfold entriesOf. intros H. apply in_concat in H as (l & Hl & H). apply in_map_iff in Hl as ([i f] & <- & Hf).
  apply in_map_iff in H as ([j x] & H & Hx). cbn [fst snd] in *. injection H as <- <-.
  apply combine_seq_nth in Hf as [_ Hf], Hx as [_ Hx]. rewrite Nat.sub_0_r in Hf, Hx. unfold getEntry. cbn [fst snd]. now rewrite Hf.
Qed.
Lemma filter_map_snd {X Y} (f : Y -> bool) (l : list (X * Y)) : map snd (filter (fun e => f (snd e)) l) = filter f (map snd l).
Proof. induction l as [|[a b] l IH]; cbn; auto. destruct (f b); cbn; now rewrite IH. Qed.
Lemma cand_eq oc files k : map snd (filter (sel oc k) (entriesOf files)) = candidates oc files k.
Proof. unfold candidates, sel. rewrite <- entries_snd. apply filter_map_snd with (f := fun r => str_eqb (r_bin r) k && (negb oc || r_conv r)). Qed.
Lemma noNaN_entries files : noNaN files -> forall e, In e (entriesOf files) -> r_lik (snd e) <> None.
Proof. intros H e He. apply H. rewrite <- entries_snd. now apply in_map. Qed.

(* ---------------- final phases ---------------- *)
Lemma key_nodup {V} (m : list (str * V)) : StronglySorted key_lt m -> NoDup (map fst m).
Proof.
  induction 1 as [|[k v] m S IH F]; cbn; constructor; auto. intros H. apply in_map_iff in H as ([k' v'] & E & H). cbn in E. subst.
  rewrite Forall_forall in F. specialize (F _ H). unfold key_lt in F. cbn in F. now rewrite str_ltb_irrefl in F.
Qed.
Lemma fold_keys (f : str -> list (str * list res) -> option (list (str * list res))) (v : str -> option (list res)) (w : str -> option (list res) -> Prop) keys :
  NoDup keys ->
  (forall k l, In k keys -> StronglySorted key_lt l -> m_find k l = v k ->
     exists l', f k l = Some l' /\ StronglySorted key_lt l' /\ w k (m_find k l') /\ forall k', k' <> k -> m_find k' l' = m_find k' l) ->
  forall l, StronglySorted key_lt l -> (forall k, In k keys -> m_find k l = v k) ->
  exists out, foldO f keys l = Some out /\ StronglySorted key_lt out /\ (forall k, In k keys -> w k (m_find k out)) /\
    (forall k, ~ In k keys -> m_find k out = m_find k l).
Proof.
  induction 1 as [|k keys N ND IH]; intros H l Sl Hl.
  - exists l. cbn. split; auto. split; auto. split; [intros k []|auto].
  - destruct (H k l) as (l' & E & S' & Ew & Eo); auto; [now left|apply Hl; now left|].
    destruct (IH (fun k l Hk => H k l (or_intror Hk)) l' S') as (out & Ef & So & Hw & Ho).
    { intros k' Hk'. rewrite Eo by (intros ->; auto). apply Hl. now right. }
    exists out. cbn [foldO]. rewrite E. split; auto. split; auto. split.
    + intros k' [<-|Hk']; auto. now rewrite Ho.
    + intros k' Hn. rewrite Ho by (intros C; apply Hn; now right). apply Eo. intros ->. apply Hn. now left.
Qed.
Lemma mapO2_find (f : str * list res -> option (str * list res)) (m : list (str * list res)) : (forall e, In e m -> exists l, f e = Some (fst e, l)) ->
  exists out, mapO2 f m = Some out /\ forall k, match m_find k m with None => m_find k out = None
     | Some v => exists l, f (k, v) = Some (k, l) /\ m_find k out = Some l end.
Proof.
  induction m as [|[k0 v0] m IH]; intros H; [exists []; split; auto; intros; reflexivity|].
  destruct (H (k0, v0)) as [l El]; [now left|]. destruct IH as (out & Eo & Ho); [intros; apply H; now right|].
  exists ((k0, l) :: out). cbn [mapO2]. rewrite El. cbn [fst]. change ((fix go l := match l with [] => Some [] | x :: r => do y <- f x; do t <- go r; Some (y :: t) end) m) with (mapO2 f m). rewrite Eo. split; auto.
  intros k. cbn [m_find fst]. destruct (str_eqb k k0) eqn:E; [apply str_eqb_eq in E; subst|]; eauto. apply Ho.
Qed.

(* ---- stable sorting ---- *)
Definition liks (l : list res) : Prop := forall r, In r l -> r_lik r <> None.
Lemma ltL_val a b : r_lik a <> None -> r_lik b <> None -> ltL (r_lik a) (r_lik b) = true <-> (val a < val b)%R.
Proof. unfold ltL, val. destruct (r_lik a), (r_lik b); try congruence. intros _ _. destruct (Rlt_dec _ _); split; auto; discriminate. Qed.
Lemma eqL_val a b : r_lik a <> None -> r_lik b <> None -> eqL (r_lik a) (r_lik b) = true <-> val a = val b.
Proof. unfold eqL, val. destruct (r_lik a), (r_lik b); try congruence. intros _ _. destruct (Req_EM_T _ _); split; auto; discriminate. Qed.
Lemma insertS_perm x l : Permutation (x :: l) (insertS x l).
Proof. induction l as [|y l IH]; cbn; auto. destruct (ltL _ _); auto. etransitivity; [apply perm_swap|]. now constructor. Qed.
Lemma sortS_perm l : Permutation l (sortS l).
Proof. induction l as [|x l IH]; cbn; auto. etransitivity; [|apply insertS_perm]. now constructor. Qed.
Definition leV (a b : res) : Prop := (val a <= val b)%R.
Lemma insertS_sorted x l : liks (x :: l) -> StronglySorted leV l -> StronglySorted leV (insertS x l).
Proof.
  induction l as [|y l IH]; intros H S; cbn; [repeat constructor|]. inversion S as [|? ? S' F]; subst.
  assert (Hx : r_lik x <> None) by (apply H; now left). assert (Hy : r_lik y <> None) by (apply H; right; now left).
  destruct (ltL (r_lik y) (r_lik x)) eqn:E.
  - apply ltL_val in E; auto. constructor.
    + apply IH; auto. intros r [<-|Hr]; auto. apply H. right. now right.
    + apply Forall_forall. intros z Hz. apply (Permutation_in _ (Permutation_sym (insertS_perm x l))) in Hz as [<-|Hz]; [unfold leV; lra|].
      rewrite Forall_forall in F. auto.
  - assert (L : (val x <= val y)%R).
    { destruct (Rlt_dec (val y) (val x)) as [L|L]; [|lra]. apply (ltL_val y x) in L; auto. congruence. }
    constructor; auto. constructor; [exact L|]. apply Forall_forall. intros z Hz. rewrite Forall_forall in F. specialize (F _ Hz). unfold leV in *. lra.
Qed.
Lemma liks_perm l l' : Permutation l l' -> liks l -> liks l'.
Proof. intros P H r Hr. apply H. eapply Permutation_in; [apply Permutation_sym; exact P|auto]. Qed.
Lemma sortS_sorted l : liks l -> StronglySorted leV (sortS l).
Proof.
  induction l as [|x l IH]; intros H; cbn; [constructor|]. apply insertS_sorted.
  - apply (liks_perm (x :: l)); auto. constructor. apply sortS_perm.
  - apply IH. intros r Hr. apply H. now right.
Qed.
(* elements of equal likelihood keep their order *)
Definition withLik (x : R) (r : res) : bool := if Req_EM_T (val r) x then true else false.
Lemma insertS_stable x l v : liks (x :: l) -> filter (withLik v) (insertS x l) = filter (withLik v) (x :: l).
Proof.
  induction l as [|y l IH]; intros H; [reflexivity|]. cbn [insertS]. destruct (ltL (r_lik y) (r_lik x)) eqn:E; [|reflexivity].
  apply ltL_val in E; [|apply H; right; now left|apply H; now left].
  cbn [filter]. rewrite IH by (intros r [<-|Hr]; apply H; [now left|right; now right]). cbn [filter].
  unfold withLik. destruct (Req_EM_T (val x) v), (Req_EM_T (val y) v); auto; lra.
Qed.
Lemma sortS_stable l v : liks l -> filter (withLik v) (sortS l) = filter (withLik v) l.
Proof.
  induction l as [|x l IH]; intros H; [reflexivity|]. cbn [sortS fold_right]. fold (sortS l). rewrite insertS_stable.
  - cbn [filter]. rewrite IH; auto. intros r Hr. apply H. now right.
  - apply (liks_perm (x :: l)); auto. constructor. apply sortS_perm.
Qed.
Lemma sortS_head l i r : liks l -> firstBestAt anyRes l i -> nth_error l i = Some r -> hd_error (sortS l) = Some r.
Proof.
  revert i r. induction l as [|x l IH]; intros i r H (r0 & E0 & _ & F) E; [now destruct i|]. rewrite E in E0. injection E0 as <-.
  cbn [sortS fold_right]. fold (sortS l). assert (Hl : liks l) by (intros z Hz; apply H; now right). assert (Hx : r_lik x <> None) by (apply H; now left).
  destruct i as [|i].
  - cbn in E. injection E as <-. destruct (sortS l) as [|h t] eqn:Es; [reflexivity|]. cbn [insertS].
    assert (Hh : In h l) by (apply (Permutation_in _ (Permutation_sym (sortS_perm l))); rewrite Es; now left).
    destruct (ltL (r_lik h) (r_lik x)) eqn:L; [|reflexivity]. apply ltL_val in L; auto.
    apply In_nth_error in Hh as [j Hj]. destruct (F (S j) h Hj eq_refl) as [A _]. lra.
  - cbn in E. specialize (IH i r Hl). destruct (sortS l) as [|h t] eqn:Es.
    + pose proof (sortS_perm l) as P. rewrite Es in P. apply Permutation_sym, Permutation_nil in P. subst. now destruct i.
    + cbn [hd_error] in IH. assert (Hh : Some h = Some r).
      { apply IH; auto. exists r. split; auto. split; auto. intros j r' Hj _. destruct (F (S j) r' Hj eq_refl) as [A B]. split; auto. intros. apply B. lia. }
      injection Hh as ->. destruct (F O x eq_refl eq_refl) as [_ B]. specialize (B ltac:(lia)).
      cbn [insertS]. rewrite (proj2 (ltL_val r x ltac:(apply Hl; eapply nth_error_In; eauto) Hx)) by exact B. reflexivity.
Qed.

Lemma existsb_any (l : list res) : existsb anyRes l = false <-> l = [].
Proof. destruct l; cbn; split; auto; discriminate. Qed.
Lemma firstBest_exists p l : liks l -> existsb p l = true -> exists i, firstBestAt p l i.
Proof.
  induction l as [|x l IH] using rev_ind; intros H E; [discriminate|]. rewrite existsb_app in E. cbn in E. rewrite orb_false_r in E.
  assert (Hl : liks l) by (intros r Hr; apply H, in_or_app; auto).
  destruct (existsb p l) eqn:El.
  - destruct (IH Hl eq_refl) as [i F]. pose proof F as (r & Er & _). destruct (p x) eqn:Px.
    + destruct (Rlt_dec (val x) (val r)).
      * exists (length l). eapply firstBest_snoc_new; eauto.
      * exists i. eapply firstBest_snoc_keep; eauto. intros _. lra.
    + exists i. eapply firstBest_snoc_keep; eauto. congruence.
  - cbn in E. exists (length l). now apply firstBest_snoc_first.
Qed.
Lemma cand_liks oc files k : noNaN files -> liks (candidates oc files k).
Proof. intros H r Hr. apply filter_In in Hr as [Hr _]. now apply H. Qed.

(* C34, only the best result: the map has exactly the bins that occur among the results that
   take part, and the one entry of a bin is the first result of minimal likelihood with all
   its matrices. *)
Theorem C34_only_best : forall files strip onlyConv, noNaN files ->
  exists out, getFitResults files true strip onlyConv = Some out /\
  forall k, (candidates onlyConv files k = [] -> m_find k out = None) /\
    (candidates onlyConv files k <> [] -> exists i r, firstBestAt anyRes (candidates onlyConv files k) i /\
       nth_error (candidates onlyConv files k) i = Some r /\ m_find k out = Some [r]).
Proof.
  intros files sp oc HN. unfold getFitResults.
  pose proof (inv_fold true sp oc _ (noNaN_entries files HN)) as [Sl Sa Sb Sc HA HB HC HL].
  set (s := fold_left _ _ _) in *.
  assert (Best : forall k, In k (map fst (s_all s)) -> exists q i i' r, m_find k (s_best s) = Some (r_lik r, q, i) /\ getEntry files q = Some r /\
     firstBestAt anyRes (candidates oc files k) i' /\ nth_error (candidates oc files k) i' = Some r).
  { intros k Hk. specialize (HB k). apply HA in Hk. unfold bestOk in HB. destruct (m_find k (s_best s)) as [[[x q] i]|].
    - destruct HB as (i' & r & _ & E & <- & F). exists q, i, i', r. split; auto. split; [|rewrite cand_eq in F; split; auto].
      + apply nth_error_In in E. apply filter_In in E as [E _]. now apply entry_ok.
      + rewrite <- cand_eq. apply nth_map_some with (f := snd) in E. exact E.
    - apply existsb_any, map_eq_nil in HB. contradiction. }
  destruct (fold_keys (addBest files (s_best s)) (fun _ => None)
     (fun k o => o = do b <- m_find k (s_best s); do r <- getEntry files (snd (fst b)); Some [r]) (map fst (s_all s))) with (l := s_lists s) as (out & E & So & Hw & Ho); auto.
  - now apply key_nodup.
  - intros k l Hk S E. destruct (Best k Hk) as (q & i & i' & r & Eb & Eg & _). unfold addBest. rewrite Eb. cbn [bnd fst snd]. rewrite Eg.
    unfold listOf. rewrite E. eexists. split; [reflexivity|]. split; [now apply m_set_sorted|]. split.
    + now rewrite m_find_set, str_eqb_refl.
    + intros k' N. rewrite m_find_set by auto. destruct (str_eqb k' k) eqn:E2; auto. apply str_eqb_eq in E2. congruence.
  - exists out. rewrite E. split; auto. intros k. split; intros Hc.
    + rewrite Ho; [apply HL|]. rewrite HA. intros H. apply H. apply map_eq_nil with (f := snd). now rewrite cand_eq.
    + assert (Hk : In k (map fst (s_all s))) by (apply HA; intros H; apply Hc; rewrite <- cand_eq, H; reflexivity).
      destruct (Best k Hk) as (q & i & i' & r & Eb & Eg & F & En). exists i', r. split; auto. split; auto.
      rewrite (Hw k Hk), Eb. cbn [bnd fst snd]. now rewrite Eg.
Qed.

(* ---- all results ---- *)
Definition stripped (r : res) : res := mkRes (r_bin r) (r_lik r) (r_conv r) (r_id r) false false.
(* the results that keep their matrices: all without stripping; otherwise the first best one
   and, if that one has not converged, the first best converged one *)
Definition keeps (strip : bool) (l : list res) (i : nat) : Prop :=
  strip = false \/ firstBestAt anyRes l i \/
  (firstBestAt r_conv l i /\ exists b r, firstBestAt anyRes l b /\ nth_error l b = Some r /\ r_conv r = false).
(* l' is l with the matrices removed from the other results *)
Definition strippedList (strip : bool) (l l' : list res) : Prop :=
  length l' = length l /\
  forall i r, nth_error l i = Some r -> (keeps strip l i -> nth_error l' i = Some r) /\ (~ keeps strip l i -> nth_error l' i = Some (stripped r)).

Lemma nth_setAt {X} i (x : X) l j : nth_error (setAt i x l) j = if (j =? i)%nat then (if (i <? length l)%nat then Some x else None) else nth_error l j.
Proof.
  revert i j. induction l as [|y l IH]; intros i j; cbn [setAt length].
  - destruct i; cbn; destruct (j =? _)%nat; destruct j; reflexivity.
  - destruct i as [|i], j as [|j]; cbn [setAt nth_error Nat.eqb]; try reflexivity. rewrite IH. reflexivity.
Qed.
Lemma setAt_length {X} i (x : X) l : length (setAt i x l) = length l.
Proof. revert i. induction l as [|y l IH]; intros [|i]; cbn; auto. Qed.
Lemma fill_true r : fillFrom r true true = r. Proof. now destruct r. Qed.
Lemma fill_false r : fillFrom r false false = stripped r. Proof. now destruct r. Qed.
Lemma strippedList_val sp l l' i r' : strippedList sp l l' -> nth_error l' i = Some r' -> exists r, nth_error l i = Some r /\ r_lik r' = r_lik r.
Proof.
  intros [L H] E. destruct (nth_error l i) as [r|] eqn:El.
  - exists r. split; auto. destruct (H i r El) as [A B].
    assert (r' = r \/ r' = stripped r).
    { destruct (Classical_Prop.classic (keeps sp l i)) as [K|K]; [rewrite A in E by auto|rewrite B in E by auto]; injection E as <-; auto. }
    destruct H0 as [->| ->]; reflexivity.
  - exfalso. apply nth_error_None in El. assert (nth_error l' i <> None) by congruence. apply nth_error_Some in H0. lia.
Qed.

(* C34, all results: the map has exactly the bins that occur among the results that take
   part; the entry of a bin is the stably sorted list of these results, where matrices are
   removed from all but the best results if this is requested; the first element of the
   list is the first result of minimal likelihood, with its matrices. *)
Theorem C34_all_results : forall files strip onlyConv, noNaN files ->
  exists out, getFitResults files false strip onlyConv = Some out /\
  forall k, let l := candidates onlyConv files k in
    (l = [] -> m_find k out = None) /\
    (l <> [] -> exists l' o, m_find k out = Some o /\ strippedList strip l l' /\
       Permutation l' o /\ StronglySorted leV o /\ (forall x, filter (withLik x) o = filter (withLik x) l') /\
       (forall i r, firstBestAt anyRes l i -> nth_error l i = Some r -> hd_error o = Some r)).
Proof.
  intros files sp oc HN. unfold getFitResults.
  pose proof (inv_fold false sp oc _ (noNaN_entries files HN)) as [Sl Sa Sb Sc HA HB HC HL]. specialize (HC eq_refl).
  set (s := fold_left _ _ _) in *.
  assert (Hnil : forall k, ~ In k (map fst (s_all s)) <-> candidates oc files k = []).
  { intros k. rewrite HA, <- cand_eq. destruct (filter (sel oc k) (entriesOf files)); cbn; split; auto; try discriminate. intros H; exfalso; apply H; discriminate. }
  set (P1 := fun k (v : list res) => strippedList sp (candidates oc files k) v).
  (* state after the refill phase *)
  assert (R : exists lists, (if sp then foldO (refill files (s_best s) (s_cbest s)) (map fst (s_all s)) (s_lists s) else Some (s_lists s)) = Some lists /\
     (forall k, In k (map fst (s_all s)) -> exists v, m_find k lists = Some v /\ P1 k v) /\ (forall k, ~ In k (map fst (s_all s)) -> m_find k lists = None) /\ StronglySorted key_lt lists).
  { assert (L0 : forall k, In k (map fst (s_all s)) -> m_find k (s_lists s) = Some (map (fun r => fillFrom r (negb sp) (negb sp)) (candidates oc files k))).
    { intros k Hk. apply HA in Hk. rewrite HL, <- cand_eq, map_map. destruct (filter (sel oc k) (entriesOf files)); [contradiction|reflexivity]. }
    assert (L1 : forall k, ~ In k (map fst (s_all s)) -> m_find k (s_lists s) = None).
    { intros k Hk. apply Hnil in Hk. rewrite <- cand_eq in Hk. apply map_eq_nil in Hk. rewrite HL, Hk. reflexivity. }
    destruct sp; cbn [negb] in *.
    - assert (X : forall k, exists v, In k (map fst (s_all s)) -> P1 k v /\ forall l, StronglySorted key_lt l -> m_find k l = m_find k (s_lists s) ->
          exists l', refill files (s_best s) (s_cbest s) k l = Some l' /\ StronglySorted key_lt l' /\ m_find k l' = Some v /\ forall k', k' <> k -> m_find k' l' = m_find k' l).
      { intros k. destruct (Classical_Prop.classic (In k (map fst (s_all s)))) as [Hk|Hk]; [|exists []; contradiction].
        set (c := candidates oc files k) in *.
        specialize (HB k). specialize (HC k). unfold bestOk in HB, HC. unfold refill.
        destruct (m_find k (s_best s)) as [[[x q] i]|]; [|apply existsb_any in HB; rewrite cand_eq in HB; apply Hnil in HB; contradiction].
        destruct HB as (i' & r & Hi & E & <- & F). specialize (Hi eq_refl). subst i'.
        pose proof (entry_ok files q r ltac:(apply nth_error_In, filter_In in E; tauto)) as Eq.
        pose proof (nth_map_some snd _ _ _ E) as Er. rewrite cand_eq in F, Er. fold c in F, Er. cbn [snd] in Er.
        assert (Hr : r_lik r <> None) by (apply (cand_liks oc files k HN); apply nth_error_In in Er; auto).
        assert (Err : eqL (r_lik r) (r_lik r) = true) by (apply eqL_val; auto).
        set (v0 := map (fun r => fillFrom r false false) c).
        assert (Lv0 : length v0 = length c) by apply map_length.
        assert (Ei : nth_error v0 i = Some (fillFrom r false false)) by (unfold v0; now rewrite (nth_map_some _ _ _ _ Er)).
        set (v1 := setAt i r v0).
        assert (Li : (i < length c)%nat) by (apply nth_error_Some; congruence).
        assert (Ev1 : forall j, nth_error v1 j = if (j =? i)%nat then Some r else nth_error v0 j).
        { intros j. unfold v1. rewrite nth_setAt, Lv0. now rewrite (proj2 (Nat.ltb_lt _ _) Li). }
        assert (Ev0 : forall j rj, nth_error c j = Some rj -> nth_error v0 j = Some (stripped rj)).
        { intros j rj Ej. unfold v0. rewrite (nth_map_some _ _ _ _ Ej), fill_false. reflexivity. }
        destruct (m_find k (s_cbest s)) as [[[cx cq] ci]|].
        - destruct HC as (ci' & cr & Hci & Ec & <- & Fc). specialize (Hci eq_refl). subst ci'.
          pose proof (entry_ok files cq cr ltac:(apply nth_error_In, filter_In in Ec; tauto)) as Ecq.
          pose proof (nth_map_some snd _ _ _ Ec) as Ecr. rewrite cand_eq in Fc, Ecr. fold c in Fc, Ecr. cbn [snd] in Ecr.
          assert (Lci : (ci < length c)%nat) by (apply nth_error_Some; congruence).
          destruct (r_conv r) eqn:Conv.
          + exists v1. intros _. split.
            * change (strippedList true c v1). split; [unfold v1; now rewrite setAt_length|]. intros j rj Ej. rewrite Ev1. destruct (Nat.eqb_spec j i) as [->|Nj].
              -- split; [congruence|]. intros K. exfalso. apply K. right. now left.
              -- split; [|intros _; auto]. intros [K|[K|[_ (b & rb & Fb & Eb & Cb)]]]; [discriminate|exfalso; apply Nj; eapply firstBest_unique; eauto|].
                 assert (b = i) by (eapply firstBest_unique; eauto). subst. congruence.
            * intros l S E1. rewrite L0 in E1 by auto. change (m_find k l = Some v0) in E1. cbn [bnd]. rewrite Eq. cbn [bnd]. rewrite Err. cbn [negb]. unfold listOf. rewrite E1, Ei. cbn [bnd fillFrom r_lik]. rewrite Err. cbn [negb].
              rewrite fill_true, Conv. cbn [negb].
              assert (EE : eqL (r_lik r) (r_lik cr) = true).
              { apply eqL_val; auto; [apply (cand_liks oc files k HN); apply nth_error_In in Ecr; auto|].
                destruct F as (r1 & E1' & _ & F). rewrite Er in E1'. injection E1' as <-. destruct Fc as (r2 & E2 & Pc & Fc). rewrite Ecr in E2. injection E2 as <-.
                destruct (F _ _ Ecr eq_refl) as [A _], (Fc _ _ Er Conv) as [B _]. lra. }
              rewrite EE. eexists. split; [reflexivity|]. split; [now apply m_set_sorted|]. split; [now rewrite m_find_set, str_eqb_refl|].
              intros k' N. rewrite m_find_set by auto. destruct (str_eqb k' k) eqn:E2; auto. apply str_eqb_eq in E2. congruence.
          + exists (setAt ci cr v1). intros _. assert (Lv1 : length v1 = length c) by (unfold v1; now rewrite setAt_length). split.
            * change (strippedList true c (setAt ci cr v1)). split; [now rewrite setAt_length|]. intros j rj Ej. rewrite nth_setAt, Lv1, (proj2 (Nat.ltb_lt _ _) Lci), Ev1. destruct (Nat.eqb_spec j ci) as [->|Nc].
              -- split; [congruence|]. intros K. exfalso. apply K. right. right. split; auto. exists i, r. auto.
              -- destruct (Nat.eqb_spec j i) as [->|Nj].
                 ++ split; [congruence|]. intros K. exfalso. apply K. right. now left.
                 ++ split; [|intros _; auto]. intros [K|[K|[K _]]]; [discriminate|exfalso; apply Nj; eapply firstBest_unique; eauto|exfalso; apply Nc; eapply firstBest_unique; eauto].
            * intros l S E1. rewrite L0 in E1 by auto. change (m_find k l = Some v0) in E1. cbn [bnd]. rewrite Eq. cbn [bnd]. rewrite Err. cbn [negb]. unfold listOf. rewrite E1, Ei. cbn [bnd fillFrom r_lik]. rewrite Err. cbn [negb].
              rewrite fill_true, Conv. cbn [negb]. rewrite Ecq. cbn [bnd]. rewrite fill_true, m_find_set, str_eqb_refl by auto. fold v1.
              eexists. split; [reflexivity|]. split; [auto using m_set_sorted|]. split; [now rewrite m_find_set, str_eqb_refl by auto using m_set_sorted|].
              intros k' N. rewrite !m_find_set by auto using m_set_sorted. destruct (str_eqb k' k) eqn:E2; auto. apply str_eqb_eq in E2. congruence.
        - exists v1. intros _. rewrite cand_eq in HC. fold c in HC. split.
          * change (strippedList true c v1). split; [unfold v1; now rewrite setAt_length|]. intros j rj Ej. rewrite Ev1. destruct (Nat.eqb_spec j i) as [->|Nj].
            -- split; [congruence|]. intros K. exfalso. apply K. right. now left.
            -- split; [|intros _; auto]. intros [K|[K|[(rc & Erc & Prc & _) _]]]; [discriminate|exfalso; apply Nj; eapply firstBest_unique; eauto|].
               assert (existsb r_conv c = true) by (apply existsb_exists; exists rc; split; auto; eapply nth_error_In; eauto). congruence.
          * intros l S E1. rewrite L0 in E1 by auto. change (m_find k l = Some v0) in E1. cbn [bnd]. rewrite Eq. cbn [bnd]. rewrite Err. cbn [negb]. unfold listOf. rewrite E1, Ei. cbn [bnd fillFrom r_lik]. rewrite Err. cbn [negb].
            rewrite fill_true. eexists. split; [reflexivity|]. split; [now apply m_set_sorted|]. split; [now rewrite m_find_set, str_eqb_refl|].
            intros k' N. rewrite m_find_set by auto. destruct (str_eqb k' k) eqn:E2; auto. apply str_eqb_eq in E2. congruence. }
      destruct (fold_keys (refill files (s_best s) (s_cbest s)) (fun k => m_find k (s_lists s)) (fun k o => exists v, o = Some v /\ P1 k v) (map fst (s_all s))) with (l := s_lists s) as (out & E & So & Hw & Ho); auto.
      { now apply key_nodup. }
      { intros k l Hk S E. destruct (X k) as [v Hv]. destruct (Hv Hk) as [Pv Hl]. destruct (Hl l S E) as (l' & A & B & D & F). exists l'. eauto 10. }
      exists out. split; auto. split; [|split]; auto. intros k Hk. now rewrite Ho, L1.
    - exists (s_lists s). split; auto. split; [|split]; auto. intros k Hk. rewrite L0 by auto. eexists. split; auto. split; [now rewrite map_length|].
      intros i r Er. rewrite (nth_map_some _ _ _ _ Er), fill_true. split; auto. intros K. exfalso. apply K. now left. }
  destruct R as (lists & -> & HV & HN0 & SL). cbn [bnd].
  (* the sorted list of one bin *)
  assert (Bin : forall k v, m_find k lists = Some v ->
     P1 k v /\ liks v /\ sortBin (s_best s) (k, v) = Some (k, sortS v) /\
     forall i r, firstBestAt anyRes (candidates oc files k) i -> nth_error (candidates oc files k) i = Some r -> hd_error (sortS v) = Some r).
  { intros k v Ev. destruct (Classical_Prop.classic (In k (map fst (s_all s)))) as [Hk|Hk]; [|rewrite HN0 in Ev by auto; discriminate].
    destruct (HV k Hk) as (v' & Ev' & Pv). rewrite Ev in Ev'. injection Ev' as <-. split; auto.
    pose proof (cand_liks oc files k HN) as Lc.
    assert (Lv : liks v).
    { intros r Hr. apply In_nth_error in Hr as [j Hj]. destruct (strippedList_val _ _ _ _ _ Pv Hj) as (r0 & E0 & ->). apply Lc. eapply nth_error_In; eauto. }
    assert (Hd : forall i r, firstBestAt anyRes (candidates oc files k) i -> nth_error (candidates oc files k) i = Some r -> hd_error (sortS v) = Some r).
    { intros i r F E. destruct Pv as [Len Pv]. assert (Ei : nth_error v i = Some r) by (apply (proj1 (Pv i r E)); right; left; exact F).
      apply (sortS_head v i); auto. exists r. split; auto. split; auto. intros j r' Hj _.
      destruct (strippedList_val sp (candidates oc files k) v j r' (conj Len Pv) Hj) as (r0 & E0 & Lk). unfold val at 2 4. rewrite Lk. fold (val r0).
      destruct F as (r1 & E1 & _ & F). rewrite E in E1. injection E1 as <-. now apply F. }
    split; auto. split; auto.
    specialize (HB k). unfold bestOk in HB. unfold sortBin. cbn [fst snd].
    destruct (m_find k (s_best s)) as [[[x q] i]|]; [|apply existsb_any in HB; rewrite cand_eq in HB; apply Hnil in HB; contradiction].
    destruct HB as (i' & r & _ & E & <- & F). pose proof (nth_map_some snd _ _ _ E) as Er. rewrite cand_eq in F, Er. cbn [snd] in Er.
    rewrite (Hd _ _ F Er). cbn [bnd fst]. assert (Hr : r_lik r <> None) by (apply Lc; eapply nth_error_In; eauto).
    rewrite (proj2 (eqL_val r r Hr Hr) eq_refl). reflexivity. }
  destruct (mapO2_find (sortBin (s_best s)) lists) as (out & Eo & Ho).
  { intros [k v] He. apply (m_find_in k v lists SL) in He. destruct (Bin k v He) as (_ & _ & E & _). exists (sortS v). exact E. }
  exists out. split; [exact Eo|]. intros k. cbv zeta. set (l := candidates oc files k). specialize (Ho k). split.
  - intros Hl. rewrite (HN0 k) in Ho by (now apply Hnil). exact Ho.
  - intros Hl. assert (Hk : In k (map fst (s_all s))).
    { destruct (Classical_Prop.classic (In k (map fst (s_all s)))) as [H|H]; auto. apply Hnil in H. contradiction. }
    destruct (HV k Hk) as (v & Ev & Pv). rewrite Ev in Ho. destruct Ho as (lo & E1 & E2). destruct (Bin k v Ev) as (_ & Lv & E3 & Hd).
    rewrite E3 in E1. injection E1 as <-. exists v, (sortS v). split; auto. split; auto. split; [apply sortS_perm|].
    split; [now apply sortS_sorted|]. split; [intros; now apply sortS_stable|]. exact Hd.
Qed.

(* C34: the best likelihood of a bin does not depend on the order or grouping of the input *)
Theorem C34_input_order_irrelevant : forall files files' oc k i i' r r', Permutation (concat files) (concat files') ->
  firstBestAt anyRes (candidates oc files k) i -> nth_error (candidates oc files k) i = Some r ->
  firstBestAt anyRes (candidates oc files' k) i' -> nth_error (candidates oc files' k) i' = Some r' ->
  val r = val r' /\ ((forall a b, In a (candidates oc files k) -> In b (candidates oc files k) -> val a = val b -> a = b) -> r = r').
Proof.
  intros files files' oc k i i' r r' P (r0 & E0 & _ & F) E (r0' & E0' & _ & F') E'.
  rewrite E in E0. injection E0 as <-. rewrite E' in E0'. injection E0' as <-.
  assert (PC : Permutation (candidates oc files k) (candidates oc files' k)).
  { unfold candidates. revert P. generalize (concat files) as a, (concat files') as b. generalize (fun r => str_eqb (r_bin r) k && (negb oc || r_conv r)) as p.
    induction 1; cbn; auto; try (destruct (p x); auto; fail); [destruct (p x), (p y); auto; constructor|etransitivity; eauto]. }
  assert (I : In r (candidates oc files' k)) by (eapply Permutation_in; [exact PC|eapply nth_error_In; eauto]).
  assert (I' : In r' (candidates oc files k)) by (eapply Permutation_in; [apply Permutation_sym; exact PC|eapply nth_error_In; eauto]).
  pose proof I as J. pose proof I' as J'. apply In_nth_error in J as [j J], J' as [j' J'].
  assert (V : val r = val r') by (destruct (F _ _ J' eq_refl) as [A _], (F' _ _ J eq_refl) as [B _]; lra).
  split; auto. intros D. apply D; auto. eapply nth_error_In; eauto.
Qed.
Theorem C34_best_result_does_not_depend_on_order : forall files files' strip oc k out out',
  noNaN files -> Permutation (concat files) (concat files') ->
  (forall a b, In a (concat files) -> In b (concat files) -> val a = val b -> a = b) ->
  getFitResults files true strip oc = Some out -> getFitResults files' true strip oc = Some out' ->
  m_find k out = m_find k out'.
Proof.
  intros files files' sp oc k out out' HN P D E E'.
  assert (HN' : noNaN files') by (intros r Hr; apply HN; eapply Permutation_in; [apply Permutation_sym; exact P|exact Hr]).
  destruct (C34_only_best files sp oc HN) as (o & Eo & H), (C34_only_best files' sp oc HN') as (o' & Eo' & H').
  rewrite E in Eo. injection Eo as <-. rewrite E' in Eo'. injection Eo' as <-. destruct (H k) as [H0 H1], (H' k) as [H0' H1'].
  assert (PC : Permutation (candidates oc files k) (candidates oc files' k)).
  { unfold candidates. revert P. generalize (concat files) as a, (concat files') as b. generalize (fun r => str_eqb (r_bin r) k && (negb oc || r_conv r)) as p.
    induction 1; cbn; auto; try (destruct (p x); auto; fail); [destruct (p x), (p y); auto; constructor|etransitivity; eauto]. }
  destruct (candidates oc files k) as [|a l] eqn:Ec.
  - apply Permutation_nil in PC. rewrite H0, H0' by auto. reflexivity.
  - assert (N' : candidates oc files' k <> []) by (intros N; rewrite N in PC; apply Permutation_sym, Permutation_nil in PC; discriminate).
    destruct H1 as (i & r & F & En & Em); [discriminate|]. destruct (H1' N') as (i' & r' & F' & En' & Em').
    rewrite <- Ec in F, En. destruct (C34_input_order_irrelevant files files' oc k i i' r r' P F En F' En') as [_ X].
    rewrite Em, Em', X; auto. intros x y Hx Hy. apply filter_In in Hx as [Hx _], Hy as [Hy _]. now apply D.
Qed.

(* ---------------- concrete cases ---------------- *)
Definition ex1 : res := mkRes (lit "bin1") (Some 3%R) true 1 true true.
Definition ex2 : res := mkRes (lit "bin1") (Some 2%R) false 2 true true.
Definition ex3 : res := mkRes (lit "bin1") (Some 2%R) true 3 true true.
Definition exNaN : res := mkRes (lit "bin1") None true 4 true true.
Lemma ltL_01 : ltL (Some 2%R) (Some 3%R) = true. Proof. cbn. destruct (Rlt_dec 2 3); [auto|lra]. Qed.
Lemma ltL_10 : ltL (Some 3%R) (Some 2%R) = false. Proof. cbn. destruct (Rlt_dec 3 2); [lra|auto]. Qed.
Lemma ltL_00 : ltL (Some 2%R) (Some 2%R) = false. Proof. cbn. destruct (Rlt_dec 2 2); [lra|auto]. Qed.
Lemma noNaN_ex : noNaN [[ex1; ex2]; [ex3]]. Proof. intros r [<-|[<-|[<-|[]]]]; discriminate. Qed.
Example C34_first_of_equal_results_wins : forall strip, getFitResults [[ex1; ex2]; [ex3]] true strip false = Some [(lit "bin1", [ex2])].
Proof.
  intros strip. pose proof ltL_01 as A. pose proof ltL_10 as B. pose proof ltL_00 as D. unfold getFitResults.
  cbv - [ltL lit ex1 ex2 ex3 R IZR]. unfold ex1, ex2, ex3. cbv - [ltL R IZR].
  change (match ltL (Some 2%R) (Some 3%R) with true => true | false => false end) with (ltL (Some 2%R) (Some 3%R)).
  rewrite A. cbv - [ltL R IZR]. rewrite D. reflexivity.
Qed.
(* a result whose likelihood is NaN is never replaced if it comes first: it is then
   returned as the best result of the bin although a proper one exists *)
Theorem C34_nan_comes_first_refuted : forall strip,
  getFitResults [[exNaN; ex3]] true strip false = Some [(lit "bin1", [exNaN])] /\
  getFitResults [[ex3; exNaN]] true strip false = Some [(lit "bin1", [ex3])] /\
  getFitResults [[exNaN; ex3]] false strip false = None.
Proof. intros [|]; (split; [reflexivity|split; reflexivity]). Qed.
