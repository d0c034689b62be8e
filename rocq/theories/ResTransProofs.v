(* Proofs for C65. *)
From Coq Require Import String Ascii List ZArith Bool Reals Lia FunctionalExtensionality.
From Coquelicot Require Import Complex.
From Verif Require Import PathModel StrModel CGBoxModel ParticleModel AmpIntModel AmpIntProps ResCacheModel LikSetProofs ResCacheProps ResTransSpec.
Import ListNotations.
Open Scope list_scope. Open Scope nat_scope.

Lemma Ceqb_neq x y : Ceqb x y = false -> x <> y.
Proof. intros H E. apply Ceqb_eq in E. congruence. Qed.
Lemma decR_eq x y : decR x y = true <-> x = y.
Proof. unfold decR. destruct (Req_EM_T x y); split; intros; congruence. Qed.

(* ---------------- caches with some cells zeroed ---------------- *)
Definition zeroes (P : cell -> Prop) (c c' : rcache) : Prop :=
  ext c' = ext c /\ forall k, (readCell c' k = RtoC 0 \/ readCell c' k = readCell c k) /\ (P k -> readCell c' k = RtoC 0).
Lemma zeroes_id c : zeroes (fun _ => False) c c.
Proof. split; [reflexivity|]. intros k. split; [now right|tauto]. Qed.
Lemma zeroes_comp P Q c c1 c2 : zeroes P c c1 -> zeroes Q c1 c2 -> zeroes (fun k => P k \/ Q k) c c2.
Proof.
  intros [E1 H1] [E2 H2]. split; [congruence|]. intros k. destruct (H1 k) as [A1 B1], (H2 k) as [A2 B2]. split.
  - destruct A2 as [A2|A2]; [now left|]. rewrite A2. exact A1.
  - intros [HP|HQ]; [|auto]. destruct A2 as [A2|A2]; [exact A2|]. rewrite A2. auto.
Qed.
Lemma zeroes_weak (P Q : cell -> Prop) c c' : (forall k, Q k -> P k) -> zeroes P c c' -> zeroes Q c c'.
Proof. intros H [E1 H1]. split; [exact E1|]. intros k. destruct (H1 k) as [A B]. split; auto. Qed.
Lemma zeroes_writes S c c' : writes (RtoC 0) S c c' -> zeroes (fun k => S k = true) c c'.
Proof. intros [H E]. split; [exact E|]. intros k. rewrite H. destruct (S k); split; auto; congruence. Qed.
Lemma foldO_zeroes {B} (F : B -> rcache -> option rcache) (P : B -> cell -> Prop) e l :
  (forall x a, In x l -> ext a = e -> exists a', F x a = Some a' /\ zeroes (P x) a a') ->
  forall c, ext c = e -> exists c', foldO F l c = Some c' /\ zeroes (fun k => exists x, In x l /\ P x k) c c'.
Proof.
  induction l as [|x l IH]; intros H c Hc.
  - exists c. split; [reflexivity|]. eapply zeroes_weak; [|apply zeroes_id]. intros k (x & [] & _).
  - destruct (H x c (or_introl eq_refl) Hc) as (a & Ea & Wa).
    destruct (IH (fun y b Hy => H y b (or_intror Hy)) a) as (c' & Ec & Wc).
    { destruct Wa as [E _]. congruence. }
    exists c'. cbn [foldO]. rewrite Ea. cbn [bnd]. split; [exact Ec|].
    eapply zeroes_weak; [|exact (zeroes_comp _ _ _ _ _ Wa Wc)]. intros k (y & [->|Hy] & Hk); [now left|right; eauto].
Qed.

(* ---------------- parameters ---------------- *)
Lemma upd3_same {A} (f : nat -> nat -> nat -> A) i j k v : f i j k = v -> upd3 f i j k v = f.
Proof.
  intros H. extensionality i'. extensionality j'. extensionality k'. unfold upd3.
  destruct (i' =? i) eqn:E1, (j' =? j) eqn:E2, (k' =? k) eqn:E3; cbn; try reflexivity.
  apply Nat.eqb_eq in E1, E2, E3. now subst.
Qed.
Lemma upd2_same {A} (f : nat -> nat -> A) i j v : f i j = v -> (fun i' j' => if (i' =? i) && (j' =? j) then v else f i' j') = f.
Proof.
  intros H. extensionality i'. extensionality j'.
  destruct (i' =? i) eqn:E1, (j' =? j) eqn:E2; cbn; try reflexivity. apply Nat.eqb_eq in E1, E2. now subst.
Qed.
Lemma setPCoup_same i k b v p : pCoup p i k b = v -> setPCoup i k b v p = p.
Proof. intros H. unfold setPCoup. rewrite upd3_same by exact H. now destruct p. Qed.
Lemma setPBran_same i k v p : pBran p i k = v -> setPBran i k v p = p.
Proof. intros H. unfold setPBran. rewrite upd2_same by exact H. now destruct p. Qed.
Lemma setPPar_same i k v p : pPar p i k = v -> setPPar i k v p = p.
Proof. intros H. unfold setPPar. rewrite upd2_same by exact H. now destruct p. Qed.

Inductive pcell := QC (i k b : nat) | QB (i k : nat) | QP (i k : nat).
Definition cellOf (a : assign) : pcell := match a with AC i k b _ => QC i k b | AB i k _ => QB i k | AP i k _ => QP i k end.
Definition agreeOff (S : list pcell) (p q : params) : Prop :=
  (forall i k b, ~ In (QC i k b) S -> pCoup p i k b = pCoup q i k b) /\
  (forall i k, ~ In (QB i k) S -> pBran p i k = pBran q i k) /\
  (forall i k, ~ In (QP i k) S -> pPar p i k = pPar q i k).
Lemma eqb3 i j k i' j' k' : (i' =? i) && (j' =? j) && (k' =? k) = true <-> (i', j', k') = (i, j, k).
Proof. rewrite !andb_true_iff, !Nat.eqb_eq. split; [intros [[-> ->] ->]; reflexivity|intros H; injection H; auto]. Qed.
Lemma eqb2 i j i' j' : (i' =? i) && (j' =? j) = true <-> (i', j') = (i, j).
Proof. rewrite !andb_true_iff, !Nat.eqb_eq. split; [intros [-> ->]; reflexivity|intros H; injection H; auto]. Qed.
Lemma doAssign_agree a S p q : agreeOff (cellOf a :: S) p q -> agreeOff S (doAssign p a) (doAssign q a).
Proof.
  intros (H1 & H2 & H3). destruct a as [i k b v|i k v|i k v]; cbn [cellOf doAssign] in *; (split; [|split]); cbn; unfold upd3.
  - intros i' k' b' Hn. destruct ((i' =? i) && (k' =? k) && (b' =? b)) eqn:E; [reflexivity|]. apply H1.
    intros [X|X]; [|tauto]. injection X as -> -> ->. rewrite !Nat.eqb_refl in E. discriminate E.
  - intros i' k' Hn. apply H2. intros [X|X]; [discriminate X|tauto].
  - intros i' k' Hn. apply H3. intros [X|X]; [discriminate X|tauto].
  - intros i' k' b' Hn. apply H1. intros [X|X]; [discriminate X|tauto].
  - intros i' k' Hn. destruct ((i' =? i) && (k' =? k)) eqn:E; [reflexivity|]. apply H2.
    intros [X|X]; [|tauto]. injection X as -> ->. rewrite !Nat.eqb_refl in E. discriminate E.
  - intros i' k' Hn. apply H3. intros [X|X]; [discriminate X|tauto].
  - intros i' k' b' Hn. apply H1. intros [X|X]; [discriminate X|tauto].
  - intros i' k' Hn. apply H2. intros [X|X]; [discriminate X|tauto].
  - intros i' k' Hn. destruct ((i' =? i) && (k' =? k)) eqn:E; [reflexivity|]. apply H3.
    intros [X|X]; [|tauto]. injection X as -> ->. rewrite !Nat.eqb_refl in E. discriminate E.
Qed.
Lemma doAssign_off a p : agreeOff [cellOf a] (doAssign p a) p.
Proof.
  destruct a as [i k b v|i k v|i k v]; cbn [cellOf doAssign]; (split; [|split]); cbn; unfold upd3; try reflexivity.
  - intros i' k' b' Hn. destruct ((i' =? i) && (k' =? k) && (b' =? b)) eqn:E; [|reflexivity]. apply eqb3 in E. injection E as -> -> ->. tauto.
  - intros i' k' Hn. destruct ((i' =? i) && (k' =? k)) eqn:E; [|reflexivity]. apply eqb2 in E. injection E as -> ->. tauto.
  - intros i' k' Hn. destruct ((i' =? i) && (k' =? k)) eqn:E; [|reflexivity]. apply eqb2 in E. injection E as -> ->. tauto.
Qed.
Lemma agree_mono S T p q : incl S T -> agreeOff S p q -> agreeOff T p q.
Proof. intros H (H1 & H2 & H3). repeat split; intros; [apply H1|apply H2|apply H3]; auto. Qed.
Lemma agree_trans S p q r : agreeOff S p q -> agreeOff S q r -> agreeOff S p r.
Proof. intros (H1 & H2 & H3) (K1 & K2 & K3). repeat split; intros; [rewrite H1, K1|rewrite H2, K2|rewrite H3, K3]; auto. Qed.
Lemma agree_nil p q : agreeOff [] p q -> p = q.
Proof.
  intros (H1 & H2 & H3). destruct p as [a b c], q as [a' b' c']; cbn in *. f_equal.
  - extensionality i. extensionality k. now apply H2.
  - extensionality i. extensionality k. extensionality x. now apply H1.
  - extensionality i. extensionality k. now apply H3.
Qed.
Lemma assignAll_agree l : forall S p q, agreeOff (map cellOf l ++ S) p q -> agreeOff S (assignAll l p) (assignAll l q).
Proof. induction l as [|a l IH]; intros S p q H; [exact H|]. cbn. apply IH. now apply doAssign_agree. Qed.
Lemma assignAll_off l : forall p, agreeOff (map cellOf l) (assignAll l p) p.
Proof.
  induction l as [|a l IH]; intros p; [repeat split; reflexivity|]. cbn. apply agree_trans with (doAssign p a).
  - eapply agree_mono; [|apply IH]. now apply incl_tl, incl_refl.
  - eapply agree_mono; [|apply doAssign_off]. intros x [<-|[]]. now left.
Qed.
Lemma assignAll_forget l1 l2 p : map cellOf l1 = map cellOf l2 -> assignAll l2 (assignAll l1 p) = assignAll l2 p.
Proof.
  intros H. apply agree_nil. apply assignAll_agree. rewrite app_nil_r, <- H. apply assignAll_off.
Qed.
Lemma takePairs_cells par off l : map cellOf (takePairs par off l) = map (fun x => QC (fst (fst x)) (snd (fst x)) (snd x)) l.
Proof. revert off. induction l as [|[[i k] b] l IH]; intros off; cbn; [reflexivity|]. now rewrite IH. Qed.
Lemma takeBran_cells par off l : map cellOf (takeBran par off l) = map (fun x => QB (fst (fst x)) (snd (fst x))) l.
Proof. revert off. induction l as [|[[i k] [|]] l IH]; intros off; cbn; [reflexivity| |]; now rewrite IH. Qed.
Lemma takeSingle_cells par off l : map cellOf (takeSingle par off l) = map (fun x => QP (fst x) (snd x)) l.
Proof. revert off. induction l as [|[i k] l IH]; intros off; cbn; [reflexivity|]. now rewrite IH. Qed.
Lemma assigns_cells md par par' : map cellOf (assigns md par) = map cellOf (assigns md par').
Proof. unfold assigns. cbn zeta. now rewrite !map_app, !takePairs_cells, !takeBran_cells, !takeSingle_cells. Qed.
Lemma takePairs_app par l1 : forall off l2, takePairs par off (l1 ++ l2) = takePairs par off l1 ++ takePairs par (off + 2 * length l1) l2.
Proof.
  induction l1 as [|[[i k] b] l IH]; intros off l2; cbn [takePairs app length]; [f_equal; lia|]. rewrite IH. cbn [app]. f_equal. f_equal. f_equal. lia.
Qed.
Lemma takeBran_app par l1 : forall off l2, takeBran par off (l1 ++ l2) = takeBran par off l1 ++ takeBran par (off + 2 * nFree l1) l2.
Proof.
  induction l1 as [|[[i k] [|]] l IH]; intros off l2; cbn [takeBran app]; [f_equal; cbn; lia| |]; rewrite IH; cbn [app]; do 2 f_equal.
  f_equal. unfold nFree. cbn. lia.
Qed.
Lemma takeSingle_app par l1 : forall off l2, takeSingle par off (l1 ++ l2) = takeSingle par off l1 ++ takeSingle par (off + length l1) l2.
Proof.
  induction l1 as [|[i k] l IH]; intros off l2; cbn [takeSingle app length]; [f_equal; lia|]. rewrite IH. cbn [app]. f_equal. f_equal. f_equal. lia.
Qed.
Lemma assignAll_app l1 l2 p : assignAll (l1 ++ l2) p = assignAll l2 (assignAll l1 p).
Proof. apply fold_left_app. Qed.
Lemma nFree_app l1 l2 : nFree (l1 ++ l2) = nFree l1 + nFree l2.
Proof. unfold nFree. now rewrite filter_app, app_length. Qed.

(* ---------------- groups of bins ---------------- *)
Definition same (nm : list nat) (mc : nat -> nat -> R) (i j : nat) : Prop :=
  nth i nm 0 = nth j nm 0 /\ forall m, m < nth i nm 0 -> mc i m = mc j m.
Lemma same_refl nm mc i : same nm mc i i. Proof. split; reflexivity. Qed.
Lemma same_sym nm mc i j : same nm mc i j -> same nm mc j i.
Proof. intros [H1 H2]. split; [auto|]. intros m Hm. symmetry. apply H2. lia. Qed.
Lemma same_trans nm mc i j k : same nm mc i j -> same nm mc j k -> same nm mc i k.
Proof. intros [H1 H2] [K1 K2]. split; [congruence|]. intros m Hm. rewrite H2 by exact Hm. apply K2. lia. Qed.
Lemma sameBinning_ok nm mc i j : sameBinning nm mc i j = true -> same nm mc i j.
Proof.
  unfold sameBinning. rewrite andb_true_iff, Nat.eqb_eq, forallb_forall. intros [H1 H2]. split; [exact H1|].
  intros m Hm. apply decR_eq, H2. now apply upTo_in.
Qed.
Definition groups (nm : list nat) (mc : nat -> nat -> R) (eq : list (list nat)) : Prop :=
  length eq = length nm /\ forall b, b < length nm -> NoDup (nth b eq []) /\ forall b', In b' (nth b eq []) -> b' < length nm /\ same nm mc b b'.
Lemma nth_map_upTo {A} (f : nat -> A) n i d : i < n -> nth i (map f (upTo n)) d = f i.
Proof.
  intros H. rewrite nth_indep with (d' := f 0) by (rewrite map_length; unfold upTo; now rewrite seq_length).
  rewrite map_nth. unfold upTo. now rewrite seq_nth.
Qed.
Lemma upTo_len n : length (upTo n) = n. Proof. apply seq_length. Qed.
Lemma groups_step nm mc i eq : i < length nm -> groups nm mc eq -> groups nm mc (equalStep nm mc i eq).
Proof.
  intros Hi [L G]. unfold equalStep. destruct (nth i eq []) as [|x t] eqn:Ei; [|now split].
  set (bins := i :: _). split; [now rewrite map_length, upTo_len|]. intros b Hb. rewrite nth_map_upTo by exact Hb.
  assert (B : forall j, In j bins -> j < length nm /\ same nm mc i j).
  { intros j [<-|Hj]; [split; [exact Hi|apply same_refl]|]. apply filter_In in Hj as [Hj Hs]. apply in_seq in Hj. split; [lia|now apply sameBinning_ok]. }
  destruct (existsb (Nat.eqb b) bins) eqn:E; [|now apply G].
  apply existsb_exists in E as (y & Hy & E). apply Nat.eqb_eq in E. subst y. split.
  - unfold bins. constructor; [|now apply NoDup_filter, seq_NoDup]. intros Hj. apply filter_In in Hj as [Hj _]. apply in_seq in Hj. lia.
  - intros b' Hb'. split; [now apply B|]. apply same_trans with i; [apply same_sym|]; now apply B.
Qed.
Lemma groups_massBinning nm mc : groups nm mc (massBinning nm mc).
Proof.
  unfold massBinning. assert (H : forall l eq, Forall (fun i => i < length nm) l -> groups nm mc eq -> groups nm mc (fold_left (fun eq i => equalStep nm mc i eq) l eq)).
  { induction l as [|i l IH]; intros eq Hl He; [exact He|]. apply Forall_cons_iff in Hl as [H1 H2]. cbn. apply IH; [exact H2|]. now apply groups_step. }
  apply H; [apply Forall_forall; intros i Hi; now apply upTo_in|]. split; [now rewrite map_length, upTo_len|].
  intros b Hb. rewrite nth_map_upTo by exact Hb. split; [constructor|]. intros b' [].
Qed.
Lemma groups_single nm mc : groups nm mc (singleBins (length nm)).
Proof.
  unfold singleBins. split; [now rewrite map_length, upTo_len|]. intros b Hb. rewrite nth_map_upTo by exact Hb. split.
  - constructor; [intros []|constructor].
  - intros b' [<-|[]]. split; [exact Hb|apply same_refl].
Qed.
Lemma groups_all nm mc eq b : groups nm mc eq -> b < length nm -> length (nth b eq []) = length eq -> forall b', b' < length nm -> In b' (nth b eq []).
Proof.
  intros [L G] Hb Hl b' Hb'. destruct (G b Hb) as [N I].
  assert (J : incl (upTo (length nm)) (nth b eq [])).
  { apply NoDup_length_incl; [exact N|rewrite upTo_len; lia|]. intros x Hx. apply upTo_in. now apply I. }
  apply J, upTo_in, Hb'.
Qed.
Lemma storeEqual_ok nm mc id eq b m v c : groups nm mc eq -> b < length nm -> id < xComps c -> xBins c = length nm -> m < xMass c ->
  exists c', storeEqual id eq b m v c = Some c' /\ writes v (kComp id (fun b' => existsb (Nat.eqb b') (nth b eq [])) (Nat.eqb m)) c c'.
Proof.
  intros HG Hb Hi HB Hm. unfold storeEqual. destruct (length (nth b eq []) =? length eq) eqn:E.
  - apply Nat.eqb_eq in E. destruct (setComponent_ok id None (Some m) v c Hi I Hm) as (c' & Ec & W).
    exists c'. split; [exact Ec|]. eapply writes_ext; [|exact W]. intros [i' ch' b' m'|i' b' m'|w b' m']; cbn [kComp]; try reflexivity.
    rewrite hit_some, hit_none, HB. f_equal. f_equal. destruct (b' <? length nm) eqn:Eb.
    + symmetry. apply existsb_exists. exists b'. rewrite Nat.eqb_refl. split; [|reflexivity]. apply Nat.ltb_lt in Eb. now apply (groups_all nm mc).
    + symmetry. apply not_true_iff_false. intros X. apply existsb_exists in X as (y & Hy & Ey). apply Nat.eqb_eq in Ey. subst y.
      destruct HG as [_ G]. apply (G b Hb) in Hy as [Hy _]. apply Nat.ltb_ge in Eb. lia.
  - destruct (foldO_writes v (fun b' => setComponent id (Some b') (Some m) v) (fun b' => kComp id (Nat.eqb b') (Nat.eqb m)) (ext c) (nth b eq [])) with (c := c) as (c' & Ec & W); [|reflexivity|].
    + intros x a Hx Ha. apply ext5 in Ha as (A1 & A2 & A3 & A4 & A5). destruct (setComponent_ok id (Some x) (Some m) v a) as (a' & Ea & Wa); [lia| |cbn; lia|].
      * cbn. destruct HG as [_ G]. apply (G b Hb) in Hx as [Hx _]. lia.
      * exists a'. split; [exact Ea|]. now rewrite !hit_some in Wa.
    + exists c'. split; [exact Ec|]. eapply writes_ext; [|exact W]. intros [i' ch' b' m'|i' b' m'|w b' m']; cbn [kComp]; try apply existsb_false.
      rewrite existsb_and_r, existsb_and. f_equal. f_equal. apply existsb_ext'. intros y. apply Nat.eqb_sym.
Qed.

(* ---------------- wave indices ---------------- *)
Lemma lastIndex_snoc n l x : lastIndex n (l ++ [x]) = if str_eqb x n then Some (length l) else lastIndex n l.
Proof.
  unfold lastIndex. rewrite app_length. cbn [length]. unfold upTo. rewrite Nat.add_1_r, seq_S, fold_left_app. cbn [fold_left].
  rewrite Nat.add_0_l, app_nth2, Nat.sub_diag by lia. cbn [nth]. destruct (str_eqb x n); [reflexivity|].
  assert (H : forall s a, (forall i, In i s -> i < length l) ->
    fold_left (fun a i => if str_eqb (nth i (l ++ [x]) []) n then Some i else a) s a = fold_left (fun a i => if str_eqb (nth i l []) n then Some i else a) s a).
  { induction s as [|i s IH]; intros a Hs; [reflexivity|]. cbn. rewrite app_nth1 by (apply Hs; now left). apply IH. intros j Hj. apply Hs. now right. }
  apply H. intros i Hi. apply in_seq in Hi. lia.
Qed.
Lemma lastIndex_some n l i : lastIndex n l = Some i -> i < length l /\ nth i l [] = n.
Proof.
  revert i. induction l as [|x l IH] using rev_ind; intros i H; [discriminate H|]. rewrite lastIndex_snoc in H. rewrite app_length. cbn [length].
  destruct (str_eqb x n) eqn:E.
  - injection H as <-. split; [lia|]. rewrite app_nth2, Nat.sub_diag by lia. cbn. now apply str_eqb_eq.
  - apply IH in H as [H1 H2]. split; [lia|]. now rewrite app_nth1.
Qed.
Lemma lastIndex_nodup n l w : NoDup l -> w < length l -> nth w l [] = n -> lastIndex n l = Some w.
Proof.
  revert w. induction l as [|x l IH] using rev_ind; intros w HN Hw H; [cbn in Hw; lia|]. rewrite lastIndex_snoc. rewrite app_length in Hw. cbn [length] in Hw.
  apply NoDup_remove in HN as [HN Hx]. rewrite app_nil_r in HN, Hx.
  destruct (Nat.eq_dec w (length l)) as [->|Hn].
  - rewrite app_nth2, Nat.sub_diag in H by lia. cbn in H. subst n. now rewrite str_eqb_refl.
  - rewrite app_nth1 in H by lia. destruct (str_eqb x n) eqn:E.
    + apply str_eqb_eq in E. subst x n. exfalso. apply Hx. apply nth_In. lia.
    + apply IH; [exact HN|lia|exact H].
Qed.
Lemma waveIdx_read waves chan b : chWave chan = readIndices waves (chName chan) -> b < length waves ->
  waveIdx chan b = lastIndex (chName chan) (nth b waves []).
Proof.
  intros H Hb. unfold waveIdx, readIndices in *. rewrite H. rewrite nth_error_map. rewrite (nth_error_nth' waves [] Hb). reflexivity.
Qed.
Lemma getBins_in chan b : In b (getBins chan) <-> exists w, waveIdx chan b = Some w.
Proof.
  unfold getBins. rewrite filter_In, upTo_in. split.
  - intros [_ H]. destruct (waveIdx chan b) as [w|]; [eauto|discriminate].
  - intros [w H]. rewrite H. split; [|reflexivity]. unfold waveIdx in H. destruct (nth_error (chWave chan) b) eqn:E; [|discriminate].
    apply nth_error_Some. congruence.
Qed.
Lemma wcc_in md b w i ch : In (i, ch) (waveComponentChannel md b w) <->
  exists o chan, nth_error (mComps md) i = Some o /\ nth_error (oChans o) ch = Some chan /\ chName chan = nth w (nth b (mWaves md) []) [].
Proof.
  unfold waveComponentChannel. rewrite in_flat_map. split.
  - intros (i' & Hi & H). destruct (nth_error (mComps md) i') as [o|] eqn:Eo; [|destruct H]. apply in_flat_map in H as (ch' & Hc & H).
    destruct (nth_error (oChans o) ch') as [chan|] eqn:Ec; [|destruct H]. destruct (str_eqb (chName chan) _) eqn:E; [|destruct H].
    destruct H as [H|[]]. injection H as <- <-. apply str_eqb_eq in E. eauto.
  - intros (o & chan & Eo & Ec & E). exists i. split; [apply upTo_in, nth_error_Some; congruence|]. rewrite Eo. apply in_flat_map.
    exists ch. split; [apply upTo_in, nth_error_Some; congruence|]. rewrite Ec, E, str_eqb_refl. now left.
Qed.

(* ---------------- the invariant ---------------- *)
Section Inv.
Variables (md : model) (nm : list nat) (mc : nat -> nat -> R) (nw nch nmass : nat).
Hypothesis WF : wfFit md nm mc nw nch nmass.
Notation nC := (length (mComps md)).
Notation nB := (length nm).
Notation E0 := (nw, nC + 1, nch, nB, nmass).

Definition direct (p : params) (k : cell) : C :=
  match k with
  | KCoup i ch b m => directCoup md p i ch b (mc b m) (Some m)
  | KComp i b m => if i =? nC then directFsmd md p b (mc b m) else directComp md p i b (mc b m)
  | KProd w b m => directAmp md p w b (mc b m) (Some m)
  end.
Definition valid (k : cell) : Prop :=
  match k with
  | KCoup i ch b m => b < nB /\ m < nth b nm 0
  | KComp i b m => b < nB /\ m < nth b nm 0
  | KProd w b m => b < nB /\ m < nth b nm 0 /\ w < length (nth b (mWaves md) [])
  end.
Definition inv (p : params) (c : rcache) : Prop :=
  ext c = E0 /\ forall k, valid k -> readCell c k = RtoC 0 \/ readCell c k = direct p k.

Lemma inv_fresh : inv (fst (fresh md nm nw nch nmass)) (snd (fresh md nm nw nch nmass)).
Proof. split; [reflexivity|]. intros k _. left. destruct k; reflexivity. Qed.
Lemma inv_zero p p' P c c' : inv p c -> zeroes P c c' -> (forall k, valid k -> ~ P k -> direct p' k = direct p k) -> inv p' c'.
Proof.
  intros [X H] [Y Z] D. split; [congruence|]. intros k Hk. destruct (Z k) as [Z1 Z2].
  destruct (Ceqb (readCell c' k) (RtoC 0)) eqn:E; [apply Ceqb_eq in E; now left|]. apply Ceqb_neq in E. right.
  destruct Z1 as [Z1|Z1]; [congruence|]. rewrite D by tauto. destruct (H k Hk) as [Hz|Hz]; congruence.
Qed.
Lemma inv_store p S v c c' : inv p c -> writes v S c c' -> (forall k, valid k -> S k = true -> direct p k = v) -> inv p c'.
Proof.
  intros [X H] [W Y] D. split; [congruence|]. intros k Hk. rewrite W. destruct (S k) eqn:E; [right; symmetry; now apply D|now apply H].
Qed.

Lemma mass_le b m : b < nB -> m < nth b nm 0 -> m < nmass.
Proof.
  intros Hb Hm. pose proof (wfNm _ _ _ _ _ _ WF) as H. rewrite Forall_forall in H. specialize (H (nth b nm 0) (nth_In _ _ Hb)). lia.
Qed.
Lemma wave_le b w : b < nB -> w < length (nth b (mWaves md) []) -> w < nw.
Proof.
  intros Hb Hw. pose proof (wfWaves _ _ _ _ _ _ WF) as H. rewrite Forall_forall in H.
  destruct (H (nth b (mWaves md) [])) as [_ L]; [|lia]. apply nth_In. rewrite (wfBins _ _ _ _ _ _ WF). exact Hb.
Qed.
Lemma wave_nodup b : b < nB -> NoDup (nth b (mWaves md) []).
Proof.
  intros Hb. pose proof (wfWaves _ _ _ _ _ _ WF) as H. rewrite Forall_forall in H. apply H, nth_In. rewrite (wfBins _ _ _ _ _ _ WF). exact Hb.
Qed.
Lemma comp_wf i o : nth_error (mComps md) i = Some o -> wfComp md nm mc nch o /\ oId o = i /\ i < nC.
Proof.
  intros H. split; [|split].
  - pose proof (wfComps _ _ _ _ _ _ WF) as G. rewrite Forall_forall in G. apply G. eapply nth_error_In. exact H.
  - exact (wfIds _ _ _ _ _ _ WF i o H).
  - apply nth_error_Some. congruence.
Qed.
Lemma chan_read i o ch chan b : nth_error (mComps md) i = Some o -> nth_error (oChans o) ch = Some chan -> b < nB ->
  waveIdx chan b = lastIndex (chName chan) (nth b (mWaves md) []).
Proof.
  intros Ho Hc Hb. destruct (comp_wf i o Ho) as [(_ & _ & _ & _ & W & _) _]. rewrite Forall_forall in W.
  apply waveIdx_read; [apply W; eapply nth_error_In; exact Hc|]. rewrite (wfBins _ _ _ _ _ _ WF). exact Hb.
Qed.
Lemma chan_bins i o ch chan b : nth_error (mComps md) i = Some o -> nth_error (oChans o) ch = Some chan -> In b (getBins chan) -> b < nB.
Proof.
  intros Ho Hc Hb. unfold getBins in Hb. apply filter_In in Hb as [Hb _]. apply upTo_in in Hb.
  destruct (comp_wf i o Ho) as [(_ & _ & _ & _ & W & _) _]. rewrite Forall_forall in W. rewrite W in Hb by (eapply nth_error_In; exact Hc).
  unfold readIndices in Hb. rewrite map_length, (wfBins _ _ _ _ _ _ WF) in Hb. exact Hb.
Qed.
Lemma chan_ok i o ch chan b : nth_error (mComps md) i = Some o -> nth_error (oChans o) ch = Some chan -> b < nB -> okI (waveIdx chan b) nw.
Proof.
  intros Ho Hc Hb. rewrite (chan_read i o ch chan b Ho Hc Hb). destruct (lastIndex _ _) as [w|] eqn:E; cbn; [|exact I].
  apply lastIndex_some in E as [E _]. now apply wave_le with b.
Qed.
(* a channel that contributes to a wave knows it *)
Lemma chan_knows b w i ch o chan : b < nB -> w < length (nth b (mWaves md) []) -> In (i, ch) (waveComponentChannel md b w) ->
  nth_error (mComps md) i = Some o -> nth_error (oChans o) ch = Some chan -> waveIdx chan b = Some w.
Proof.
  intros Hb Hw Hin Ho Hc. apply wcc_in in Hin as (o' & chan' & Eo & Ec & En). rewrite Ho in Eo. injection Eo as <-. rewrite Hc in Ec. injection Ec as <-.
  rewrite (chan_read i o ch chan b Ho Hc Hb), En. apply lastIndex_nodup; [now apply wave_nodup|exact Hw|reflexivity].
Qed.
Lemma directAmp_ext p p' w b x m :
  (forall i ch, In (i, ch) (waveComponentChannel md b w) -> directComp md p' i b x = directComp md p i b x /\ directCoup md p' i ch b x m = directCoup md p i ch b x m) ->
  directFsmd md p' b x = directFsmd md p b x -> directAmp md p' w b x m = directAmp md p w b x m.
Proof.
  intros H F. unfold directAmp. rewrite F. f_equal. f_equal. apply map_ext_in. intros [i ch] Hin. cbn. destruct (H i ch Hin) as [-> ->]. reflexivity.
Qed.

(* ---------------- imports ---------------- *)
Lemma ext_E0 c : ext c = E0 -> xWaves c = nw /\ xComps c = nC + 1 /\ xChans c = nch /\ xBins c = nB /\ xMass c = nmass.
Proof. unfold ext. intros H. injection H. auto. Qed.

Lemma invalCoupling_ok i o k b c : nth_error (mComps md) i = Some o -> b < nB -> ext c = E0 ->
  exists c', invalCoupling o k b c = Some c' /\
    zeroes (fun cell => exists ch chan m, nth_error (oChans o) ch = Some chan /\ nth ch (oChCoup o) 0 = k /\ m < nmass /\
              (cell = KCoup i ch b m \/ exists w, waveIdx chan b = Some w /\ cell = KProd w b m)) c c'.
Proof.
  intros Ho Hb Hc. destruct (comp_wf i o Ho) as (Wo & Hid & Hi). destruct Wo as (W1 & _).
  destruct (foldO_zeroes (fun ch c =>
    if nth ch (oChCoup o) 0 =? k then
      do c1 <- setCoupling (oId o) ch (Some b) None (RtoC 0) c;
      match nth_error (oChans o) ch with
      | Some chan => setProdAmp (waveIdx chan b) (Some b) None (RtoC 0) c1
      | None => None
      end
    else Some c) (fun ch cell => exists chan m, nth_error (oChans o) ch = Some chan /\ nth ch (oChCoup o) 0 = k /\ m < nmass /\
              (cell = KCoup i ch b m \/ exists w, waveIdx chan b = Some w /\ cell = KProd w b m)) E0 (upTo (length (oChans o)))) with (c := c) as (c' & Ec & Z); [|exact Hc|].
  - intros ch a Hch Ha. apply upTo_in in Hch. destruct (nth_error (oChans o) ch) as [chan|] eqn:En; [|apply nth_error_None in En; lia].
    destruct (nth ch (oChCoup o) 0 =? k) eqn:Ek.
    + apply ext_E0 in Ha as (A1 & A2 & A3 & A4 & A5).
      destruct (setCoupling_ok (oId o) ch (Some b) None (RtoC 0) a) as (a1 & E1 & Z1); [lia|lia|cbn; lia|exact I|].
      pose proof (proj2 Z1) as X1. apply ext5 in X1 as (B1 & B2 & B3 & B4 & B5).
      destruct (setProdAmp_ok (waveIdx chan b) (Some b) None (RtoC 0) a1) as (a2 & E2 & Z2); [rewrite B1, A1; now apply chan_ok with i o ch|cbn; lia|exact I|].
      exists a2. rewrite E1. cbn [bnd]. split; [exact E2|].
      eapply zeroes_weak; [|exact (zeroes_comp _ _ _ _ _ (zeroes_writes _ _ _ Z1) (zeroes_writes _ _ _ Z2))].
      intros cell (chan' & m & Hch' & _ & Hm & [->|(w & Hw & ->)]).
      * left. cbn [kCoup]. rewrite hit_some, hit_none, Hid, A5. rewrite !Nat.eqb_refl. cbn. now apply Nat.ltb_lt.
      * right. injection Hch' as <-. cbn [kProd]. rewrite Hw, !hit_some, hit_none, !Nat.eqb_refl. cbn. apply Nat.ltb_lt. lia.
    + exists a. split; [reflexivity|]. eapply zeroes_weak; [|apply zeroes_id]. intros cell (chan' & m & _ & Hk & _). apply Nat.eqb_neq in Ek. tauto.
  - exists c'. split; [exact Ec|]. eapply zeroes_weak; [|exact Z]. intros cell (ch & chan & m & Hn & Hk & H).
    exists ch. split; [apply upTo_in, nth_error_Some; congruence|]. eauto.
Qed.

Lemma setPCoup_other i k b v p i' k' b' : (i', k', b') <> (i, k, b) -> pCoup (setPCoup i k b v p) i' k' b' = pCoup p i' k' b'.
Proof. intros H. cbn. unfold upd3. destruct ((i' =? i) && (k' =? k) && (b' =? b)) eqn:E; [|reflexivity]. apply eqb3 in E. tauto. Qed.

Lemma directCoup_setPCoup i k b v p i' ch b' x m :
  ~ (i' = i /\ b' = b /\ exists o chan, nth_error (mComps md) i = Some o /\ nth_error (oChans o) ch = Some chan /\ nth ch (oChCoup o) 0 = k) ->
  directCoup md (setPCoup i k b v p) i' ch b' x m = directCoup md p i' ch b' x m.
Proof.
  intros H. unfold directCoup. destruct (nth_error (mComps md) i') as [o|] eqn:Eo; [|reflexivity].
  destruct (nth_error (oChans o) ch) as [chan|] eqn:Ec; [|reflexivity]. f_equal. f_equal. apply setPCoup_other.
  intros X. injection X as -> Hk ->. apply H. split; [reflexivity|]. split; [reflexivity|]. eauto.
Qed.

Lemma inv_setCoup i o k b v p c : nth_error (mComps md) i = Some o -> b < nB -> inv p c ->
  exists c', invalCoupling o k b c = Some c' /\ inv (setPCoup i k b v p) c'.
Proof.
  intros Ho Hb Hinv. destruct (invalCoupling_ok i o k b c Ho Hb (proj1 Hinv)) as (c' & Ec & Z). exists c'. split; [exact Ec|].
  apply (inv_zero p _ _ c c' Hinv Z). intros cell Hv Hn. destruct cell as [i' ch' b' m'|i' b' m'|w b' m']; cbn [direct valid] in *.
  - apply directCoup_setPCoup. intros (-> & -> & o' & chan & Eo & Ech & Hk). rewrite Ho in Eo. injection Eo as <-. apply Hn.
    exists ch', chan, m'. split; [exact Ech|]. split; [exact Hk|]. split; [apply mass_le with b; tauto|]. now left.
  - reflexivity.
  - apply directAmp_ext; [|reflexivity]. intros i' ch Hin. split; [reflexivity|]. apply directCoup_setPCoup.
    intros (-> & -> & o' & chan & Eo & Ech & Hk). rewrite Ho in Eo. injection Eo as <-. apply Hn.
    exists ch, chan, m'. split; [exact Ech|]. split; [exact Hk|]. split; [apply mass_le with b; tauto|]. right.
    exists w. split; [|reflexivity]. apply (chan_knows b w i ch o chan); tauto.
Qed.

Lemma coupBins_ok par off i o k bs : nth_error (mComps md) i = Some o -> Forall (fun b => b < nB) bs -> forall n p c, inv p c ->
  exists c', foldO (fun b (a : nat * (params * rcache)) =>
          let '(n, (p, c)) := a in
          let v : C := (par (off + n), par (off + n + 1)) in
          if Ceqb (pCoup p (oId o) k b) v then Some (n + 2, (p, c))
          else do c' <- invalCoupling o k b c; Some (n + 2, (setPCoup (oId o) k b v p, c'))) bs (n, (p, c))
    = Some (n + 2 * length bs, (assignAll (takePairs par (off + n) (map (fun b => (oId o, k, b)) bs)) p, c')) /\
    inv (assignAll (takePairs par (off + n) (map (fun b => (oId o, k, b)) bs)) p) c'.
Proof.
  intros Ho. destruct (comp_wf i o Ho) as (_ & Hid & _). set (F := fun (b : nat) (a : nat * (params * rcache)) => _).
  induction bs as [|b bs IH]; intros Hb n p c Hinv.
  - exists c. cbn. rewrite Nat.add_0_r. split; [reflexivity|exact Hinv].
  - apply Forall_cons_iff in Hb as [Hb1 Hb2]. cbn [foldO map takePairs assignAll fold_left doAssign].
    set (v := (par (off + n), par (off + n + 1))). change (fold_left doAssign ?l ?p) with (assignAll l p).
    assert (S : exists c1, F b (n, (p, c)) = Some (n + 2, (setPCoup (oId o) k b v p, c1)) /\ inv (setPCoup (oId o) k b v p) c1).
    { unfold F. cbn zeta. fold v. destruct (Ceqb (pCoup p (oId o) k b) v) eqn:E.
      - apply Ceqb_eq in E. rewrite setPCoup_same by exact E. eauto.
      - destruct (inv_setCoup i o k b v p c Ho Hb1 Hinv) as (c1 & E1 & I1). exists c1. rewrite E1, Hid. cbn [bnd]. split; [reflexivity|exact I1]. }
    destruct S as (c1 & E1 & I1). rewrite E1. cbn [bnd]. destruct (IH Hb2 (n + 2) _ c1 I1) as (c' & E' & I'). exists c'.
    rewrite E'. rewrite Nat.add_assoc in *. cbn [length]. split; [|exact I']. do 2 f_equal. lia.
Qed.

Lemma importCouplings_ok par off i o p c : nth_error (mComps md) i = Some o -> inv p c ->
  exists c', importCouplings par off o (p, c) = Some (2 * length (compCoup o), (assignAll (takePairs par off (compCoup o)) p, c')) /\
    inv (assignAll (takePairs par off (compCoup o)) p) c'.
Proof.
  intros Ho Hinv. unfold importCouplings, compCoup. destruct (comp_wf i o Ho) as ((_ & _ & _ & WM & _) & Hid & _).
  set (F := fun (k : nat) (a : nat * (params * rcache)) => _).
  set (G := fun k => match nth_error (oFromCoup o) k with Some master => _ | None => _ end).
  assert (H : forall ks n p c, Forall (fun k => k < length (oFromCoup o)) ks -> inv p c ->
    exists c', foldO F ks (n, (p, c)) = Some (n + 2 * length (flat_map G ks), (assignAll (takePairs par (off + n) (flat_map G ks)) p, c')) /\
      inv (assignAll (takePairs par (off + n) (flat_map G ks)) p) c').
  { induction ks as [|k ks IH]; intros n p0 c0 Hk I0.
    - exists c0. cbn. rewrite Nat.add_0_r. split; [reflexivity|exact I0].
    - apply Forall_cons_iff in Hk as [Hk1 Hk2]. cbn [foldO flat_map].
      destruct (nth_error (oFromCoup o) k) as [master|] eqn:Em; [|apply nth_error_None in Em; lia].
      rewrite Forall_forall in WM. pose proof (WM master (nth_error_In _ _ Em)) as Hm.
      destruct (nth_error (oChans o) master) as [chan|] eqn:Ec; [|apply nth_error_None in Ec; lia].
      assert (HG : G k = map (fun b => (oId o, k, b)) (getBins chan)) by (unfold G; now rewrite Em, Ec).
      destruct (coupBins_ok par off i o k (getBins chan) Ho) with (n := n) (p := p0) (c := c0) as (c1 & E1 & I1); [|exact I0|].
      { apply Forall_forall. intros b Hb. now apply (chan_bins i o master chan). }
      assert (FK : F k (n, (p0, c0)) = Some (n + 2 * length (getBins chan), (assignAll (takePairs par (off + n) (map (fun b => (oId o, k, b)) (getBins chan))) p0, c1))).
      { unfold F. rewrite Em, Ec. exact E1. }
      rewrite FK. cbn [bnd]. destruct (IH (n + 2 * length (getBins chan)) _ c1 Hk2 I1) as (c' & E' & I').
      exists c'. rewrite E', HG, takePairs_app, assignAll_app, app_length, map_length. rewrite Nat.add_assoc in *. split; [|exact I']. do 2 f_equal. lia. }
  destruct (H (upTo (length (oFromCoup o))) 0 p c) as (c' & E & I'); [|exact Hinv|].
  { apply Forall_forall. intros k. apply upTo_in. }
  exists c'. rewrite Nat.add_0_r in *. split; [exact E|exact I'].
Qed.

Lemma invalProds_ok i o ch chan c : nth_error (mComps md) i = Some o -> nth_error (oChans o) ch = Some chan -> ext c = E0 ->
  exists c', invalProds chan c = Some c' /\
    zeroes (fun cell => exists b w m, waveIdx chan b = Some w /\ m < nmass /\ cell = KProd w b m) c c'.
Proof.
  intros Ho Hch Hc. unfold invalProds.
  destruct (foldO_zeroes (fun b c => setProdAmp (waveIdx chan b) (Some b) None (RtoC 0) c)
    (fun b cell => exists w m, waveIdx chan b = Some w /\ m < nmass /\ cell = KProd w b m) E0 (getBins chan)) with (c := c) as (c' & Ec & Z); [|exact Hc|].
  - intros b a Hb Ha. apply ext_E0 in Ha as (A1 & A2 & A3 & A4 & A5). pose proof (chan_bins i o ch chan b Ho Hch Hb) as Hlt.
    destruct (setProdAmp_ok (waveIdx chan b) (Some b) None (RtoC 0) a) as (a2 & E2 & Z2); [rewrite A1; now apply chan_ok with i o ch|cbn; lia|exact I|].
    exists a2. split; [exact E2|]. eapply zeroes_weak; [|exact (zeroes_writes _ _ _ Z2)]. intros cell (w & m & Hw & Hm & ->).
    cbn [kProd]. rewrite Hw, !hit_some, hit_none, !Nat.eqb_refl. cbn. apply Nat.ltb_lt. lia.
  - exists c'. split; [exact Ec|]. eapply zeroes_weak; [|exact Z]. intros cell (b & w & m & Hw & H).
    exists b. split; [apply getBins_in; eauto|]. eauto.
Qed.

Lemma invalBranching_ok i o k c : nth_error (mComps md) i = Some o -> ext c = E0 ->
  exists c', invalBranching o k c = Some c' /\
    zeroes (fun cell => exists ch chan b m, nth_error (oChans o) ch = Some chan /\ nth ch (oChBran o) 0 = k /\ m < nmass /\ b < nB /\
              (cell = KCoup i ch b m \/ exists w, waveIdx chan b = Some w /\ cell = KProd w b m)) c c'.
Proof.
  intros Ho Hc. destruct (comp_wf i o Ho) as (Wo & Hid & Hi). destruct Wo as (W1 & _). unfold invalBranching.
  match goal with |- exists c', foldO ?F ?l _ = _ /\ _ => destruct (foldO_zeroes F (fun ch cell => exists chan b m, nth_error (oChans o) ch = Some chan /\ nth ch (oChBran o) 0 = k /\ m < nmass /\ b < nB /\
              (cell = KCoup i ch b m \/ exists w, waveIdx chan b = Some w /\ cell = KProd w b m)) E0 l) with (c := c) as (c' & Ec & Z) end; [|exact Hc|].
  - intros ch a Hch Ha. apply upTo_in in Hch. destruct (nth_error (oChans o) ch) as [chan|] eqn:En; [|apply nth_error_None in En; lia].
    destruct (nth ch (oChBran o) 0 =? k) eqn:Ek.
    + apply ext_E0 in Ha as (A1 & A2 & A3 & A4 & A5).
      destruct (setCoupling_ok (oId o) ch None None (RtoC 0) a) as (a1 & E1 & Z1); [lia|lia|exact I|exact I|].
      assert (X1 : ext a1 = E0). { rewrite (proj2 Z1). unfold ext. now rewrite A1, A2, A3, A4, A5. }
      destruct (invalProds_ok i o ch chan a1 Ho En X1) as (a2 & E2 & Z2).
      exists a2. rewrite E1. cbn [bnd]. split; [exact E2|].
      eapply zeroes_weak; [|exact (zeroes_comp _ _ _ _ _ (zeroes_writes _ _ _ Z1) Z2)].
      intros cell (chan' & b & m & Hch' & _ & Hm & Hb & [->|(w & Hw & ->)]).
      * left. cbn [kCoup]. rewrite !hit_none, Hid, A4, A5. rewrite !Nat.eqb_refl. cbn [andb]. apply andb_true_iff. split; now apply Nat.ltb_lt.
      * right. injection Hch' as <-. eauto 6.
    + exists a. split; [reflexivity|]. eapply zeroes_weak; [|apply zeroes_id]. intros cell (chan' & b & m & _ & Hk & _). apply Nat.eqb_neq in Ek. tauto.
  - exists c'. split; [exact Ec|]. eapply zeroes_weak; [|exact Z]. intros cell (ch & chan & b & m & Hn & Hk & H).
    exists ch. split; [apply upTo_in, nth_error_Some; congruence|]. eauto 6.
Qed.

Lemma setPBran_other i k v p i' k' : (i', k') <> (i, k) -> pBran (setPBran i k v p) i' k' = pBran p i' k'.
Proof. intros H. cbn. destruct ((i' =? i) && (k' =? k)) eqn:E; [|reflexivity]. apply eqb2 in E. tauto. Qed.
Lemma directCoup_setPBran i k v p i' ch b x m :
  ~ (i' = i /\ exists o chan, nth_error (mComps md) i = Some o /\ nth_error (oChans o) ch = Some chan /\ nth ch (oChBran o) 0 = k) ->
  directCoup md (setPBran i k v p) i' ch b x m = directCoup md p i' ch b x m.
Proof.
  intros H. unfold directCoup. destruct (nth_error (mComps md) i') as [o|] eqn:Eo; [|reflexivity].
  destruct (nth_error (oChans o) ch) as [chan|] eqn:Ec; [|reflexivity]. f_equal. f_equal. apply setPBran_other.
  intros X. injection X as -> Hk. apply H. split; [reflexivity|]. eauto.
Qed.
Lemma inv_setBran i o k v p c : nth_error (mComps md) i = Some o -> inv p c ->
  exists c', invalBranching o k c = Some c' /\ inv (setPBran i k v p) c'.
Proof.
  intros Ho Hinv. destruct (invalBranching_ok i o k c Ho (proj1 Hinv)) as (c' & Ec & Z). exists c'. split; [exact Ec|].
  apply (inv_zero p _ _ c c' Hinv Z). intros cell Hv Hn. destruct cell as [i' ch' b' m'|i' b' m'|w b' m']; cbn [direct valid] in *.
  - apply directCoup_setPBran. intros (-> & o' & chan & Eo & Ech & Hk). rewrite Ho in Eo. injection Eo as <-. apply Hn.
    exists ch', chan, b', m'. split; [exact Ech|]. split; [exact Hk|]. split; [apply mass_le with b'; tauto|]. split; [tauto|]. now left.
  - reflexivity.
  - apply directAmp_ext; [|reflexivity]. intros i' ch Hin. split; [reflexivity|]. apply directCoup_setPBran.
    intros (-> & o' & chan & Eo & Ech & Hk). rewrite Ho in Eo. injection Eo as <-. apply Hn.
    exists ch, chan, b', m'. split; [exact Ech|]. split; [exact Hk|]. split; [apply mass_le with b'; tauto|]. split; [tauto|]. right.
    exists w. split; [|reflexivity]. apply (chan_knows b' w i ch o chan); tauto.
Qed.
Lemma importBranchings_ok par off i o p c : nth_error (mComps md) i = Some o -> inv p c ->
  exists c', importBranchings par off o (p, c) = Some (2 * nFree (compBran o), (assignAll (takeBran par off (compBran o)) p, c')) /\
    inv (assignAll (takeBran par off (compBran o)) p) c'.
Proof.
  intros Ho Hinv. unfold importBranchings, compBran. destruct (comp_wf i o Ho) as (_ & Hid & _).
  set (F := fun (k : nat) (a : nat * (params * rcache)) => _). set (G := fun k => (oId o, k, nth k (oFixed o) true)).
  assert (H : forall ks n p c, inv p c ->
    exists c', foldO F ks (n, (p, c)) = Some (n + 2 * nFree (map G ks), (assignAll (takeBran par (off + n) (map G ks)) p, c')) /\
      inv (assignAll (takeBran par (off + n) (map G ks)) p) c').
  { induction ks as [|k ks IH]; intros n p0 c0 I0.
    - exists c0. cbn. rewrite Nat.add_0_r. split; [reflexivity|exact I0].
    - cbn [foldO map]. set (fx := nth k (oFixed o) true). set (v := if fx then RtoC 1 else (par (off + n), par (off + n + 1))). set (n' := if fx then n else n + 2).
      assert (S : exists c1, F k (n, (p0, c0)) = Some (n', (setPBran (oId o) k v p0, c1)) /\ inv (setPBran (oId o) k v p0) c1).
      { unfold F. cbn zeta. fold fx. fold n'. fold v. destruct (Ceqb (pBran p0 (oId o) k) v) eqn:E.
        - apply Ceqb_eq in E. rewrite setPBran_same by exact E. eauto.
        - destruct (inv_setBran i o k v p0 c0 Ho I0) as (c1 & E1 & I1). exists c1. rewrite E1, Hid. cbn [bnd]. split; [reflexivity|exact I1]. }
      destruct S as (c1 & E1 & I1). rewrite E1. cbn [bnd]. destruct (IH n' _ c1 I1) as (c' & E' & I'). exists c'.
      rewrite E'. change (G k) with (oId o, k, fx). unfold v, n' in *. clear v n' E1 E'. clearbody fx.
      destruct fx; cbn [takeBran assignAll fold_left doAssign] in *; change (fold_left doAssign ?l ?p) with (assignAll l p) in *.
      + split; [reflexivity|exact I'].
      + rewrite Nat.add_assoc in I'. rewrite Nat.add_assoc. split; [|exact I']. do 2 f_equal. unfold nFree. cbn. lia. }
  destruct (H (upTo (length (oFixed o))) 0 p c Hinv) as (c' & E & I').
  exists c'. rewrite Nat.add_0_r in *. split; [exact E|exact I'].
Qed.

Lemma upTo_S n : upTo (S n) = upTo n ++ [n]. Proof. unfold upTo. now rewrite seq_S. Qed.
Lemma copyPars_ok par off id i0 n p : exists ch,
  copyPars par off id i0 n p = (assignAll (takeSingle par (off + i0) (map (fun j => (id, i0 + j)) (upTo n))) p, ch) /\
  (ch = false -> assignAll (takeSingle par (off + i0) (map (fun j => (id, i0 + j)) (upTo n))) p = p).
Proof.
  induction n as [|n (ch & E & H)].
  - exists false. split; reflexivity.
  - unfold copyPars in *. rewrite upTo_S, map_app, takeSingle_app, assignAll_app, fold_left_app, map_length, upTo_len, E.
    cbn [fold_left map takeSingle assignAll doAssign fst]. change (fold_left doAssign ?l ?p) with (assignAll l p). set (q := assignAll _ p) in *.
    replace (off + (i0 + n)) with (off + i0 + n) by lia. destruct (decR (pPar q id (i0 + n)) (par (off + i0 + n))) eqn:D.
    + apply decR_eq in D. exists ch. rewrite setPPar_same by exact D. auto.
    + exists true. split; [reflexivity|discriminate].
Qed.
Lemma assign_pars_other par id l : forall off p, Forall (fun x => fst x = id) l ->
  let q := assignAll (takeSingle par off l) p in
  pCoup q = pCoup p /\ pBran q = pBran p /\ (forall i, i <> id -> pPar q i = pPar p i) /\
  (forall j, ~ In j (map snd l) -> pPar q id j = pPar p id j).
Proof.
  induction l as [|[i k] l IH]; intros off p H; cbn zeta; [cbn; auto|].
  apply Forall_cons_iff in H as [H1 H2]. cbn in H1. subst i. cbn [takeSingle assignAll fold_left doAssign]. change (fold_left doAssign ?l ?p) with (assignAll l p).
  destruct (IH (off + 1) (setPPar id k (par off) p) H2) as (A & B & D & E). rewrite A, B. split; [reflexivity|]. split; [reflexivity|]. split.
  - intros i Hi. rewrite (D i Hi). cbn. extensionality j. apply Nat.eqb_neq in Hi. now rewrite Hi.
  - intros j Hj. cbn in Hj. rewrite E by tauto. cbn. rewrite Nat.eqb_refl. cbn. destruct (j =? k) eqn:Ej; [|reflexivity].
    apply Nat.eqb_eq in Ej. subst. tauto.
Qed.

Lemma importParameters_ok par off i o p c : nth_error (mComps md) i = Some o -> inv p c ->
  exists c', importParameters par off o (p, c) = Some (length (compPars o), (assignAll (takeSingle par off (compPars o)) p, c')) /\
    inv (assignAll (takeSingle par off (compPars o)) p) c'.
Proof.
  intros Ho Hinv. destruct (comp_wf i o Ho) as (_ & Hid & Hi). unfold importParameters, compPars. rewrite map_length, upTo_len.
  destruct (copyPars_ok par off (oId o) 0 (oNPar o) p) as (ch & E & Hch). rewrite Nat.add_0_r in *. cbn [Nat.add] in *.
  rewrite E. clear E. set (q := assignAll _ p) in *.
  destruct ch; [|rewrite Hch by reflexivity; eauto].
  destruct (assign_pars_other par i (map (fun k => (oId o, k)) (upTo (oNPar o))) off p) as (Q1 & Q2 & Q3 & _).
  { apply Forall_forall. intros x Hx. apply in_map_iff in Hx as (k & <- & _). exact Hid. }
  fold q in Q1, Q2, Q3. destruct Hinv as [X Hinv]. pose proof X as X'. apply ext_E0 in X' as (A1 & A2 & A3 & A4 & A5).
  destruct (setComponent_ok (oId o) None None (RtoC 0) c) as (c1 & E1 & Z1); [lia|exact I|exact I|].
  rewrite E1. cbn [bnd].
  assert (X1 : ext c1 = E0) by (rewrite (proj2 Z1); exact X).
  destruct (foldO_zeroes invalProds (fun chan cell => exists b w m, waveIdx chan b = Some w /\ m < nmass /\ cell = KProd w b m) E0 (oChans o)) with (c := c1) as (c2 & E2 & Z2); [|exact X1|].
  { intros chan a Hin Ha. apply In_nth_error in Hin as [n Hn]. now apply (invalProds_ok i o n chan). }
  rewrite E2. cbn [bnd]. exists c2. split; [reflexivity|].
  eapply inv_zero; [split; [exact X|exact Hinv]|exact (zeroes_comp _ _ _ _ _ (zeroes_writes _ _ _ Z1) Z2)|].
  intros cell Hv Hn. destruct cell as [i' ch' b' m'|i' b' m'|w b' m']; cbn [direct valid] in *.
  - unfold directCoup. now rewrite Q1, Q2.
  - destruct (Nat.eq_dec i' i) as [->|Hne].
    + exfalso. apply Hn. left. cbn [kComp]. rewrite !hit_none, Hid, A4, A5, Nat.eqb_refl. cbn [andb]. apply andb_true_iff. split; apply Nat.ltb_lt; [tauto|].
      apply mass_le with b'; tauto.
    + destruct (i' =? nC).
      * unfold directFsmd. rewrite Q3 by lia. reflexivity.
      * unfold directComp. now rewrite Q3.
  - apply directAmp_ext.
    + intros i' ch Hin. split; [|unfold directCoup; now rewrite Q1, Q2]. unfold directComp. destruct (Nat.eq_dec i' i) as [->|Hne]; [|now rewrite Q3].
      exfalso. apply Hn. right. pose proof Hin as Hin'. apply wcc_in in Hin as (o' & chan & Eo & Ec & _). rewrite Ho in Eo. injection Eo as <-.
      exists chan. split; [eapply nth_error_In; exact Ec|]. exists b', w, m'. split; [|split; [|reflexivity]].
      * apply (chan_knows b' w i ch o chan); tauto.
      * apply mass_le with b'; tauto.
    + unfold directFsmd. rewrite Q3 by lia. reflexivity.
Qed.

(* the three loops over the components *)
Fixpoint goAsg (cnt : component -> nat) (asg : nat -> component -> list assign) (off : nat) (os : list component) : list assign :=
  match os with [] => [] | o :: t => asg off o ++ goAsg cnt asg (off + cnt o) t end.
Lemma importLoop_ok (imp : nat -> component -> params * rcache -> option (nat * (params * rcache))) (cnt : component -> nat) (asg : nat -> component -> list assign) :
  (forall off i o p c, nth_error (mComps md) i = Some o -> inv p c ->
     exists c', imp off o (p, c) = Some (cnt o, (assignAll (asg off o) p, c')) /\ inv (assignAll (asg off o) p) c') ->
  forall os pre off p c, mComps md = pre ++ os -> inv p c ->
  exists c', foldO (fun o (a : nat * (params * rcache)) => do r <- imp (fst a) o (snd a); Some (fst a + fst r, snd r)) os (off, (p, c))
    = Some (off + fold_right (fun o s => cnt o + s) 0 os, (assignAll (goAsg cnt asg off os) p, c')) /\
    inv (assignAll (goAsg cnt asg off os) p) c'.
Proof.
  intros H. induction os as [|o os IH]; intros pre off p c Hos Hinv.
  - exists c. cbn. rewrite Nat.add_0_r. auto.
  - destruct (H off (length pre) o p c) as (c1 & E1 & I1); [|exact Hinv|].
    { rewrite Hos, nth_error_app2, Nat.sub_diag by lia. reflexivity. }
    cbn [foldO fst snd]. rewrite E1. cbn [bnd fst snd].
    destruct (IH (pre ++ [o]) (off + cnt o) (assignAll (asg off o) p) c1) as (c' & E' & I'); [now rewrite <- app_assoc|exact I1|].
    exists c'. cbn [goAsg]. rewrite E', assignAll_app. split; [|exact I']. do 2 f_equal. cbn [fold_right]. lia.
Qed.
Lemma goCoup par os : forall off, goAsg (fun o => 2 * length (compCoup o)) (fun off o => takePairs par off (compCoup o)) off os = takePairs par off (flat_map compCoup os)
  /\ fold_right (fun o s => 2 * length (compCoup o) + s) 0 os = 2 * length (flat_map compCoup os).
Proof.
  induction os as [|o os IH]; intros off; [split; reflexivity|]. cbn [goAsg flat_map fold_right]. destruct (IH (off + 2 * length (compCoup o))) as [-> ->].
  rewrite takePairs_app, app_length. split; [reflexivity|lia].
Qed.
Lemma goBran par os : forall off, goAsg (fun o => 2 * nFree (compBran o)) (fun off o => takeBran par off (compBran o)) off os = takeBran par off (flat_map compBran os)
  /\ fold_right (fun o s => 2 * nFree (compBran o) + s) 0 os = 2 * nFree (flat_map compBran os).
Proof.
  induction os as [|o os IH]; intros off; [split; reflexivity|]. cbn [goAsg flat_map fold_right]. destruct (IH (off + 2 * nFree (compBran o))) as [-> ->].
  rewrite takeBran_app, nFree_app. split; [reflexivity|lia].
Qed.
Lemma goPars par os : forall off, goAsg (fun o => length (compPars o)) (fun off o => takeSingle par off (compPars o)) off os = takeSingle par off (flat_map compPars os)
  /\ fold_right (fun o s => length (compPars o) + s) 0 os = length (flat_map compPars os).
Proof.
  induction os as [|o os IH]; intros off; [split; reflexivity|]. cbn [goAsg flat_map fold_right]. destruct (IH (off + length (compPars o))) as [-> ->].
  rewrite takeSingle_app, app_length. split; [reflexivity|lia].
Qed.

(* ---------------- final-state mass-dependence ---------------- *)
Lemma zero_all c : ext c = E0 -> exists c1 c2, setComponent nC None None (RtoC 0) c = Some c1 /\ setProdAmp None None None (RtoC 0) c1 = Some c2 /\
  zeroes (fun cell => match cell with KCoup _ _ _ _ => False | KComp i b m => i = nC /\ b < nB /\ m < nmass | KProd w b m => w < nw /\ b < nB /\ m < nmass end) c c2.
Proof.
  intros X. pose proof X as X'. apply ext_E0 in X' as (A1 & A2 & A3 & A4 & A5).
  destruct (setComponent_ok nC None None (RtoC 0) c) as (c1 & E1 & Z1); [lia|exact I|exact I|].
  destruct (setProdAmp_ok None None None (RtoC 0) c1 I I I) as (c2 & E2 & Z2).
  exists c1, c2. split; [exact E1|]. split; [exact E2|].
  pose proof (proj2 Z1) as X1. apply ext5 in X1 as (B1 & B2 & B3 & B4 & B5).
  eapply zeroes_weak; [|exact (zeroes_comp _ _ _ _ _ (zeroes_writes _ _ _ Z1) (zeroes_writes _ _ _ Z2))].
  intros [i ch b m|i b m|w b m]; cbn [kComp kProd]; rewrite ?hit_none, ?B1, ?B4, ?B5, ?A1, ?A4, ?A5; [tauto| |].
  - intros (-> & Hb & Hm). left. rewrite Nat.eqb_refl. cbn [andb]. apply andb_true_iff. split; now apply Nat.ltb_lt.
  - intros (Hw & Hb & Hm). right. rewrite !andb_true_iff, !Nat.ltb_lt. auto.
Qed.
Lemma zero_bin b c : b < nB -> ext c = E0 -> exists c1 c2, setComponent nC (Some b) None (RtoC 0) c = Some c1 /\ setProdAmp None (Some b) None (RtoC 0) c1 = Some c2 /\
  zeroes (fun cell => match cell with KCoup _ _ _ _ => False | KComp i b' m => i = nC /\ b' = b /\ m < nmass | KProd w b' m => w < nw /\ b' = b /\ m < nmass end) c c2.
Proof.
  intros Hb X. pose proof X as X'. apply ext_E0 in X' as (A1 & A2 & A3 & A4 & A5).
  destruct (setComponent_ok nC (Some b) None (RtoC 0) c) as (c1 & E1 & Z1); [lia|cbn; lia|exact I|].
  pose proof (proj2 Z1) as X1. apply ext5 in X1 as (B1 & B2 & B3 & B4 & B5).
  destruct (setProdAmp_ok None (Some b) None (RtoC 0) c1 I) as (c2 & E2 & Z2); [cbn; lia|exact I|].
  exists c1, c2. split; [exact E1|]. split; [exact E2|].
  eapply zeroes_weak; [|exact (zeroes_comp _ _ _ _ _ (zeroes_writes _ _ _ Z1) (zeroes_writes _ _ _ Z2))].
  intros [i ch b' m|i b' m|w b' m]; cbn [kComp kProd]; rewrite ?hit_none, ?hit_some, ?B1, ?B4, ?B5, ?A1, ?A4, ?A5; [tauto| |].
  - intros (-> & -> & Hm). left. rewrite !Nat.eqb_refl. cbn [andb]. now apply Nat.ltb_lt.
  - intros (Hw & -> & Hm). right. rewrite !andb_true_iff, !Nat.ltb_lt, Nat.eqb_refl. auto.
Qed.

(* changing only parameters of the mass-dependence that bin b' does not use *)
Lemma direct_fsmd_other p q : pCoup q = pCoup p -> pBran q = pBran p -> (forall i, i <> nC -> pPar q i = pPar p i) ->
  forall k, valid k -> (match k with KCoup _ _ b _ => True | KComp i b m => i = nC -> directFsmd md q b (mc b m) = directFsmd md p b (mc b m)
    | KProd w b m => directFsmd md q b (mc b m) = directFsmd md p b (mc b m) end) -> direct q k = direct p k.
Proof.
  intros Q1 Q2 Q3 [i ch b m|i b m|w b m] Hv H; cbn [direct] in *.
  - unfold directCoup. now rewrite Q1, Q2.
  - destruct (i =? nC) eqn:E; [apply Nat.eqb_eq in E; auto|]. apply Nat.eqb_neq in E. unfold directComp. now rewrite Q3.
  - apply directAmp_ext; [|exact H]. intros i ch Hin. split; [|unfold directCoup; now rewrite Q1, Q2].
    apply wcc_in in Hin as (o & chan & Eo & _). apply comp_wf in Eo as (_ & _ & Hi). unfold directComp. rewrite Q3 by lia. reflexivity.
Qed.
Definition psum (l : list nat) : nat := fold_left Nat.add l 0.
Lemma fold_add l : forall a, fold_left Nat.add l a = a + fold_left Nat.add l 0.
Proof. induction l as [|x l IH]; intros a; cbn; [lia|]. rewrite IH, (IH x). lia. Qed.
Lemma psum_snoc l x : psum (l ++ [x]) = psum l + x.
Proof. unfold psum. rewrite fold_left_app. reflexivity. Qed.
Lemma firstn_S_nth (l : list nat) k : k < length l -> firstn (S k) l = firstn k l ++ [nth k l 0].
Proof. revert k. induction l as [|x l IH]; intros k H; cbn in H; [lia|]. destruct k as [|k]; [reflexivity|]. cbn [firstn app nth]. now rewrite <- IH by lia. Qed.
Lemma psum_S l k : k < length l -> psum (firstn (S k) l) = psum (firstn k l) + nth k l 0.
Proof. intros H. now rewrite firstn_S_nth, psum_snoc. Qed.
Lemma psum_mono l b b' : b < b' -> b' <= length l -> psum (firstn b l) + nth b l 0 <= psum (firstn b' l).
Proof.
  intros H. induction b' as [|b' IH]; intros Hl; [lia|]. rewrite psum_S by lia. destruct (Nat.eq_dec b b') as [->|Hn]; [lia|]. specialize (IH ltac:(lia) ltac:(lia)). lia.
Qed.
Lemma upTo_add a n : upTo (a + n) = upTo a ++ map (fun j => a + j) (upTo n).
Proof. induction n as [|n IH]; [now rewrite Nat.add_0_r, app_nil_r|]. rewrite Nat.add_succ_r, !upTo_S, IH, map_app, app_assoc. reflexivity. Qed.

Lemma importFsmd_same par off f fn npar p c : mFsmd md = Some f -> f = fsmdSame nC nm mc fn npar -> inv p c ->
  exists n c', importFsmd par off f (p, c) = Some (n, (assignAll (takeSingle par off (fsmdPars nC f)) p, c')) /\
    inv (assignAll (takeSingle par off (fsmdPars nC f)) p) c'.
Proof.
  intros Hf Ef Hinv. subst f. unfold importFsmd, fsmdPars. cbn [fSame fNPar fsmdSame fId fIndex orb upTo List.seq foldO].
  set (np := nth 0 (map (fun _ => npar) (upTo nB)) 0).
  assert (I0 : nth 0 (map (fun _ => 0) (upTo nB)) 0 = 0). { destruct (upTo nB); reflexivity. }
  rewrite I0. destruct (copyPars_ok par off nC 0 np p) as (ch & E & Hch). rewrite Nat.add_0_r in *.
  change (fun j => (nC, 0 + j)) with (fun k : nat => (nC, k)) in *. rewrite E. clear E.
  destruct (assign_pars_other par nC (map (fun k => (nC, k)) (upTo np)) off p) as (Q1 & Q2 & Q3 & _).
  { apply Forall_forall. intros x Hx. apply in_map_iff in Hx as (k & <- & _). reflexivity. }
  set (q := assignAll _ p) in *.
  destruct ch; [|rewrite Hch by reflexivity; cbn [bnd]; eauto].
  destruct (zero_all c (proj1 Hinv)) as (c1 & c2 & E1 & E2 & Z). rewrite E1. cbn [bnd]. rewrite E2. cbn [bnd]. eexists _, c2. split; [reflexivity|].
  apply (inv_zero p q _ c c2 Hinv Z). intros k Hv Hn. apply direct_fsmd_other; auto.
  destruct k as [i ch b m|i b m|w b m]; cbn [valid] in Hv; [exact I| |].
  - intros ->. exfalso. apply Hn. split; [reflexivity|]. split; [tauto|]. apply mass_le with b; tauto.
  - exfalso. apply Hn. split; [apply wave_le with b; tauto|]. split; [tauto|]. apply mass_le with b; tauto.
Qed.

Lemma importFsmd_perbin par off f fs npar p c : mFsmd md = Some f -> f = fsmdPerBin nC fs npar -> length fs = nB -> length npar = nB ->
  (forall b fn, nth_error fs b = Some fn -> forall q q' x, (forall i, i < nth b npar 0 -> q i = q' i) -> fn q x = fn q' x) -> inv p c ->
  exists n c', importFsmd par off f (p, c) = Some (n, (assignAll (takeSingle par off (fsmdPars nC f)) p, c')) /\
    inv (assignAll (takeSingle par off (fsmdPars nC f)) p) c'.
Proof.
  intros Hf Ef L1 L2 Hdep Hinv. unfold importFsmd, fsmdPars. rewrite Ef. cbn [fSame fNPar fsmdPerBin fId fFun fEqual orb]. rewrite map_length, L1.
  set (F := fun (b : nat) (a : nat * (params * rcache)) => _). set (A := fun k => assignAll (takeSingle par off (map (fun j => (nC, j)) (upTo (psum (firstn k npar))))) p).
  assert (HF : forall b p0 c0 n, b < nB -> p0 = A b -> inv p0 c0 -> exists c1, F b (n, (p0, c0)) = Some (n + nth b npar 0, (A (S b), c1)) /\ inv (A (S b)) c1).
  { intros b p0 c0 n Hb Hp I0. unfold F.
    assert (Ei : nth b (fIndex (fsmdPerBin nC fs npar)) 0 = psum (firstn b npar)).
    { cbn [fIndex fsmdPerBin]. rewrite L2, nth_map_upTo by exact Hb. reflexivity. }
    rewrite Ei. destruct (copyPars_ok par off nC (psum (firstn b npar)) (nth b npar 0) p0) as (ch & E & Hch). rewrite E. clear E.
    destruct (assign_pars_other par nC (map (fun k => (nC, psum (firstn b npar) + k)) (upTo (nth b npar 0))) (off + psum (firstn b npar)) p0) as (Q1 & Q2 & Q3 & Q4).
    { apply Forall_forall. intros x Hx. apply in_map_iff in Hx as (k & <- & _). reflexivity. }
    assert (EA : A (S b) = assignAll (takeSingle par (off + psum (firstn b npar)) (map (fun k => (nC, psum (firstn b npar) + k)) (upTo (nth b npar 0)))) p0).
    { unfold A. rewrite psum_S by lia. rewrite upTo_add, map_app, takeSingle_app, assignAll_app, map_length, upTo_len. subst p0. unfold A. now rewrite map_map. }
    rewrite <- EA in *. clear EA. set (q := A (S b)) in *.
    assert (D : forall k, valid k -> match k with KCoup _ _ _ _ => True | KComp i b' m => i = nC -> b' <> b | KProd w b' m => b' <> b end -> direct q k = direct p0 k).
    { intros k Hv Hk.
      assert (G : forall b' m, b' < nB -> b' <> b -> directFsmd md q b' (mc b' m) = directFsmd md p0 b' (mc b' m)).
      { intros b' m Hb' Hne. unfold directFsmd. rewrite Hf, Ef. cbn [fFun fsmdPerBin fIndex]. rewrite L2, nth_map_upTo by exact Hb'.
        destruct (nth_error fs b') as [fn|] eqn:En; [|apply nth_error_None in En; lia].
        rewrite (nth_error_nth (map Some fs) b' None (map_nth_error Some b' fs En)). apply (Hdep b' fn En). intros i Hi. apply Q4.
        rewrite map_map. cbn [snd]. intros X. apply in_map_iff in X as (j & Ej & Hj). apply upTo_in in Hj. fold (psum (firstn b' npar)) in Ej.
        destruct (Nat.lt_ge_cases b b') as [Hlt|Hge].
        - pose proof (psum_mono npar b b' Hlt ltac:(lia)). lia.
        - pose proof (psum_mono npar b' b ltac:(lia) ltac:(lia)). lia. }
      apply direct_fsmd_other; auto. destruct k as [i ch' b' m|i b' m|w b' m]; cbn [valid] in Hv; [exact I| |].
      - intros Hi. apply G; [tauto|auto].
      - apply G; [tauto|auto]. }
    destruct ch; [|rewrite Hch in * by reflexivity; eexists; split; [reflexivity|exact I0]].
    unfold singleBins. rewrite nth_map_upTo, map_length, upTo_len by exact Hb. cbn [length]. destruct (1 =? nB) eqn:E1.
    - apply Nat.eqb_eq in E1. destruct (zero_all c0 (proj1 I0)) as (c1 & c2 & S1 & S2 & Z). rewrite S1. cbn [bnd]. rewrite S2. cbn [bnd]. exists c2. split; [reflexivity|].
      apply (inv_zero p0 q _ c0 c2 I0 Z). intros k Hv Hn. apply D; [exact Hv|]. destruct k as [i ch' b' m|i b' m|w b' m]; cbn [valid] in Hv; [exact I| |].
      + intros ->. exfalso. apply Hn. split; [reflexivity|]. split; [tauto|]. apply mass_le with b'; tauto.
      + exfalso. apply Hn. split; [apply wave_le with b'; tauto|]. split; [tauto|]. apply mass_le with b'; tauto.
    - destruct (zero_bin b c0 Hb (proj1 I0)) as (c1 & c2 & S1 & S2 & Z). cbn [foldO]. rewrite S1. cbn [bnd]. rewrite S2. cbn [bnd]. exists c2. split; [reflexivity|].
      apply (inv_zero p0 q _ c0 c2 I0 Z). intros k Hv Hn. apply D; [exact Hv|]. destruct k as [i ch' b' m|i b' m|w b' m]; cbn [valid] in Hv; [exact I| |].
      + intros -> ->. apply Hn. split; [reflexivity|]. split; [reflexivity|]. apply mass_le with b; tauto.
      + intros ->. apply Hn. split; [apply wave_le with b; tauto|]. split; [reflexivity|]. apply mass_le with b; tauto. }
  assert (H : forall k, k <= nB -> exists n c', foldO F (upTo k) (0, (p, c)) = Some (n, (A k, c')) /\ inv (A k) c').
  { induction k as [|k IH]; intros Hk; [exists 0, c; split; [reflexivity|exact Hinv]|].
    destruct (IH ltac:(lia)) as (n & c1 & E1 & I1). rewrite upTo_S, foldO_app, E1. cbn [bnd foldO].
    destruct (HF k (A k) c1 n ltac:(lia) eq_refl I1) as (c2 & E2 & I2). rewrite E2. cbn [bnd]. eauto. }
  destruct (H nB (le_n _)) as (n & c' & E & I'). exists n, c'. unfold A in *. rewrite <- L2, firstn_all in *. split; [exact E|exact I'].
Qed.

Lemma importAll_ok par p c : inv p c -> exists c', importAll md par (p, c) = Some (assignAll (assigns md par) p, c') /\ inv (assignAll (assigns md par) p) c'.
Proof.
  intros Hinv. unfold importAll, importLoop, assigns, couplingCells, branchingCells, parameterCells. cbn zeta.
  destruct (importLoop_ok (importCouplings par) (fun o => 2 * length (compCoup o)) (fun off o => takePairs par off (compCoup o))
    (fun off i o p c => importCouplings_ok par off i o p c) (mComps md) [] 0 p c eq_refl Hinv) as (c1 & E1 & I1).
  destruct (goCoup par (mComps md) 0) as [G1 G2]. rewrite G1, G2 in *. rewrite E1. cbn [bnd]. clear E1 G1 G2.
  destruct (importLoop_ok (importBranchings par) (fun o => 2 * nFree (compBran o)) (fun off o => takeBran par off (compBran o))
    (fun off i o p c => importBranchings_ok par off i o p c) (mComps md) [] (0 + 2 * length (flat_map compCoup (mComps md))) _ c1 eq_refl I1) as (c2 & E2 & I2).
  destruct (goBran par (mComps md) (0 + 2 * length (flat_map compCoup (mComps md)))) as [G1 G2]. rewrite G1, G2 in *. rewrite E2. cbn [bnd]. clear E2 G1 G2.
  set (o2 := 0 + 2 * length (flat_map compCoup (mComps md)) + 2 * nFree (flat_map compBran (mComps md))) in *.
  destruct (importLoop_ok (importParameters par) (fun o => length (compPars o)) (fun off o => takeSingle par off (compPars o))
    (fun off i o p c => importParameters_ok par off i o p c) (mComps md) [] o2 _ c2 eq_refl I2) as (c3 & E3 & I3).
  destruct (goPars par (mComps md) o2) as [G1 G2]. rewrite G1, G2 in *. rewrite E3. cbn [bnd fst snd]. clear E3 G1 G2. cbn [Nat.add] in o2.
  rewrite !assignAll_app. fold o2. cbn [Nat.add] in *. destruct (mFsmd md) as [f|] eqn:Ef.
  - rewrite takeSingle_app, assignAll_app.
    destruct (wfFs _ _ _ _ _ _ WF f Ef) as [(fn & npar & Hf)|(fs & npar & Hf & L1 & L2 & Hd)].
    + destruct (importFsmd_same par (o2 + length (flat_map compPars (mComps md))) f fn npar _ c3 Ef Hf I3) as (n & c' & E & I'). rewrite E. cbn [bnd snd]. eauto.
    + destruct (importFsmd_perbin par (o2 + length (flat_map compPars (mComps md))) f fs npar _ c3 Ef Hf L1 L2 Hd I3) as (n & c' & E & I'). rewrite E. cbn [bnd snd]. eauto.
  - rewrite app_nil_r. eauto.
Qed.

(* ---------------- evaluation ---------------- *)
Definition okM (b : nat) (x : R) (m : option nat) : Prop := match m with Some mi => x = mc b mi /\ mi < nth b nm 0 | None => True end.
Lemma compVal_ok i o p b x m c : nth_error (mComps md) i = Some o -> b < nB -> okM b x m -> inv p c ->
  exists c', compVal o p b x m c = Some (directComp md p i b x, c') /\ inv p c'.
Proof.
  intros Ho Hb Hm Hinv. destruct (comp_wf i o Ho) as (Wo & Hid & Hi). unfold compVal. rewrite Hid.
  assert (D : directComp md p i b x = oVal o (pPar p i) b x) by (unfold directComp; now rewrite Ho).
  destruct m as [mi|]; [|rewrite D; eauto]. destruct Hm as [-> Hm].
  assert (Hne : (i =? nC) = false) by (apply Nat.eqb_neq; lia).
  destruct (Ceqb (cComp c i b mi) (RtoC 0)) eqn:E; cbn [negb].
  - rewrite <- D. destruct Wo as (_ & _ & _ & _ & _ & WE). pose proof (proj1 Hinv) as X. apply ext_E0 in X as (A1 & A2 & A3 & A4 & A5).
    assert (HG : groups nm mc (oEqual o)). { destruct WE as [->|[-> _]]; [apply groups_single|apply groups_massBinning]. }
    pose proof (mass_le b mi Hb Hm) as Hmm.
    destruct (storeEqual_ok nm mc i (oEqual o) b mi (directComp md p i b (mc b mi)) c HG Hb) as (c' & Ec & W); [lia|exact A4|lia|].
    rewrite Ec. cbn [bnd]. exists c'. split; [reflexivity|]. apply (inv_store p _ _ c c' Hinv W).
    intros [i' ch' b' m'|i' b' m'|w b' m'] Hv HS; cbn [kComp] in HS; try discriminate HS.
    rewrite !andb_true_iff, !Nat.eqb_eq in HS. destruct HS as [[-> HS] <-]. cbn [direct]. rewrite Hne.
    apply existsb_exists in HS as (y & Hy & Ey). apply Nat.eqb_eq in Ey. subst y. destruct WE as [WE|[WE Wb]].
    + rewrite WE in Hy. unfold singleBins in Hy. rewrite nth_map_upTo in Hy by exact Hb. destruct Hy as [<-|[]]. reflexivity.
    + destruct HG as [_ G]. apply (G b Hb) in Hy as [_ [_ Hs]]. unfold directComp. rewrite Ho, Hs by exact Hm. apply Wb.
  - apply Ceqb_neq in E. destruct Hinv as [X H]. destruct (H (KComp i b mi) (conj Hb Hm)) as [Z|Z]; cbn [readCell direct] in Z; [contradiction|].
    rewrite Hne in Z. rewrite Z. exists c. split; [reflexivity|]. now split.
Qed.
Lemma couplingPS_ok i o ch chan p b x m c : nth_error (mComps md) i = Some o -> nth_error (oChans o) ch = Some chan -> b < nB -> okM b x m -> inv p c ->
  exists c', couplingPS o p ch b x m c = Some (directCoup md p i ch b x m, c') /\ inv p c'.
Proof.
  intros Ho Hch Hb Hm Hinv. destruct (comp_wf i o Ho) as ((W1 & W2 & W3 & _) & Hid & Hi). unfold couplingPS. rewrite Hch, Hid.
  assert (Hlt : ch < length (oChans o)) by (apply nth_error_Some; congruence).
  rewrite (nth_error_nth' (oChCoup o) 0) by lia. rewrite (nth_error_nth' (oChBran o) 0) by lia.
  assert (D : directCoup md p i ch b x m = (pCoup p i (nth ch (oChCoup o) 0) b * pBran p i (nth ch (oChBran o) 0) * RtoC (phaseSpaceAt chan b x m))%C) by (unfold directCoup; now rewrite Ho, Hch).
  rewrite <- D. destruct m as [mi|]; [|eauto]. destruct Hm as [-> Hm].
  destruct (Ceqb (cCoup c i ch b mi) (RtoC 0)) eqn:E; cbn [negb].
  - pose proof (proj1 Hinv) as X. apply ext_E0 in X as (A1 & A2 & A3 & A4 & A5). pose proof (mass_le b mi Hb Hm) as Hmm.
    destruct (setCoupling_ok i ch (Some b) (Some mi) (directCoup md p i ch b (mc b mi) (Some mi)) c) as (c' & Ec & W); [lia|lia|cbn; lia|cbn; lia|].
    rewrite Ec. cbn [bnd]. exists c'. split; [reflexivity|]. apply (inv_store p _ _ c c' Hinv W).
    intros [i' ch' b' m'|i' b' m'|w b' m'] Hv HS; cbn [kCoup] in HS; try discriminate HS.
    rewrite !hit_some, !andb_true_iff, !Nat.eqb_eq in HS. destruct HS as [[[-> ->] <-] <-]. reflexivity.
  - apply Ceqb_neq in E. destruct Hinv as [X H]. destruct (H (KCoup i ch b mi) (conj Hb Hm)) as [Z|Z]; cbn [readCell direct] in Z; [contradiction|].
    rewrite Z. exists c. split; [reflexivity|]. now split.
Qed.
Lemma fsmdVal_ok f p b x m c : mFsmd md = Some f -> b < nB -> okM b x m -> inv p c ->
  exists c', fsmdVal f p b x m c = Some (directFsmd md p b x, c') /\ inv p c'.
Proof.
  intros Hf Hb Hm Hinv. pose proof (wfFs _ _ _ _ _ _ WF f Hf) as Wf. unfold fsmdVal.
  assert (Hid : fId f = nC). { destruct Wf as [(fn & npar & ->)|(fs & npar & -> & _)]; reflexivity. }
  assert (D : directFsmd md p b x = match nth b (fFun f) None with None => RtoC 1 | Some fn => fn (fun i => pPar p nC (nth b (fIndex f) 0 + i)) x end).
  { unfold directFsmd. now rewrite Hf. }
  rewrite Hid. destruct (nth b (fFun f) None) as [fn|] eqn:En; [|rewrite D; eauto].
  rewrite <- D. destruct m as [mi|]; [|eauto]. destruct Hm as [-> Hm].
  destruct (Ceqb (cComp c nC b mi) (RtoC 0)) eqn:E; cbn [negb].
  - pose proof (proj1 Hinv) as X. apply ext_E0 in X as (A1 & A2 & A3 & A4 & A5).
    assert (HG : groups nm mc (fEqual f)).
    { destruct Wf as [(fn' & npar & ->)|(fs & npar & -> & L1 & _)]; cbn; [apply groups_massBinning|]. rewrite L1. apply groups_single. }
    pose proof (mass_le b mi Hb Hm) as Hmm.
    destruct (storeEqual_ok nm mc nC (fEqual f) b mi (directFsmd md p b (mc b mi)) c HG Hb) as (c' & Ec & W); [lia|exact A4|lia|].
    rewrite Ec. cbn [bnd]. exists c'. split; [reflexivity|]. apply (inv_store p _ _ c c' Hinv W).
    intros [i' ch' b' m'|i' b' m'|w b' m'] Hv HS; cbn [kComp] in HS; try discriminate HS.
    rewrite !andb_true_iff, !Nat.eqb_eq in HS. destruct HS as [[-> HS] <-]. cbn [direct]. rewrite Nat.eqb_refl.
    apply existsb_exists in HS as (y & Hy & Ey). apply Nat.eqb_eq in Ey. subst y.
    destruct Wf as [(fn' & npar & Hff)|(fs & npar & Hff & L1 & _)].
    + destruct HG as [_ G]. apply (G b Hb) in Hy as [Hb' [_ Hs]]. rewrite Hs by exact Hm. unfold directFsmd. rewrite Hf, Hff. cbn [fFun fIndex fsmdSame].
      now rewrite !nth_map_upTo by assumption.
    + rewrite Hff in Hy. cbn [fEqual fsmdPerBin] in Hy. unfold singleBins in Hy. rewrite L1, nth_map_upTo in Hy by exact Hb. destruct Hy as [<-|[]]. reflexivity.
  - apply Ceqb_neq in E. destruct Hinv as [X H]. destruct (H (KComp nC b mi) (conj Hb Hm)) as [Z|Z]; cbn [readCell direct] in Z; [contradiction|].
    rewrite Nat.eqb_refl in Z. rewrite Z. exists c. split; [reflexivity|]. now split.
Qed.
Lemma sum_ok p b x m l : b < nB -> okM b x m -> Forall (fun ic => exists o chan, nth_error (mComps md) (fst ic) = Some o /\ nth_error (oChans o) (snd ic) = Some chan) l ->
  forall a c, inv p c -> exists c', foldO (sumStep md p b x m) l (a, c)
    = Some (fold_left Cplus (map (fun ic => directComp md p (fst ic) b x * directCoup md p (fst ic) (snd ic) b x m)%C l) a, c') /\ inv p c'.
Proof.
  intros Hb Hm. induction l as [|[i ch] l IH]; intros H a c Hinv; [eexists; split; [reflexivity|exact Hinv]|].
  apply Forall_cons_iff in H as [(o & chan & Ho & Hch) H2]. cbn [fst snd] in *. cbn [foldO map fold_left fst snd]. unfold sumStep at 1. cbn [fst snd]. rewrite Ho.
  destruct (compVal_ok i o p b x m c Ho Hb Hm Hinv) as (c1 & E1 & I1). rewrite E1. cbn [bnd fst snd].
  destruct (couplingPS_ok i o ch chan p b x m c1 Ho Hch Hb Hm I1) as (c2 & E2 & I2). rewrite E2. cbn [bnd fst snd]. now apply IH.
Qed.
Lemma prodAmp_ok p w b x m c : b < nB -> w < length (nth b (mWaves md) []) -> okM b x m -> inv p c ->
  exists c', productionAmplitude md p w b x m c = Some (directAmp md p w b x m, c') /\ inv p c'.
Proof.
  intros Hb Hw Hm Hinv. unfold productionAmplitude.
  assert (S : forall c, inv p c -> exists c', (do s <- foldO (sumStep md p b x m) (waveComponentChannel md b w) (RtoC 0, c);
    do t <- (match mFsmd md with
             | None => Some s
             | Some f => do v <- fsmdVal f p b x m (snd s); Some ((fst s * fst v)%C, snd v)
             end);
    Some t) = Some (directAmp md p w b x m, c') /\ inv p c').
  { intros c0 I0. destruct (sum_ok p b x m (waveComponentChannel md b w) Hb Hm) with (a := RtoC 0) (c := c0) as (c1 & E1 & I1); [|exact I0|].
    { apply Forall_forall. intros [i ch] Hin. apply wcc_in in Hin as (o & chan & Ho & Hch & _). cbn. eauto. }
    rewrite E1. cbn [bnd fst snd]. unfold directAmp, csum. destruct (mFsmd md) as [f|] eqn:Ef.
    - destruct (fsmdVal_ok f p b x m c1 Ef Hb Hm I1) as (c2 & E2 & I2). rewrite E2. cbn [bnd fst snd]. eauto.
    - cbn [bnd]. unfold directFsmd. rewrite Ef, Cmult_1_r. eauto. }
  destruct m as [mi|]; [|now apply S]. destruct Hm as [-> Hm].
  destruct (Ceqb (cProd c w b mi) (RtoC 0)) eqn:E; cbn [negb].
  - destruct (S c Hinv) as (c1 & E1 & I1). rewrite E1. cbn [bnd fst snd].
    pose proof (proj1 I1) as X. apply ext_E0 in X as (A1 & A2 & A3 & A4 & A5). pose proof (mass_le b mi Hb Hm) as Hmm. pose proof (wave_le b w Hb Hw) as Hww.
    destruct (setProdAmp_ok (Some w) (Some b) (Some mi) (directAmp md p w b (mc b mi) (Some mi)) c1) as (c' & Ec & W); [cbn; lia|cbn; lia|cbn; lia|].
    rewrite Ec. cbn [bnd]. exists c'. split; [reflexivity|]. apply (inv_store p _ _ c1 c' I1 W).
    intros [i' ch' b' m'|i' b' m'|w' b' m'] Hv HS; cbn [kProd] in HS; try discriminate HS.
    rewrite !hit_some, !andb_true_iff, !Nat.eqb_eq in HS. destruct HS as [[<- <-] <-]. reflexivity.
  - apply Ceqb_neq in E. destruct Hinv as [X H]. destruct (H (KProd w b mi) (conj Hb (conj Hm Hw))) as [Z|Z]; cbn [readCell direct] in Z; [contradiction|].
    rewrite Z. exists c. split; [reflexivity|]. now split.
Qed.

(* ---------------- histories ---------------- *)
(* the parameters are those of the last import *)
Definition pstate (p : params) : Prop := p = newParams \/ exists par, p = paramsOf md par.
Lemma assigns_last par p : pstate p -> assignAll (assigns md par) p = paramsOf md par.
Proof.
  intros [->|[par' ->]]; [reflexivity|]. unfold paramsOf. apply assignAll_forget, assigns_cells.
Qed.
Lemma rrun_ok h : Forall (validCall md nm) h -> forall p c, pstate p -> inv p c ->
  exists st, rrun md mc h (p, c) = Some (expected md mc p h, st) /\ pstate (fst st) /\ inv (fst st) (snd st).
Proof.
  induction h as [|call h IH]; intros H p c Hp Hinv; [exists (p, c); auto|].
  apply Forall_cons_iff in H as [H1 H2]. destruct call as [par|w b m|w b x]; cbn [rrun rstep expected validCall] in *.
  - destruct (importAll_ok par p c Hinv) as (c' & E & I'). rewrite E. cbn [bnd snd fst]. rewrite assigns_last in * by exact Hp.
    destruct (IH H2 (paramsOf md par) c') as (st & Es & Hs); [right; eauto|exact I'|]. rewrite Es. cbn [bnd fst snd app]. eauto.
  - destruct (prodAmp_ok p w b (mc b m) (Some m) c) as (c' & E & I'); [tauto|tauto|cbn; tauto|exact Hinv|]. cbn [fst snd]. rewrite E. cbn [bnd fst snd].
    destruct (IH H2 p c' Hp I') as (st & Es & Hs). rewrite Es. cbn [bnd fst snd app]. eauto.
  - destruct (prodAmp_ok p w b x None c) as (c' & E & I'); [tauto|tauto|exact I|exact Hinv|]. cbn [fst snd]. rewrite E. cbn [bnd fst snd].
    destruct (IH H2 p c' Hp I') as (st & Es & Hs). rewrite Es. cbn [bnd fst snd app]. eauto.
Qed.
End Inv.
