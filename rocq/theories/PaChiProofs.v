(* Lemmas for C87, part 1: the waves that are not skipped, places of the real numbers, the double loops. *)
From Coq Require Import List Reals Bool Arith ZArith Lia Lra.
From Coquelicot Require Import Complex.
From Verif Require Import PhysModel ChiModel ChiSpec ChiProofs ChiProofs2 ChiProofs3 ChiProofs5 PaChiModel PaChiSpec.
Import ListNotations.
Open Scope nat_scope.

Section Rows.
Variable z : nat -> bool.
(* skipped waves below w *)
Definition skips (w : nat) : nat := length (filter z (seq 0 w)).
(* waves below w that are not skipped *)
Definition rank (w : nat) : nat := length (filter (fun x => negb (z x)) (seq 0 w)).
Definition kept (n : nat) : list nat := filter (fun x => negb (z x)) (seq 0 n).
Lemma skips_S w : skips (S w) = skips w + if z w then 1 else 0.
Proof. unfold skips. rewrite seq_S, filter_app, app_length. cbn [Nat.add filter]. destruct (z w); reflexivity. Qed.
Lemma rank_S w : rank (S w) = rank w + if z w then 0 else 1.
Proof. unfold rank. rewrite seq_S, filter_app, app_length. cbn [Nat.add filter]. destruct (z w); reflexivity. Qed.
Lemma rank_skips w : rank w + skips w = w.
Proof. induction w as [|w IH]; [reflexivity|]. rewrite rank_S, skips_S. destruct (z w); lia. Qed.
Lemma rank_mono a b : a <= b -> rank a <= rank b.
Proof. induction 1 as [|b H IH]; [lia|]. rewrite rank_S. lia. Qed.
Lemma rank_lt a b : a < b -> z a = false -> rank a < rank b.
Proof. intros H E. pose proof (rank_mono (S a) b H) as Q. rewrite rank_S, E in Q. lia. Qed.
Lemma kept_in n w : In w (kept n) <-> w < n /\ z w = false.
Proof. unfold kept. rewrite filter_In, in_seq, negb_true_iff. intuition lia. Qed.
Lemma kept_NoDup n : NoDup (kept n).
Proof. apply NoDup_filter, seq_NoDup. Qed.
Lemma filter_ge s k x : In x (filter z (seq s k)) -> s <= x.
Proof. rewrite filter_In, in_seq. lia. Qed.
Lemma rows_eq k : forall w, rows k w (skips w) (filter z (seq w k)) = map (fun x => (x, skips x)) (filter (fun x => negb (z x)) (seq w k)).
Proof.
  induction k as [|k IH]; intros w; cbn [rows seq filter]; auto.
  destruct (z w) eqn:E; cbn [negb].
  - rewrite Nat.eqb_refl. rewrite <- IH. rewrite skips_S, E, Nat.add_1_r. reflexivity.
  - cbn [map]. assert (Hs : skips w = skips (S w)) by (rewrite skips_S, E; lia).
    destruct (filter z (seq (S w) k)) as [|y ys] eqn:F.
    + f_equal. rewrite <- IH. rewrite F, <- Hs. reflexivity.
    + replace (Nat.eqb y w) with false.
      * f_equal. rewrite <- IH, F, <- Hs. reflexivity.
      * symmetry. apply Nat.eqb_neq. pose proof (filter_ge (S w) k y) as G. rewrite F in G. specialize (G (or_introl eq_refl)). lia.
Qed.
Lemma rows_kept n : rows n 0 0 (filter z (seq 0 n)) = map (fun x => (x, skips x)) (kept n).
Proof. exact (rows_eq n 0). Qed.

Variable a : nat.
(* place of the first number of a wave in the reduced matrix *)
Definition place (w : nat) : nat := 2 * rank w - if Nat.ltb a w && negb (z a) then 1 else 0.
Definition compsOf (w : nat) : list comp := if Nat.eqb w a then [(w, 0)] else [(w, 0); (w, 1)].
Definition partsOf (w : nat) : list comp := [(w, 0); (w, 1)].
Definition pos (c : comp) : nat := place (fst c) + snd c.
Definition pos2 (c : comp) : nat := 2 * rank (fst c) + snd c.
Definition ix (c : comp) : nat := 2 * fst c + snd c.
Lemma rowSkip_place w : rowSkip a (z a) (w, skips w) = place w.
Proof. unfold rowSkip, place. cbn [fst snd]. pose proof (rank_skips w). replace (w - skips w) with (rank w) by lia. reflexivity. Qed.
Lemma place2 w : 2 * (w - skips w) = 2 * rank w.
Proof. pose proof (rank_skips w). lia. Qed.
Lemma place_lt w v : w < v -> z w = false -> z v = false -> place w + (if Nat.eqb w a then 1 else 2) <= place v.
Proof.
  intros H Zw Zv. unfold place. pose proof (rank_lt w v H Zw).
  destruct (Nat.eqb_spec w a) as [->|Ha].
  - rewrite Zw. rewrite Nat.ltb_irrefl. cbn [andb negb]. replace (Nat.ltb a v) with true by (symmetry; apply Nat.ltb_lt; auto). cbn [andb]. lia.
  - destruct (z a) eqn:Za; cbn [negb]; [rewrite !andb_false_r; lia|]. rewrite !andb_true_r.
    destruct (Nat.ltb_spec a w).
    + pose proof (rank_lt a w ltac:(lia) Za). replace (Nat.ltb a v) with true by (symmetry; apply Nat.ltb_lt; lia). lia.
    + destruct (Nat.ltb_spec a v); [|lia]. pose proof (rank_lt w a ltac:(lia) Zw). pose proof (rank_lt a v ltac:(lia) Za). lia.
Qed.
Lemma place_S w : z w = false -> place (S w) = place w + if Nat.eqb w a then 1 else 2.
Proof.
  intros Zw. unfold place. rewrite rank_S, Zw. destruct (Nat.eqb_spec w a) as [->|Ha].
  - rewrite Zw, Nat.ltb_irrefl. replace (Nat.ltb a (S a)) with true by (symmetry; apply Nat.ltb_lt; lia). cbn [andb negb]. lia.
  - replace (Nat.ltb a (S w)) with (Nat.ltb a w).
    2: { destruct (Nat.ltb_spec a w), (Nat.ltb_spec a (S w)); auto; lia. }
    destruct (Nat.ltb a w && negb (z a)) eqn:E; [|lia]. apply andb_true_iff in E. destruct E as [E1 E2]. apply Nat.ltb_lt in E1. apply negb_true_iff in E2.
    pose proof (rank_lt a w E1 E2). lia.
Qed.
Lemma place_Sz w : z w = true -> place (S w) = place w.
Proof.
  intros Zw. unfold place. rewrite rank_S, Zw. replace (Nat.ltb a (S w) && negb (z a)) with (Nat.ltb a w && negb (z a)); [lia|].
  destruct (Nat.ltb_spec a w), (Nat.ltb_spec a (S w)); auto; try lia. assert (a = w) by lia. subst. rewrite Zw. reflexivity.
Qed.
Lemma kept_S n : kept (S n) = kept n ++ if z n then [] else [n].
Proof. unfold kept. rewrite seq_S, filter_app. cbn [Nat.add filter]. destruct (z n); reflexivity. Qed.
Lemma pos_seq n : map pos (flat_map compsOf (kept n)) = seq 0 (place n).
Proof.
  induction n as [|n IH]; [cbn; unfold place; cbn; reflexivity|]. rewrite kept_S, flat_map_app, map_app, IH. destruct (z n) eqn:E.
  - rewrite place_Sz by auto. cbn. apply app_nil_r.
  - rewrite place_S, seq_app by auto. f_equal. cbn [flat_map]. rewrite app_nil_r. unfold compsOf. cbn [Nat.add].
    destruct (Nat.eqb_spec n a); cbn [map seq]; unfold pos; cbn [fst snd]; rewrite ?Nat.add_0_r, ?Nat.add_1_r; reflexivity.
Qed.
Lemma pos2_seq n : map pos2 (flat_map partsOf (kept n)) = seq 0 (2 * rank n).
Proof.
  induction n as [|n IH]; [reflexivity|]. rewrite kept_S, flat_map_app, map_app, IH. rewrite rank_S. destruct (z n) eqn:E.
  - cbn [flat_map map]. rewrite app_nil_r. f_equal. lia.
  - replace (2 * (rank n + 1)) with (2 * rank n + 2) by lia. rewrite seq_app. f_equal. cbn [flat_map map partsOf app seq]. unfold pos2; cbn [fst snd].
    rewrite !Nat.add_0_r, Nat.add_1_r. reflexivity.
Qed.
Lemma compsOf_fst w c : In c (compsOf w) -> fst c = w.
Proof. unfold compsOf. destruct (Nat.eqb w a); cbn [In]; intros H; destruct H as [<-|H]; auto; try contradiction. destruct H as [<-|[]]; auto. Qed.
Lemma in_compsOf w c : In c (compsOf w) <-> fst c = w /\ (snd c = 0 \/ snd c = 1 /\ w <> a).
Proof.
  clear z. destruct c as [u e]. unfold compsOf. destruct (Nat.eqb_spec w a); cbn [In fst snd]; split; intros H.
  - destruct H as [H|[]]. injection H as <- <-. tauto.
  - destruct H as [-> [->|[_ H]]]; [auto|contradiction].
  - destruct H as [H|[H|[]]]; injection H as <- <-; auto.
  - destruct H as [-> [->|[-> _]]]; auto.
Qed.
Lemma in_partsOf w c : In c (partsOf w) <-> fst c = w /\ (snd c = 0 \/ snd c = 1).
Proof.
  clear z a. destruct c as [u e]. unfold partsOf. cbn [In fst snd]; split; intros H.
  - destruct H as [H|[H|[]]]; injection H as <- <-; auto.
  - destruct H as [-> [-> | ->]]; auto.
Qed.
End Rows.

(* cells of different waves are apart *)
Definition apart (bl : nat -> list comp) (P : comp -> nat) (ws : list nat) : Prop :=
  forall w v c d, In w ws -> In v ws -> w <> v -> In c (bl w) -> In d (bl v) -> P c <> P d.
Lemma apart_pos z a n : apart (compsOf a) (pos z a) (kept z n).
Proof.
  intros w v c d Hw Hv Hne Hc Hd. apply kept_in in Hw, Hv. destruct Hw as [_ Zw], Hv as [_ Zv]. apply in_compsOf in Hc, Hd. destruct Hc as [Ec Hc], Hd as [Ed Hd].
  unfold pos. rewrite Ec, Ed. assert (w < v \/ v < w) as [H|H] by lia.
  - pose proof (place_lt z a w v H Zw Zv) as L. destruct (Nat.eqb_spec w a); destruct Hc as [Hc|[Hc ?]]; try contradiction; lia.
  - pose proof (place_lt z a v w H Zv Zw) as L. destruct (Nat.eqb_spec v a); destruct Hd as [Hd|[Hd ?]]; try contradiction; lia.
Qed.
Lemma apart_pos2 z n : apart partsOf (pos2 z) (kept z n).
Proof.
  intros w v c d Hw Hv Hne Hc Hd. apply kept_in in Hw, Hv. destruct Hw as [_ Zw], Hv as [_ Zv]. apply in_partsOf in Hc, Hd. destruct Hc as [Ec Hc], Hd as [Ed Hd].
  unfold pos2. rewrite Ec, Ed. assert (w < v \/ v < w) as [H|H] by lia.
  - pose proof (rank_lt z w v H Zw). lia.
  - pose proof (rank_lt z v w H Zv). lia.
Qed.
Lemma apart_ix a ws : apart (compsOf a) ix ws.
Proof. intros w v c d _ _ Hne Hc Hd. apply in_compsOf in Hc, Hd. destruct Hc as [Ec Hc], Hd as [Ed Hd]. unfold ix. lia. Qed.

(* double loop over waves, each pass changes the cells of its two waves only *)
Lemma blocks z (ws : list nat) (step : nat * nat -> nat * nat -> mat -> mat) (rb cb : nat -> list comp) (rp cp : comp -> nat) (G : comp -> comp -> R -> R) m0 :
  let at_ x := (x, skips z x) in
  NoDup ws -> apart rb rp ws -> apart cb cp ws ->
  (forall w v m r s, In w ws -> In v ws -> (forall c c', In c (rb w) -> In c' (cb v) -> ~ (r = rp c /\ s = cp c')) -> step (at_ w) (at_ v) m r s = m r s) ->
  (forall w v m c c', In w ws -> In v ws -> In c (rb w) -> In c' (cb v) -> step (at_ w) (at_ v) m (rp c) (cp c') = G c c' (m (rp c) (cp c'))) ->
  forall w v c c', In w ws -> In v ws -> In c (rb w) -> In c' (cb v) -> loops step (map at_ ws) m0 (rp c) (cp c') = G c c' (m0 (rp c) (cp c')).
Proof.
  intros at_ Nd Ar Ac Hu Ho w v c c' Hw Hv Hc Hc'. unfold loops. rewrite (fold2_flat step).
  assert (NdM : NoDup (map at_ ws)).
  { clear - Nd. induction ws as [|x l IH]; cbn; [constructor|]. apply NoDup_cons_iff in Nd. destruct Nd as [N1 N2]. apply NoDup_cons_iff; split; auto.
    intros H. apply in_map_iff in H. destruct H as (y & E & Hy). unfold at_ in E. assert (y = x) by congruence. subst; auto. }
  rewrite (fold_once step _ _ _ (at_ w, at_ v)).
  - cbn [fst snd]. apply Ho; auto.
  - apply NoDup_prod; auto.
  - apply in_prod; apply in_map; auto.
  - intros [u t] M Hut Hne. cbn [fst snd]. apply in_prod_iff in Hut. destruct Hut as [H1 H2]. apply in_map_iff in H1, H2.
    destruct H1 as (u' & <- & Hu'), H2 as (t' & <- & Ht'). apply Hu; auto. intros d d' Hd Hd' [E1 E2].
    destruct (Nat.eq_dec w u') as [<-|N1]; [destruct (Nat.eq_dec v t') as [<-|N2]; [congruence|]|].
    + apply (Ac v t' c' d'); auto.
    + apply (Ar w u' c d); auto.
  - intros M M' HM. cbn [fst snd]. rewrite !Ho by auto. rewrite HM. reflexivity.
Qed.
