(* The object invariant, the choice of the masses and angles, the weights (C72). *)
From Coq Require Import List ZArith Reals Bool Lia Lra Psatz Permutation Sorted.
From Verif Require Import ArrayModel CGBoxModel PhysModel PhysProps SumAccProofs LikSetProofs PhaseModel PhaseSpec PhaseProofs.
Import ListNotations.
Open Scope R_scope.

(* prefix sums of the masses *)
Definition pre (ms : list R) (i : nat) : R := sumR (firstn (S i) ms).
Lemma sumR_app a b : sumR (a ++ b) = sumR a + sumR b.
Proof. unfold sumR. induction a as [|x a IH]; cbn [app fold_right]; [ring|]. rewrite IH. ring. Qed.
Lemma pre_0 ms : (0 < length ms)%nat -> pre ms 0 = nth 0 ms 0.
Proof. intros H. unfold pre. rewrite (firstn_S_nth ms 0 0 H). cbn. ring. Qed.
Lemma pre_S ms i : (S i < length ms)%nat -> pre ms (S i) = pre ms i + nth (S i) ms 0.
Proof. intros H. unfold pre. rewrite (firstn_S_nth ms (S i) 0 H), sumR_app. cbn [sumR fold_right]. ring. Qed.
Lemma pre_step ms i : (1 <= i < length ms)%nat -> pre ms i = pre ms (i - 1) + nth i ms 0.
Proof. intros H. destruct i as [|i]; [lia|]. rewrite pre_S by lia. now replace (S i - 1)%nat with i by lia. Qed.
Lemma pre_all ms : (1 <= length ms)%nat -> pre ms (length ms - 1) = sumR ms.
Proof. intros H. unfold pre. replace (S (length ms - 1)) with (length ms) by lia. now rewrite firstn_all. Qed.
Lemma pos_nth ms i : Forall (fun m => 0 <= m) ms -> 0 <= nth i ms 0.
Proof. intros H. destruct (Nat.lt_ge_cases i (length ms)); [|rewrite nth_overflow by lia; lra]. rewrite Forall_forall in H. now apply H, nth_In. Qed.
Lemma pre_mono ms i j : Forall (fun m => 0 <= m) ms -> (i <= j < length ms)%nat -> pre ms i <= pre ms j.
Proof.
  intros H [Hij Hj]. induction Hij as [|j Hij IH]; [lra|]. rewrite pre_S by lia. pose proof (pos_nth ms (S j) H). specialize (IH ltac:(lia)). lra.
Qed.
Lemma pre_nonneg ms i : Forall (fun m => 0 <= m) ms -> (i < length ms)%nat -> 0 <= pre ms i.
Proof. intros H Hi. pose proof (pre_mono ms 0 i H ltac:(lia)). rewrite pre_0 in H0 by lia. pose proof (pos_nth ms 0 H). lra. Qed.

(* ---- invariant of the object ---- *)
Record consistent (ms : list R) (g : gen) : Prop := {
  co_n2 : (2 <= length ms)%nat; co_n : gN g = length ms; co_m : gm g = ms;
  co_sl : length (gmSum g) = length ms; co_s : forall i, (i < length ms)%nat -> nth i (gmSum g) 0 = pre ms i;
  co_M : length (gM g) = length ms; co_M0 : nth 0 (gM g) 0 = nth 0 ms 0;
  co_c : length (gCos g) = length ms; co_p : length (gPhi g) = length ms; co_q : length (gQ g) = length ms;
  co_d : length (gDau g) = length ms; co_norm : 0 < gNorm g;
  co_mx : gMaxObs g <> NaN /\ igtb (Fin 0) (gMaxObs g) = false }.

Lemma normOf_pos t n : (2 <= n)%nat -> 0 < normOf t n.
Proof.
  intros Hn. pose proof PI_RGT_0. pose proof (INR_fact_lt_0 (n - 2)).
  assert (0 < INR (n - 1)) by (apply lt_0_INR; lia).
  destruct t; unfold normOf; try lra; apply Rdiv_lt_0_compat; try lra.
  - assert (0 < (2 * PI) ^ (2 * n - 3)) by (apply pow_lt; lra). apply Rmult_lt_0_compat; [lra|assumption].
  - assert (0 < (4 * PI) ^ (2 * n + 1)) by (apply pow_lt; lra). repeat apply Rmult_lt_0_compat; assumption.
Qed.
Lemma setDecay_ok ms g : (2 <= length ms)%nat -> exists g', setDecay ms g = Some (true, g') /\ consistent ms g' /\ gWT g' = gWT g /\ gKT g' = gKT g.
Proof.
  intros Hn. unfold setDecay. rewrite (proj2 (Nat.ltb_ge _ 2)) by lia. rewrite (rd_nth ms 0 0) by lia. cbn [bnd].
  destruct (wr_nth (repeat 0 (length ms)) 0 (nth 0 ms 0) 0 ltac:(rewrite repeat_length; lia)) as (s0 & E0 & L0 & N0).
  rewrite E0. cbn [bnd]. rewrite repeat_length in L0.
  assert (forall k, (k < length ms)%nat -> exists s, foldO (fun i s => do a <- rd s (i - 1); do m <- rd ms i; wr s i (a + m)) (seq 1 k) s0 = Some s
    /\ length s = length ms /\ forall i, (i <= k)%nat -> nth i s 0 = pre ms i) as H.
  { induction k as [|k IH]; intros Hk.
    - exists s0. split; [reflexivity|]. split; [exact L0|]. intros i Hi. replace i with 0%nat by lia. rewrite N0, pre_0 by lia. reflexivity.
    - destruct (IH ltac:(lia)) as (s & E & L & N). rewrite seq_S, foldO_app, E. cbn [bnd foldO]. change (1 + k)%nat with (S k).
      replace (S k - 1)%nat with k by lia. rewrite (rd_nth s k 0), (rd_nth ms (S k) 0) by lia. cbn [bnd].
      destruct (wr_nth s (S k) (nth k s 0 + nth (S k) ms 0) 0 ltac:(lia)) as (s' & E' & L' & N'). rewrite E'. cbn [bnd]. exists s'.
      split; [reflexivity|]. split; [lia|]. intros i Hi. rewrite N'. destruct (Nat.eqb_spec i (S k)) as [->|Hne]; [|apply N; lia].
      rewrite pre_S, N by lia. reflexivity. }
  destruct (H (length ms - 1)%nat ltac:(lia)) as (s & E & L & N). rewrite E. cbn [bnd].
  eexists. split; [reflexivity|]. split; [|split; reflexivity].
  constructor; cbn [gN gm gmSum gM gCos gPhi gQ gDau gNorm gMaxObs]; rewrite ?repeat_length; try reflexivity; try assumption; try lia.
  - intros i Hi. apply N. lia.
  - rewrite N0. reflexivity.
  - now apply normOf_pos.
  - cbn. split; [discriminate|]. now apply rltb_false; lra.
Qed.

(* ---- preservation by all calls ---- *)
Lemma foldO_inv {A B} (f : B -> A -> option A) (Q : A -> Prop) l : (forall x a a', In x l -> Q a -> f x a = Some a' -> Q a') ->
  forall a a', Q a -> foldO f l a = Some a' -> Q a'.
Proof.
  induction l as [|x l IH]; intros H a a' Ha E; cbn [foldO] in E; [congruence|].
  destruct (f x a) as [a1|] eqn:E1; cbn [bnd] in E; [|discriminate].
  apply (IH (fun y b b' Hy => H y b b' (or_intror Hy)) a1 a'); [|exact E]. apply (H x a a1); [now left|exact Ha|exact E1].
Qed.
Lemma bnd_some {A B} (x : option A) (f : A -> option B) b : bnd x f = Some b -> exists a, x = Some a /\ f a = Some b.
Proof. destruct x; cbn [bnd]; [intros H; eauto|discriminate]. Qed.
Ltac peel H := repeat (let a := fresh "a" in let E := fresh "E" in apply bnd_some in H; destruct H as (a & E & H)).
Lemma wr_len {A} (v : list A) i x v' : wr v i x = Some v' -> length v' = length v.
Proof. revert i v'. induction v as [|h t IH]; intros [|i] v' H; cbn in H; try discriminate; [now injection H as <-|]. destruct (wr t i x) eqn:E; [|discriminate]. injection H as <-. cbn. f_equal. eauto. Qed.
Lemma wr_nth0 (v : list R) i x v' : wr v i x = Some v' -> i <> 0%nat -> nth 0 v' 0 = nth 0 v 0.
Proof. destruct v, i as [|i]; intros H Hi; cbn in H; try discriminate; try congruence. destruct (wr v i x); [|discriminate]. now injection H as <-. Qed.

Lemma breakup_consistent ms g g' : consistent ms g -> calcBreakupMomenta g = Some g' -> consistent ms g'.
Proof.
  intros C H. unfold calcBreakupMomenta in H. apply bnd_some in H. destruct H as (q & E & H). injection H as <-.
  assert (length q = length ms) as Lq.
  { apply (foldO_inv _ (fun q => length q = length ms) _) in E; [exact E| |apply C]. intros i a a' _ La Ea. peel Ea. apply wr_len in Ea. congruence. }
  destruct C. constructor; assumption.
Qed.
Lemma imax_ok w mx : mx <> NaN -> igtb (Fin 0) mx = false ->
  (if igtb w mx then w else mx) <> NaN /\ igtb (Fin 0) (if igtb w mx then w else mx) = false.
Proof.
  intros H1 H2. destruct (igtb w mx) eqn:E; [|now split].
  destruct w as [x|s|], mx as [y|t|]; cbn in *; try discriminate; try congruence; split; try discriminate; try assumption.
  - unfold rltb in *. destruct (Rlt_dec y x), (Rlt_dec y 0), (Rlt_dec x 0); try discriminate; try reflexivity; lra.
  - now destruct s.
  - now destruct s.
Qed.
Lemma weight_consistent ms g g' : consistent ms g -> calcWeight g = Some g' -> consistent ms g'.
Proof.
  intros C H. unfold calcWeight in H. destruct (gN g <? 2)%nat; [discriminate|]. apply bnd_some in H. destruct H as (g1 & E1 & H).
  apply bnd_some in H. destruct H as (w & Ew & H). injection H as <-. apply (breakup_consistent ms) in E1; [|exact C].
  destruct E1 as [? ? ? ? ? ? ? ? ? ? ? ? [X1 X2]]. constructor; cbn [withWeight gMaxObs]; try assumption. now apply imax_ok.
Qed.
Lemma forFirst_len k f d d' : forFirst k f d = Some d' -> length d' = length d.
Proof.
  intros H. unfold forFirst in H. apply (foldO_inv _ (fun x => length x = length d) _) in H; [exact H| |reflexivity].
  intros j a a' _ La Ea. peel Ea. apply wr_len in Ea. congruence.
Qed.
Lemma kinematics_consistent ms P g g' : consistent ms g -> calcEventKinematics P g = Some g' -> consistent ms g'.
Proof.
  intros C H. unfold calcEventKinematics in H. destruct (gN g <? 2)%nat; [discriminate|]. apply bnd_some in H. destruct H as (d & E & H). injection H as <-.
  assert (length d = length ms) as Ld.
  { destruct (gKT g).
    - unfold eventBlock in E. apply bnd_some in E. destruct E as (r & Er & E). apply wr_len in E. rewrite E.
      apply (foldO_inv _ (fun r => length (snd r) = length ms) _) in Er; [exact Er| |apply C].
      intros i a a' _ La Ea. peel Ea. injection Ea as <-. cbn [snd].
      match goal with X : wr _ _ _ = Some _ |- _ => apply wr_len in X; congruence end.
    - unfold eventRL in E. peel E.
      match goal with X : wr _ _ _ = Some _ |- _ => apply wr_len in X; rewrite (co_d ms g C) in X end.
      apply (foldO_inv _ (fun r => length r = length ms) _) in E; [exact E| |assumption].
      intros i a3 a' _ La Ea. cbv beta in Ea. peel Ea.
      repeat match goal with X : wr _ _ _ = Some _ |- _ => apply wr_len in X end.
      match goal with X : forFirst _ _ _ = Some _ |- _ => apply forFirst_len in X end.
      destruct (i <? gN g - 1)%nat; peel Ea; apply forFirst_len in Ea; congruence. }
  destruct C. constructor; assumption.
Qed.
Lemma pickMasses_consistent ms fuel rnd M pos g g' pos' : consistent ms g -> pickMasses fuel rnd M pos g = Some (g', pos') -> consistent ms g'.
Proof.
  intros C H. unfold pickMasses in H. destruct (gN g <? 2)%nat; [discriminate|]. apply bnd_some in H. destruct H as (M1 & E1 & H).
  pose proof (wr_len _ _ _ _ E1) as L1. pose proof (wr_nth0 _ _ _ _ E1) as N1. pose proof (co_n2 ms g C) as Hn.
  rewrite (co_n ms g C) in *. specialize (N1 ltac:(lia)).
  set (Q := fun M : list R => length M = length ms /\ nth 0 M 0 = nth 0 ms 0).
  assert (Q M1) as Q1 by (split; [rewrite L1; apply C|rewrite N1; apply C]).
  assert (exists M2, Q M2 /\ g' = withM M2 g) as (M2 & [Q2 Q3] & ->); [|destruct C; constructor; assumption].
  assert (forall i x a a', i <> 0%nat -> Q a -> wr a i x = Some a' -> Q a') as W.
  { intros i x a a' Hi [A1 A2] Ea. split; [apply wr_len in Ea; congruence|]. now rewrite (wr_nth0 _ _ _ _ Ea Hi). }
  destruct (gWT g).
  2: { apply bnd_some in H; destruct H as ((M2 & p2) & E2 & H); injection H as <- _.
    exists M2; split; [|reflexivity].
    apply (foldO_inv _ (fun s => Q (fst s)) _) in E2; [exact E2| |exact Q1].
    intros i (A & pa) (A' & pa') Hi QA Ea; unfold nuphazMass in Ea; cbn [fst] in *.
    apply in_rev, in_seq in Hi.
    do 5 (apply bnd_some in Ea; destruct Ea as (? & ? & Ea)).
    match type of Ea with context [if ?b then _ else _] => destruct b end;
    (do 2 (apply bnd_some in Ea; destruct Ea as (? & ? & Ea))); injection Ea as <- _;
    (eapply W; [|exact QA|eassumption]); lia. }
  all: apply bnd_some in H; destruct H as (rp & Er & H); apply bnd_some in H; destruct H as (s & Es & H);
    apply bnd_some in H; destruct H as (M2 & E2 & H); injection H as <- _; exists M2; split; [|reflexivity];
    apply (foldO_inv _ Q _) in E2; [exact E2| |exact Q1];
    intros i A A' Hi QA Ea; apply in_seq in Hi; peel Ea; eapply W; [|exact QA|exact Ea]; lia.
Qed.
Lemma pickAngles_consistent ms rnd pos g g' pos' : consistent ms g -> pickAngles rnd pos g = Some (g', pos') -> consistent ms g'.
Proof.
  intros C H. unfold pickAngles in H. apply bnd_some in H. destruct H as (((c & p) & p2) & E & H). injection H as <- _.
  apply (foldO_inv _ (fun s => length (fst (fst s)) = length ms /\ length (snd (fst s)) = length ms) _) in E; [|clear E|split; apply C].
  - cbn [fst snd] in E. destruct C, E. constructor; assumption.
  - intros i ((c1 & p1) & k) a' _ [L1 L2] Ea. cbn [fst snd] in *. peel Ea. injection Ea as <-. cbn [fst snd].
    repeat match goal with X : wr _ _ _ = Some _ |- _ => apply wr_len in X end. split; congruence.
Qed.
Lemma estimate_consistent ms fuel rnd M k : forall pos g w w' g' pos', consistent ms g ->
  estimateMaxWeight fuel rnd M k pos g w = Some (w', g', pos') -> consistent ms g'.
Proof.
  induction k as [|k IH]; intros pos g w w' g' pos' C H; cbn [estimateMaxWeight] in H; [now injection H as _ <- _|].
  apply bnd_some in H. destruct H as ((g1 & p1) & E1 & H). apply bnd_some in H. destruct H as (g2 & E2 & H).
  apply (IH _ _ _ _ _ _ (weight_consistent ms g1 g2 (pickMasses_consistent ms _ _ _ _ _ _ _ C E1) E2) H).
Qed.
Lemma generate_consistent ms fuel rnd P pos g w g' pos' : consistent ms g -> generateDecay fuel rnd P pos g = Some (w, g', pos') -> consistent ms g'.
Proof.
  intros C H. unfold generateDecay in H. destruct (gN g <? 2)%nat; [injection H as _ <- _; exact C|].
  apply bnd_some in H. destruct H as (s & Es & H). destruct (rltb _ _); [injection H as _ <- _; exact C|].
  apply bnd_some in H. destruct H as ((g1 & p1) & E1 & H). apply bnd_some in H. destruct H as (g2 & E2 & H).
  apply bnd_some in H. destruct H as ((g3 & p3) & E3 & H). apply bnd_some in H. destruct H as (g4 & E4 & H). injection H as _ <- _.
  eapply kinematics_consistent; [|exact E4]. eapply pickAngles_consistent; [|exact E3]. eapply weight_consistent; [|exact E2].
  eapply pickMasses_consistent; [|exact E1]. exact C.
Qed.
Lemma accepted_consistent ms fuel rnd P mw pos g b g' pos' : consistent ms g -> generateDecayAccepted fuel rnd P mw pos g = Some (b, g', pos') -> consistent ms g'.
Proof.
  intros C H. unfold generateDecayAccepted in H. destruct (gN g <? 2)%nat; [injection H as _ <- _; exact C|].
  apply bnd_some in H. destruct H as (s & Es & H). destruct (rltb _ _); [injection H as _ <- _; exact C|].
  apply bnd_some in H. destruct H as ((g1 & p1) & E1 & H). apply bnd_some in H. destruct H as (g2 & E2 & H).
  assert (consistent ms g2) as C2 by (eapply weight_consistent; [|exact E2]; eapply pickMasses_consistent; [|exact E1]; exact C).
  destruct (eventAccepted rnd mw p1 g2) as [ok p2]. destruct (negb ok); [injection H as _ <- _; exact C2|].
  apply bnd_some in H. destruct H as ((g3 & p3) & E3 & H). apply bnd_some in H. destruct H as (g4 & E4 & H). injection H as _ <- _.
  eapply kinematics_consistent; [|exact E4]. eapply pickAngles_consistent; [|exact E3]. exact C2.
Qed.
Lemma call_consistent ms fuel rnd c g pos g' pos' : respects ms c -> consistent ms g -> doCall fuel rnd c (g, pos) = Some (g', pos') -> consistent ms g'.
Proof.
  intros R C H. destruct c; cbn [doCall] in H.
  - injection H as <- _. destruct C; constructor; assumption.
  - injection H as <- _. destruct C; constructor; assumption.
  - injection H as <- _. destruct C; constructor; assumption.
  - injection H as <- _. destruct C; constructor; try assumption. cbn. split; [discriminate|apply rltb_false; lra].
  - unfold setMasses in H. destruct (Nat.eqb_spec (length M) (gN g)) as [L|]; cbn [negb bnd] in H; [|discriminate]. injection H as <- _.
    cbn [respects] in R. destruct C; constructor; try assumption. cbn [withM gM]. congruence.
  - unfold setAngles in H. destruct (Nat.eqb_spec (length c) (gN g)) as [L|]; cbn [negb bnd] in H; [|discriminate].
    destruct (Nat.eqb_spec (length p) (gN g)) as [L2|]; cbn [negb bnd] in H; [|discriminate]. injection H as <- _.
    destruct C; constructor; try assumption; cbn [withAngles gCos gPhi]; congruence.
  - apply bnd_some in H. destruct H as (g1 & E & H). injection H as <- _. eapply breakup_consistent; eassumption.
  - apply bnd_some in H. destruct H as (g1 & E & H). injection H as <- _. eapply weight_consistent; eassumption.
  - apply bnd_some in H. destruct H as (g1 & E & H). injection H as <- _. eapply kinematics_consistent; eassumption.
  - eapply pickMasses_consistent; eassumption.
  - eapply pickAngles_consistent; eassumption.
  - apply bnd_some in H. destruct H as (((w & g1) & p1) & E & H). injection H as <- _. eapply generate_consistent; eassumption.
  - apply bnd_some in H. destruct H as (((w1 & g1) & p1) & E & H). injection H as <- _. eapply accepted_consistent; eassumption.
  - apply bnd_some in H. destruct H as (((w1 & g1) & p1) & E & H). injection H as <- _. eapply estimate_consistent; eassumption.
Qed.
Lemma usedFor_consistent ms g : usedFor ms g -> consistent ms g.
Proof.
  intros (g0 & g1 & fuel & rnd & calls & pos & pos' & Es & HR & E).
  assert (consistent ms g1) as C1.
  { destruct (Nat.lt_ge_cases (length ms) 2) as [L|L].
    - unfold setDecay in Es. rewrite (proj2 (Nat.ltb_lt _ 2) L) in Es. discriminate.
    - destruct (setDecay_ok ms g0 L) as (g1' & E' & C & _). congruence. }
  rewrite Forall_forall in HR.
  apply (foldO_inv _ (fun s => consistent ms (fst s)) _) in E; [exact E| |exact C1].
  intros c (a & p) (a' & p') Hc Ca Ea. cbn [fst] in *. eapply call_consistent; [apply HR, Hc|exact Ca|exact Ea].
Qed.

(* ---- random masses ---- *)
Lemma insertR_perm x l : Permutation (x :: l) (insertR x l).
Proof. induction l as [|y l IH]; cbn [insertR]; [reflexivity|]. destruct (rltb y x); [|reflexivity]. rewrite perm_swap. now constructor. Qed.
Lemma sortR_perm l : Permutation l (sortR l).
Proof. induction l as [|x l IH]; cbn [sortR]; [constructor|]. rewrite <- insertR_perm. now constructor. Qed.
Lemma insertR_sorted x l : Sorted Rle l -> Sorted Rle (insertR x l).
Proof.
  induction l as [|y l IH]; intros H; cbn [insertR]; [repeat constructor|].
  unfold rltb. destruct (Rlt_dec y x) as [L|L]; [|constructor; [exact H|constructor; lra]].
  inversion H as [|? ? H1 H2]; subst. constructor; [now apply IH|].
  destruct l as [|z l]; cbn [insertR]; [constructor; lra|]. unfold rltb. destruct (Rlt_dec z x); constructor; [inversion H2; lra|lra].
Qed.
Lemma sortR_sorted l : Sorted Rle (sortR l).
Proof. induction l as [|x l IH]; cbn [sortR]; [constructor|now apply insertR_sorted]. Qed.
Lemma noRep_NoDup l : NoDup l -> noRepetition l = true.
Proof.
  induction l as [|x [|y l] IH]; intros H; try reflexivity. apply NoDup_cons_iff in H. destruct H as [H1 H2].
  cbn [noRepetition]. unfold reqb. destruct (Req_EM_T x y) as [->|]; [exfalso; apply H1; now left|]. cbn [negb andb]. now apply IH.
Qed.
Lemma drawSorted_ok rnd k : forall fuel pos, someDistinct fuel rnd pos k -> exists r pos', drawSorted fuel rnd pos k = Some (r, pos').
Proof.
  induction fuel as [|fuel IH]; intros pos (j & Hj & Hd); [lia|]. cbn [drawSorted].
  destruct (noRepetition (sortR (map rnd (seq pos k)))) eqn:E; [eauto|].
  destruct j as [|j].
  - exfalso. rewrite Nat.mul_0_l, Nat.add_0_r in Hd. rewrite noRep_NoDup in E; [discriminate|].
    eapply Permutation_NoDup; [apply sortR_perm|exact Hd].
  - apply IH. exists j. split; [lia|]. replace (pos + k + j * k)%nat with (pos + S j * k)%nat by lia. exact Hd.
Qed.
Lemma drawSorted_spec rnd k : uniform rnd -> forall fuel pos r pos', drawSorted fuel rnd pos k = Some (r, pos') ->
  length r = k /\ Forall (fun x => 0 < x <= 1) r /\ Sorted Rle r.
Proof.
  intros U. induction fuel as [|fuel IH]; intros pos r pos' H; cbn [drawSorted] in H; [discriminate|].
  destruct (noRepetition _); [|eauto]. injection H as <- _. pose proof (sortR_perm (map rnd (seq pos k))) as P.
  split; [rewrite <- (Permutation_length P), map_length, seq_length; reflexivity|]. split; [|apply sortR_sorted].
  rewrite <- P. rewrite Forall_map, Forall_forall. intros x _. apply U.
Qed.
Lemma Sorted_nth l i : Sorted Rle l -> (S i < length l)%nat -> nth i l 0 <= nth (S i) l 0.
Proof.
  revert i. induction l as [|x l IH]; intros i H Hi; [cbn in Hi; lia|]. inversion H as [|? ? H1 H2]; subst.
  destruct i as [|i]; [|cbn [nth]; apply IH; [assumption|cbn in Hi; lia]].
  destruct l as [|y l]; [cbn in Hi; lia|]. cbn [nth]. now inversion H2.
Qed.

(* the masses an event can have *)
Definition massesOK (ms Ms : list R) (M : R) : Prop :=
  allowedMasses ms Ms /\ nth (length ms - 1) Ms 0 = M
  /\ (forall i, (1 <= i < length ms)%nat -> pre ms i <= nth i Ms 0 /\ (sumR ms < M -> pre ms i < nth i Ms 0) /\ 0 < nth i Ms 0).

(* closed form of a loop that writes v[i] for i = a .. a+k-1 *)
Lemma fill {A} (d : A) (f : nat -> list A -> option (list A)) (h : nat -> A) k : forall a v, (a + k <= length v)%nat ->
  (forall i w, (a <= i < a + k)%nat -> length w = length v -> f i w = wr w i (h i)) ->
  exists v', foldO f (seq a k) v = Some v' /\ length v' = length v
    /\ forall j, nth j v' d = if ((a <=? j) && (j <? a + k))%nat then h j else nth j v d.
Proof.
  induction k as [|k IH]; intros a v Hk Hf.
  - exists v. split; [reflexivity|]. split; [reflexivity|]. intros j. destruct (Nat.leb_spec a j), (Nat.ltb_spec j (a + 0)); try reflexivity. lia.
  - cbn [seq foldO]. rewrite Hf by lia. destruct (wr_nth v a (h a) d ltac:(lia)) as (v1 & E1 & L1 & N1). rewrite E1. cbn [bnd].
    destruct (IH (S a) v1 ltac:(lia)) as (v' & E & L & N); [intros; apply Hf; lia|].
    exists v'. split; [exact E|]. split; [lia|]. intros j. rewrite N, N1.
    destruct (Nat.leb_spec (S a) j), (Nat.ltb_spec j (S a + k)), (Nat.leb_spec a j), (Nat.ltb_spec j (a + S k)), (Nat.eqb_spec j a); cbn [andb]; subst; try lia; reflexivity.
Qed.

Lemma pickDefault_ok ms g fuel rnd M pos : consistent ms g -> Forall (fun m => 0 <= m) ms -> uniform rnd ->
  gWT g <> NUPHAZ -> someDistinct fuel rnd pos (length ms - 2) -> sumR ms <= M -> (sumR ms < M \/ 0 < nth 0 ms 0 + nth 1 ms 0) ->
  exists Ms pos', pickMasses fuel rnd M pos g = Some (withM Ms g, pos') /\ massesOK ms Ms M.
Proof.
  intros C Hp U Ht Hd HM Hs. pose proof (co_n2 ms g C) as Hn. unfold pickMasses. rewrite (co_n ms g C).
  rewrite (proj2 (Nat.ltb_ge _ 2)) by lia. set (n := length ms) in *.
  destruct (wr_nth (gM g) (n - 1) M 0 ltac:(rewrite (co_M ms g C); lia)) as (M1 & E1 & L1 & N1). rewrite E1. cbn [bnd].
  rewrite (co_M ms g C) in L1. fold n in L1.
  destruct (drawSorted_ok rnd (n - 2) fuel pos Hd) as (r & pos' & Er). rewrite Er. cbn [bnd fst snd].
  destruct (drawSorted_spec rnd (n - 2) U _ _ _ _ Er) as (Lr & Fr & Sr).
  rewrite (rd_nth (gmSum g) (n - 1) 0) by (rewrite (co_sl ms g C); lia). cbn [bnd].
  rewrite (co_s ms g C) by lia. replace (pre ms (n - 1)) with (sumR ms) by (symmetry; apply pre_all; lia).
  set (D := M - sumR ms). assert (0 <= D) as HD by (unfold D; lra).
  destruct (fill 0 (fun i M2 => do si <- rd (gmSum g) i; do r0 <- rd r (i - 1); wr M2 i (si + r0 * D)) (fun i => pre ms i + nth (i - 1) r 0 * D) (n - 2) 1 M1) as (Ms & E2 & L2 & N2).
  { lia. } { intros i w Hi Lw. rewrite (rd_nth (gmSum g) i 0) by (rewrite (co_sl ms g C); lia). cbn [bnd]. rewrite (rd_nth r (i - 1) 0) by lia. cbn [bnd]. now rewrite (co_s ms g C) by lia. }
  assert (forall i, (i < n - 2)%nat -> 0 < nth i r 0 <= 1) as Hr by (intros i Hi; rewrite Forall_forall in Fr; apply Fr, nth_In; lia).
  assert (nth 0 Ms 0 = nth 0 ms 0) as V0.
  { rewrite N2. cbn [Nat.leb andb]. rewrite N1. destruct (Nat.eqb_spec 0 (n - 1)); [lia|]. apply C. }
  assert (nth (n - 1) Ms 0 = M) as Vn.
  { rewrite N2. destruct (Nat.leb_spec 1 (n - 1)), (Nat.ltb_spec (n - 1) (1 + (n - 2))); try lia. cbn [andb]. now rewrite N1, Nat.eqb_refl. }
  assert (forall i, (1 <= i < n - 1)%nat -> nth i Ms 0 = pre ms i + nth (i - 1) r 0 * D) as Vi.
  { intros i Hi. rewrite N2. destruct (Nat.leb_spec 1 i), (Nat.ltb_spec i (1 + (n - 2))); try lia. reflexivity. }
  exists Ms, pos'. split.
  { destruct (gWT g); [|contradiction| |]; rewrite E2; reflexivity. }
  assert (forall i, (1 <= i < n)%nat -> pre ms i <= nth i Ms 0 /\ (sumR ms < M -> pre ms i < nth i Ms 0)) as HB.
  { intros i Hi. destruct (Nat.eq_dec i (n - 1)) as [->|Hne].
    - rewrite Vn. unfold n. rewrite pre_all by lia. split; [lra|tauto].
    - rewrite Vi by lia. destruct (Hr (i - 1)%nat ltac:(lia)). split; [nra|]. intros HS. assert (0 < D) by (unfold D; lra). nra. }
  split; [|split; [exact Vn|]].
  - split; [fold n; congruence|]. split; [exact V0|]. intros i Hi. fold n in Hi. pose proof (pre_step ms i ltac:(lia)) as PS.
    assert (nth i Ms 0 = pre ms i + (if (i =? n - 1)%nat then 1 else nth (i - 1) r 0) * D) as Ei.
    { destruct (Nat.eqb_spec i (n - 1)) as [->|]; [rewrite Vn; unfold n; rewrite pre_all by lia; unfold D; ring|apply Vi; lia]. }
    destruct (Nat.eq_dec i 1) as [->|Hi1].
    + change (1 - 1)%nat with 0%nat in *. rewrite V0. rewrite pre_0 in PS by lia.
      destruct (HB 1%nat ltac:(lia)) as [HB1 _]. lra.
    + rewrite Ei, (Vi (i - 1)%nat) by lia. rewrite PS.
      assert (nth (i - 1 - 1) r 0 <= if (i =? n - 1)%nat then 1 else nth (i - 1) r 0) as Hle.
      { destruct (Nat.eqb_spec i (n - 1)); [apply Hr; lia|]. replace (i - 1)%nat with (S (i - 1 - 1)) by lia.
        replace (S (i - 1 - 1) - 1)%nat with (i - 1 - 1)%nat by lia. apply Sorted_nth; [exact Sr|lia]. }
      nra.
  - intros i Hi. destruct (HB i Hi) as [B1 B2]. split; [exact B1|]. split; [exact B2|].
    pose proof (pre_nonneg ms i Hp ltac:(lia)). destruct Hs as [Hs|Hs]; [specialize (B2 Hs); lra|].
    pose proof (pre_mono ms 1 i Hp ltac:(lia)) as PM. rewrite pre_S, pre_0 in PM by lia. lra.
Qed.
