(* C90: amplitude leaves. *)
From Coq Require Import String Ascii List Bool Arith Reals Lia Lra.
From Coquelicot Require Import Complex.
From Verif Require Import PathModel StrModel ParticleModel ParticleProps AmpIntModel AmpLeafModel AmpLeafSpec.
Import ListNotations.
Open Scope list_scope.
Open Scope nat_scope.

Lemma Ceqb_eq x y : Ceqb x y = true <-> x = y.
Proof.
  unfold Ceqb, decR. destruct x as [a b], y as [c d]. cbn [fst snd]. destruct (Req_EM_T a c), (Req_EM_T b d); cbn; split; intros H; try discriminate; try (injection H as -> ->; contradiction); try reflexivity; congruence.
Qed.
Lemma sameLabels_eq l : forall k, sameLabels l k = true <-> l = k.
Proof.
  induction l as [|x l IH]; intros [|y k]; cbn; split; intros H; try discriminate; try reflexivity.
  - apply andb_prop in H. destruct H as [H1 H2]. apply str_eqb_eq in H1. apply IH in H2. congruence.
  - injection H as -> ->. rewrite str_eqb_refl. now apply IH.
Qed.
Lemma hasTwice_nodup l : hasTwice l = false <-> NoDup l.
Proof.
  induction l as [|x l IH]; cbn; [split; [constructor|reflexivity]|]. split.
  - intros H. apply orb_false_elim in H. destruct H as [H1 H2]. constructor; [|now apply IH]. intros I. rewrite <- Bool.not_true_iff_false in H1. apply H1. apply existsb_exists. exists x. split; [exact I|apply str_eqb_refl].
  - intros H. inversion H as [|? ? N D]; subst. apply orb_false_intro; [|now apply IH]. destruct (existsb (str_eqb x) l) eqn:E; [|reflexivity]. apply existsb_exists in E. destruct E as (y & Hy & E). apply str_eqb_eq in E. subst. contradiction.
Qed.
Lemma labelMap_find labels : forall i m l, NoDup labels -> findLabel l (labelMap i labels m) =
  match find (fun p => str_eqb (fst p) l) (combine labels (seq i (length labels))) with Some p => Some (snd p) | None => findLabel l m end.
Proof.
  induction labels as [|x r IH]; intros i m l N; [reflexivity|]. inversion N as [|? ? N1 N2]; subst. cbn [labelMap length seq combine find fst snd]. rewrite IH by assumption.
  destruct (str_eqb x l) eqn:E.
  - apply str_eqb_eq in E. subst l. destruct (find _ (combine r (seq (S i) (length r)))) as [p|] eqn:F.
    + apply find_some in F. destruct F as [F1 F2]. apply str_eqb_eq in F2. destruct p as [y k]. apply in_combine_l in F1. cbn in F2. subst. contradiction.
    + cbn. now rewrite str_eqb_refl.
  - destruct (find _ (combine r (seq (S i) (length r)))); [reflexivity|]. cbn. now rewrite E.
Qed.
Definition okLeaf (a : leaf) : Prop :=
  NoDup (lfLabels a) /\ length (lfAmps a) = Nat.max 1 (length (lfLabels a)) /\ forall l, findLabel l (lfMap a) = findLabel l (labelMap 0 (lfLabels a) []).
Lemma zipWith_len f l : forall k t, zipWith f l k = Some t -> length t = length l.
Proof. induction l as [|x l IH]; intros [|y k] t H; cbn in H; try discriminate; try (injection H as <-; reflexivity). destruct (zipWith f l k) as [s|] eqn:E; [|discriminate]. injection H as <-. cbn. now rewrite (IH _ _ E). Qed.
Lemma zipWith_nth f l : forall k t i x, zipWith f l k = Some t -> nth_error l i = Some x -> exists y, nth_error k i = Some y /\ nth_error t i = Some (f x y).
Proof.
  induction l as [|z l IH]; intros [|y k] t i x H N; cbn in H; try discriminate; try (destruct i; discriminate). destruct (zipWith f l k) as [s|] eqn:E; [|discriminate]. injection H as <-.
  destruct i as [|i]; cbn in N |- *; [injection N as <-; eauto|]. eapply IH; eauto.
Qed.
Lemma zipWith_some f l : forall k, length l <= length k -> exists t, zipWith f l k = Some t.
Proof. induction l as [|x l IH]; intros [|y k] H; cbn in *; try lia; eauto. destruct (IH k) as [t E]; [lia|]. rewrite E. cbn. eauto. Qed.
Lemma made_ok a : madeBy a -> okLeaf a.
Proof.
  induction 1 as [|a H IH|a labels b H IH NE D|a z i b H IH S|a b s H IH H2 IH2 S|a b s H IH H2 IH2 S|a c H IH|a c b H IH S|a b H IH H2 IH2|a b H IH H2 IH2|a H IH].
  - split; [constructor|split; reflexivity].
  - split; [constructor|split; reflexivity].
  - unfold defineSubAmps in D. destruct (hasTwice labels) eqn:T; [discriminate|]. injection D as <-. split; [now apply hasTwice_nodup|]. split; [|reflexivity]. cbn. unfold resized. rewrite app_length, firstn_length, repeat_length. destruct labels; [contradiction|]. cbn [length]. lia.
  - unfold setSubAmp in S. destruct (Nat.ltb_spec i (length (lfAmps a))); [|discriminate]. injection S as <-. destruct IH as (A & B & D). split; [exact A|]. split; [|exact D]. transitivity (length (lfAmps a)); [|exact B]. change (length (firstn i (lfAmps a) ++ z :: skipn (S i) (lfAmps a)) = length (lfAmps a)). rewrite app_length. change (length (z :: skipn (S i) (lfAmps a))) with (S (length (skipn (S i) (lfAmps a)))). rewrite skipn_length, firstn_length. lia.
  - unfold leafAdd in S. destruct (sameLabels _ _); [|discriminate]. destruct (zipWith _ _ _) as [t|] eqn:E; [|discriminate]. injection S as <-. destruct IH as (A & B & D). split; [exact A|]. split; [|exact D]. cbn. rewrite (zipWith_len _ _ _ _ E). exact B.
  - unfold leafSub in S. destruct (sameLabels _ _); [|discriminate]. destruct (zipWith _ _ _) as [t|] eqn:E; [|discriminate]. injection S as <-. destruct IH as (A & B & D). split; [exact A|]. split; [|exact D]. cbn. rewrite (zipWith_len _ _ _ _ E). exact B.
  - destruct IH as (A & B & D). split; [exact A|]. split; [|exact D]. cbn. now rewrite map_length.
  - unfold leafDiv in S. destruct (Ceqb c (RtoC 0)); [discriminate|]. injection S as <-. destruct IH as (A & B & D). split; [exact A|]. split; [|exact D]. cbn. now rewrite map_length.
  - exact IH2.
  - destruct IH as (A & B & D). split; [exact A|]. split; [exact B|reflexivity].
  - destruct IH as (A & B & D). split; [exact A|]. split; [exact B|reflexivity].
Qed.
Lemma find_index labels l : NoDup labels -> forall s i, (find (fun p => str_eqb (fst p) l) (combine labels (seq s (length labels))) = Some (l, i)) <-> (s <= i /\ nth_error labels (i - s) = Some l).
Proof.
  induction 1 as [|x r N1 N2 IH]; intros s i; cbn [length seq combine find fst]; [split; [discriminate|intros [_ H]; destruct (i - s); discriminate]|].
  destruct (str_eqb x l) eqn:E.
  - apply str_eqb_eq in E. subst x. split.
    + intros [= <-]. split; [lia|]. now rewrite Nat.sub_diag.
    + intros [L H]. destruct (i - s) as [|k] eqn:Q; [assert (i = s) as -> by lia; reflexivity|]. cbn in H. apply nth_error_In in H. contradiction.
  - rewrite (IH (S s) i). split.
    + intros [L H]. split; [lia|]. replace (i - s) with (S (i - S s)) by lia. exact H.
    + intros [L H]. destruct (i - s) as [|k] eqn:Q; [cbn in H; injection H as ->; rewrite str_eqb_refl in E; discriminate|]. split; [lia|]. replace (i - S s) with k by lia. exact H.
Qed.
Lemma index_iff a : okLeaf a -> forall l i, labelIndex a l = Some i <-> nth_error (lfLabels a) i = Some l.
Proof.
  intros (N & _ & M) l i. unfold labelIndex. rewrite M, labelMap_find by exact N.
  pose proof (find_index (lfLabels a) l N 0 i) as F. rewrite Nat.sub_0_r in F.
  destruct (find (fun p => str_eqb (fst p) l) (combine (lfLabels a) (seq 0 (length (lfLabels a))))) as [[k j]|] eqn:E.
  - apply find_some in E as E2. destruct E2 as [_ E2]. cbn in E2. apply str_eqb_eq in E2. subst k. cbn [snd]. split; [intros [= ->]; now apply F|intros H; assert (Some (l, j) = Some (l, i)) as Q by (apply F; split; [lia|exact H]); injection Q as ->; reflexivity].
  - cbn [findLabel]. split; [discriminate|]. intros H. assert (@None (str * nat) = Some (l, i)) as Q by (apply F; split; [lia|exact H]). discriminate.
Qed.

(* Labels are distinct; there is one amplitude for each label, and one without labels; index and label belong together. *)
Theorem C90_labels a : madeBy a ->
  (forall i j l, labelName a i = Some l -> labelName a j = Some l -> i = j)
  /\ (forall i, subAmp a i <> None <-> (labelName a i <> None \/ i = 0))
  /\ (forall l i, labelIndex a l = Some i <-> labelName a i = Some l)
  /\ (forall l, containsLabel a l = true <-> exists i, labelName a i = Some l)
  /\ (forall l i, labelName a i = Some l -> subAmpByLabel a l = subAmp a i) /\ oneAmp a <> None.
Proof.
  intros H. apply made_ok in H. pose proof (index_iff a H) as X. destruct H as (N & L & M).
  assert (forall i, subAmp a i <> None <-> (labelName a i <> None \/ i = 0)) as K. { intros i. unfold subAmp, labelName. rewrite !nth_error_Some, L. lia. }
  split. { intros i j l Hi Hj. apply (proj1 (NoDup_nth_error (lfLabels a)) N); [apply nth_error_Some; unfold labelName in Hi; congruence|]. unfold labelName in *. congruence. }
  split; [exact K|]. split; [exact X|]. split; [|split].
  - intros l. unfold containsLabel. split.
    + intros E. destruct (findLabel l (lfMap a)) as [i|] eqn:F; [|discriminate]. exists i. now apply X.
    + intros [i E]. apply X in E. unfold labelIndex in E. now rewrite E.
  - intros l i E. unfold subAmpByLabel. apply X in E. now rewrite E.
  - apply K. now right.
Qed.
(* defineIncohSubAmps refuses labels that are not distinct; otherwise it sets the labels, keeps the amplitudes there are for
   the new labels and sets the others to zero *)
Theorem C90_define a labels : (defineSubAmps labels a = None <-> ~ NoDup labels)
  /\ forall b, defineSubAmps labels a = Some b -> (forall i, labelName b i = nth_error labels i)
     /\ forall i, i < length labels -> subAmp b i = Some (nth i (lfAmps a) (RtoC 0)).
Proof.
  unfold defineSubAmps. split.
  - rewrite <- hasTwice_nodup. destruct (hasTwice labels); split; intros H; try reflexivity; try discriminate; congruence.
  - intros b H. destruct (hasTwice labels); [discriminate|]. injection H as <-. split; [reflexivity|]. intros i L. unfold subAmp. cbn [lfAmps rebuildMap]. unfold resized.
    destruct (lt_dec i (length (lfAmps a))) as [Li|Li].
    + rewrite nth_error_app1 by (rewrite firstn_length; lia). assert (nth_error (firstn (length labels) (lfAmps a)) i = nth_error (lfAmps a) i) as ->.
      { rewrite <- (firstn_skipn (length labels) (lfAmps a)) at 2. rewrite nth_error_app1; [reflexivity|]. rewrite firstn_length. lia. }
      now apply nth_error_nth'.
    + rewrite nth_error_app2 by (rewrite firstn_length; lia). rewrite firstn_length, (nth_overflow (lfAmps a)) by lia. apply nth_error_repeat. lia.
Qed.
(* setting a sub-amplitude changes this one only *)
Theorem C90_set a z i : (setSubAmp z i a = None <-> subAmp a i = None) /\ forall b, setSubAmp z i a = Some b ->
  subAmp b i = Some z /\ (forall j, j <> i -> subAmp b j = subAmp a j) /\ (forall j, labelName b j = labelName a j) /\ forall l, labelIndex b l = labelIndex a l.
Proof.
  unfold setSubAmp, subAmp. destruct (Nat.ltb_spec i (length (lfAmps a))) as [L|L].
  - split; [split; [discriminate|intros E; apply nth_error_None in E; lia]|]. intros b [= <-]. cbn [lfAmps].
    assert (length (firstn i (lfAmps a)) = i) as FL by (rewrite firstn_length; lia). split; [rewrite nth_error_app2, FL, Nat.sub_diag by lia; reflexivity|]. split; [|split; reflexivity].
    intros j NE. destruct (lt_dec j i) as [Lj|Lj].
    + rewrite nth_error_app1 by lia. rewrite <- (firstn_skipn i (lfAmps a)) at 2. now rewrite nth_error_app1 by lia.
    + rewrite nth_error_app2 by lia. rewrite FL. destruct (j - i) as [|k] eqn:Q; [lia|]. cbn. rewrite <- (firstn_skipn (S i) (lfAmps a)) at 2. rewrite nth_error_app2 by (rewrite firstn_length; lia). rewrite firstn_length. f_equal. lia.
  - split; [split; [intros _; now apply nth_error_None|reflexivity]|]. discriminate.
Qed.
Lemma made_len a b : madeBy a -> madeBy b -> lfLabels a = lfLabels b -> length (lfAmps a) = length (lfAmps b).
Proof. intros A B E. destruct (made_ok _ A) as (_ & LA & _), (made_ok _ B) as (_ & LB & _). congruence. Qed.
Lemma labels_ext a b : (forall i, labelName a i = labelName b i) <-> lfLabels a = lfLabels b.
Proof.
  split; [|intros E i; unfold labelName; now rewrite E]. unfold labelName. generalize (lfLabels a) (lfLabels b). intros l. induction l as [|x l IH]; intros [|y k] H; try reflexivity; try (specialize (H 0); discriminate).
  pose proof (H 0) as H0. injection H0 as ->. f_equal. apply IH. intros i. exact (H (S i)).
Qed.
Lemma sum_gen (f : C -> C -> C) a b : madeBy a -> madeBy b -> lfLabels a = lfLabels b ->
  exists t, zipWith f (lfAmps a) (lfAmps b) = Some t /\ forall i x y, nth_error (lfAmps a) i = Some x -> nth_error (lfAmps b) i = Some y -> nth_error t i = Some (f x y).
Proof.
  intros A B E. destruct (zipWith_some f (lfAmps a) (lfAmps b)) as [t T]; [rewrite (made_len a b A B E); lia|]. exists t. split; [exact T|]. intros i x y X Y. destruct (zipWith_nth _ _ _ _ _ _ T X) as (y' & Y' & Q). congruence.
Qed.
(* Sums and differences exist exactly for equal labels and are those of the sub-amplitudes *)
Theorem C90_sum a b : madeBy a -> madeBy b ->
  ((leafAdd a b = None <-> ~ forall i, labelName a i = labelName b i) /\ (leafSub a b = None <-> ~ forall i, labelName a i = labelName b i))
  /\ (forall s, leafAdd a b = Some s -> (forall i, labelName s i = labelName a i) /\ (forall l, labelIndex s l = labelIndex a l)
        /\ forall i x y, subAmp a i = Some x -> subAmp b i = Some y -> subAmp s i = Some (x + y)%C)
  /\ (forall s, leafSub a b = Some s -> (forall i, labelName s i = labelName a i) /\ (forall l, labelIndex s l = labelIndex a l)
        /\ forall i x y, subAmp a i = Some x -> subAmp b i = Some y -> subAmp s i = Some (x - y)%C).
Proof.
  intros A B. unfold leafAdd, leafSub. destruct (sameLabels (lfLabels a) (lfLabels b)) eqn:E.
  - apply sameLabels_eq in E. destruct (sum_gen Cplus a b A B E) as (t & T & P). destruct (sum_gen Cminus a b A B E) as (u & V & Q). rewrite T, V. cbn [bindP]. pose proof (proj2 (labels_ext a b) E) as LE.
    split; [split; (split; [discriminate|intros N; contradiction])|]. split; intros s [= <-]; (split; [reflexivity|]; split; [reflexivity|]); [exact P|exact Q].
  - split; [split; (split; [intros _ F; apply labels_ext in F; apply sameLabels_eq in F; congruence|reflexivity])|]. split; discriminate.
Qed.
(* a sum minus one of its terms is the other one, sums do not depend on the order *)
Theorem C90_group a b s : madeBy a -> madeBy b -> leafAdd a b = Some s ->
  (exists d, leafSub s b = Some d /\ sameLeaf d a) /\ (exists t, leafAdd b a = Some t /\ sameLeaf s t).
Proof.
  intros A B S. assert (madeBy s) as MS by (eapply mAdd; [exact A|exact B|exact S]). destruct (C90_sum a b A B) as ((N1 & _) & SA & _). destruct (SA s S) as (L1 & L2 & L3).
  assert (forall i, labelName a i = labelName b i) as LE. { apply labels_ext. unfold leafAdd in S. destruct (sameLabels _ _) eqn:E; [|discriminate]. now apply sameLabels_eq in E. }
  assert (forall i, labelName s i = labelName b i) as LS by (intros i; now rewrite L1).
  assert (forall x y i, madeBy x -> madeBy y -> (forall j, labelName x j = labelName y j) -> subAmp x i = None <-> subAmp y i = None) as NN.
  { intros x y i X Y LXY. destruct (C90_labels x X) as (_ & K & _), (C90_labels y Y) as (_ & K' & _). specialize (K i). specialize (K' i). rewrite LXY in K. destruct (subAmp x i), (subAmp y i); split; intros Q; try reflexivity; try discriminate; exfalso.
    - assert (@None C <> None) as F by (apply K'; apply K; discriminate). now apply F.
    - assert (@None C <> None) as F by (apply K; apply K'; discriminate). now apply F. }
  assert (forall x y, madeBy x -> madeBy y -> (forall i, labelName x i = labelName y i) -> forall l, containsLabel x l = containsLabel y l /\ labelIndex x l = labelIndex y l) as LL.
  { intros x y X Y LXY l. assert (labelIndex x l = labelIndex y l) as E.
    { destruct (C90_labels x X) as (_ & _ & K & _), (C90_labels y Y) as (_ & _ & K' & _). destruct (labelIndex x l) as [i|] eqn:E; [symmetry; apply K'; rewrite <- LXY; now apply K|]. destruct (labelIndex y l) as [i|] eqn:E'; [|reflexivity]. apply K' in E'. rewrite <- LXY in E'. apply K in E'. congruence. }
    split; [|exact E]. unfold containsLabel. unfold labelIndex in E. now rewrite E. }
  split.
  - destruct (C90_sum s b MS B) as ((_ & N2) & _ & SB). destruct (leafSub s b) as [d|] eqn:D; [|exfalso; now apply (proj1 N2 eq_refl)]. exists d. split; [reflexivity|]. destruct (SB d eq_refl) as (D1 & D2 & D3).
    assert (madeBy d) as MD by (eapply mSub; [exact MS|exact B|exact D]). assert (forall i, labelName d i = labelName a i) as LD by (intros i; rewrite D1; apply L1). split; [|split; [exact LD|exact (LL d a MD A LD)]].
    intros i. destruct (subAmp a i) as [x|] eqn:X; [|now apply (NN d a i MD A LD)]. destruct (subAmp b i) as [y|] eqn:Y; [|apply (NN a b i A B LE) in Y; congruence].
    rewrite (D3 i (x + y)%C y (L3 i x y X Y) Y). f_equal. ring.
  - destruct (C90_sum b a B A) as ((N2 & _) & SB & _). destruct (leafAdd b a) as [t|] eqn:T; [|exfalso; apply (proj1 N2 eq_refl); intros i; now rewrite LE]. exists t. split; [reflexivity|]. destruct (SB t eq_refl) as (T1 & T2 & T3).
    assert (madeBy t) as MT by (eapply mAdd; [exact B|exact A|exact T]). assert (forall i, labelName s i = labelName t i) as LT by (intros i; rewrite T1; apply LS). split; [|split; [exact LT|exact (LL s t MS MT LT)]].
    intros i. destruct (subAmp a i) as [x|] eqn:X.
    + destruct (subAmp b i) as [y|] eqn:Y; [|apply (NN a b i A B LE) in Y; congruence]. rewrite (L3 i x y X Y), (T3 i y x Y X). f_equal. ring.
    + assert (subAmp s i = None) as -> by now apply (NN s a i MS A L1). symmetry. apply (NN t a i MT A); [|exact X]. intros j. now rewrite <- LT, L1.
Qed.
(* products and quotients are those of the sub-amplitudes and undo each other; labels stay *)
Theorem C90_scale a c : (forall i x, subAmp a i = Some x -> subAmp (leafMul c a) i = Some (x * c)%C) /\ (forall i, labelName (leafMul c a) i = labelName a i)
  /\ (leafDiv c a = None <-> c = RtoC 0) /\ forall d, leafDiv c (leafMul c a) = Some d -> sameLeaf d a.
Proof.
  split; [|split; [reflexivity|split]].
  - intros i x X. unfold subAmp in *. cbn [leafMul lfAmps]. rewrite nth_error_map, X. reflexivity.
  - unfold leafDiv. pose proof (Ceqb_eq c (RtoC 0)) as E. destruct (Ceqb c (RtoC 0)); split; intros H; try reflexivity; try discriminate; try (now apply E). apply E in H. discriminate.
  - intros d. unfold leafDiv. pose proof (Ceqb_eq c (RtoC 0)) as E. destruct (Ceqb c (RtoC 0)); [discriminate|]. intros [= <-].
    assert (c <> RtoC 0) as NZ by (intros F; apply E in F; discriminate). split; [|split; [reflexivity|split; reflexivity]].
    intros i. unfold subAmp. cbn [lfAmps leafMul]. rewrite !nth_error_map. destruct (nth_error (lfAmps a) i) as [x|]; [|reflexivity]. cbn. f_equal. field. exact NZ.
Qed.
(* a leaf written to a file is read back as the same leaf, whatever object it is read into; so it is when assigned;
   a cleared leaf is a new one *)
Theorem C90_stored a b : madeBy a -> sameLeaf (leafRead (leafWrite a) b) a /\ sameLeaf (leafAssign b a) a /\ sameLeaf (leafClear b) leafNew.
Proof.
  intros A. pose proof (made_ok _ A) as (_ & _ & M). split; [|split; [|split; [reflexivity|split; [reflexivity|split; reflexivity]]]].
  - split; [reflexivity|]. split; [reflexivity|]. intros l. unfold containsLabel, labelIndex. cbn [lfMap leafRead leafWrite rebuildMap lfLabels fst snd]. rewrite M. auto.
  - split; [reflexivity|]. split; [reflexivity|]. intros l. auto.
Qed.
(* the comparison of leaves with equal labels compares the amplitudes *)
Theorem C90_equal a b : madeBy a -> madeBy b -> (forall i, labelName a i = labelName b i) ->
  exists e, leafEq a b = Some e /\ (e = true <-> forall i, subAmp a i = subAmp b i).
Proof.
  intros A B LE. apply labels_ext in LE. pose proof (made_len a b A B LE) as L. unfold leafEq, subAmp. rewrite Nat.eqb_refl. cbn [negb]. revert L. generalize (lfAmps a) (lfAmps b). intros l.
  induction l as [|x l IH]; intros [|y k] L; cbn in L; try discriminate; cbn [eqLoop]; [exists true; split; [reflexivity|split; reflexivity]|].
  destruct (IH k) as (e & E & EE); [lia|]. pose proof (Ceqb_eq x y) as Q. destruct (Ceqb x y).
  - exists e. split; [exact E|]. rewrite EE. assert (x = y) as <- by now apply Q. split; intros H i; [destruct i as [|i]; [reflexivity|apply H]|exact (H (S i))].
  - exists false. split; [reflexivity|]. split; [discriminate|]. intros H. specialize (H 0). cbn in H. injection H as H. apply Q in H. discriminate.
Qed.
(* Leaves of different sizes: amplitudeTreeLeaf.h 134 compares the left size with itself. A leaf equals every longer one that
   starts with its amplitudes, the other way round the comparison reads outside of the vector. *)
Theorem C90_equal_refuted a b c : madeBy a -> lfAmps b = lfAmps a ++ [c] ->
  leafEq a b = Some true /\ leafEq b a = None /\ subAmp a (length (lfAmps a)) <> subAmp b (length (lfAmps a)).
Proof.
  intros _ E. unfold leafEq, subAmp. rewrite !Nat.eqb_refl. cbn [negb]. rewrite E. generalize (lfAmps a). intros l.
  assert (forall x, Ceqb x x = true) as R by (intros x; now apply Ceqb_eq).
  split; [|split].
  - induction l as [|x l IH]; [reflexivity|]. cbn. now rewrite R.
  - induction l as [|x l IH]; [reflexivity|]. cbn. now rewrite R.
  - rewrite nth_error_app2, Nat.sub_diag by lia. cbn. assert (nth_error l (length l) = None) as -> by now apply nth_error_None. discriminate.
Qed.
(* labels are not compared: with equal amplitudes leaves that cannot be added are equal *)
Theorem C90_equal_labels_refuted : exists a b, madeBy a /\ madeBy b /\ leafEq a b = Some true /\ leafAdd a b = None.
Proof.
  exists (rebuildMap (Leaf [RtoC 0; RtoC 0] [["a"%char]; ["b"%char]] [])), (rebuildMap (Leaf [RtoC 0; RtoC 0] [["a"%char]; ["c"%char]] [])).
  assert (forall z : C, Ceqb z z = true) as R by (intros z; now apply Ceqb_eq).
  split; [eapply (mDefine leafNew [["a"%char]; ["b"%char]]); [constructor|discriminate|reflexivity]|]. split; [eapply (mDefine leafNew [["a"%char]; ["c"%char]]); [constructor|discriminate|reflexivity]|].
  split; [|reflexivity]. unfold leafEq. cbn [lfAmps rebuildMap length Nat.eqb negb eqLoop]. now rewrite !R.
Qed.
(* An empty vector of labels leaves no amplitude at all, although the program announces to use a single amplitude value: the
   amplitude can be neither read nor set, and the sum with a new leaf reads outside of the vector *)
Theorem C90_no_labels_refuted a : exists b, defineSubAmps [] a = Some b /\ oneAmp b = None /\ (forall z, setSubAmp z 0 b = None) /\ leafAdd leafNew b = None.
Proof. exists (Leaf [] [] []). split; [unfold defineSubAmps; cbn; unfold rebuildMap, resized; cbn; reflexivity|]. split; [reflexivity|]. split; reflexivity. Qed.

(* examples *)
Example C90_made_example : exists a b s, madeBy a /\ madeBy b /\ leafAdd a b = Some s /\ labelName s 1 = Some ["b"%char] /\ subAmp s 1 = Some (RtoC 2 + RtoC 3)%C.
Proof.
  set (d := rebuildMap (Leaf [RtoC 0; RtoC 0] [["a"%char]; ["b"%char]] [])). assert (madeBy d) as D by (eapply (mDefine leafNew [["a"%char]; ["b"%char]]); [constructor|discriminate|reflexivity]).
  eexists _, _, _. split; [eapply (mSet d (RtoC 2) 1); [exact D|reflexivity]|]. split; [eapply (mSet d (RtoC 3) 1); [exact D|reflexivity]|]. split; [reflexivity|]. split; reflexivity.
Qed.
Example C90_equal_refuted_example : exists b, madeBy leafNew /\ madeBy b /\ lfAmps b = lfAmps leafNew ++ [RtoC 0].
Proof. eexists. split; [constructor|]. split; [eapply (mDefine leafNew [["a"%char]; ["b"%char]]); [constructor|discriminate|reflexivity]|]. reflexivity. Qed.
