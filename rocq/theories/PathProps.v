(* Property C07: splitting paths. *)
From Coq Require Import String Ascii List Arith Bool Lia.
From Verif Require Import PathModel.
Import ListNotations.
Open Scope list_scope.

(* specification: dir is everything up to and including the last '/', file the rest *)
Definition splitsAtLastSlash (path dir file : str) : Prop :=
  path = dir ++ file /\ ~ In "/"%char file /\ (dir = [] \/ exists d, dir = d ++ ["/"%char]).

(* specification: base and ext are the parts before and after the last '.' *)
Definition splitsAtLastDot (name base ext : str) : Prop :=
  name = base ++ "."%char :: ext /\ ~ In "."%char ext.

Lemma find_last_of_none c s : find_last_of c s = None <-> ~ In c s.
Proof.
  induction s as [|x r IH]; cbn [find_last_of].
  - split; [intros _ []|reflexivity].
  - destruct (find_last_of c r) eqn:E.
    + split; [discriminate|]. intros H. exfalso. apply H. right.
      destruct (in_dec ascii_dec c r) as [|n']; [assumption|]. apply IH in n'. discriminate.
    + destruct (Ascii.eqb x c) eqn:E2.
      * apply Ascii.eqb_eq in E2. subst. split; [discriminate|]. intros H. exfalso. apply H. now left.
      * apply Ascii.eqb_neq in E2. split; [|reflexivity]. intros _ [->|H]; [congruence|]. now apply IH.
Qed.

Lemma find_last_of_some c s i : find_last_of c s = Some i ->
  exists a b, s = a ++ c :: b /\ length a = i /\ ~ In c b.
Proof.
  revert i. induction s as [|x r IH]; intros i; cbn [find_last_of]; [discriminate|].
  destruct (find_last_of c r) as [j|] eqn:E.
  - intros [= <-]. destruct (IH _ eq_refl) as (a & b & -> & <- & Hn).
    exists (x :: a), b. auto.
  - destruct (Ascii.eqb x c) eqn:E2; [|discriminate]. intros [= <-].
    apply Ascii.eqb_eq in E2. subst x. exists [], r. split; [reflexivity|]. split; [reflexivity|].
    now apply find_last_of_none.
Qed.

Lemma find_last_of_app c a b : ~ In c b -> find_last_of c (a ++ c :: b) = Some (length a).
Proof.
  intros H. induction a as [|x r IH]; cbn [app find_last_of length].
  - apply find_last_of_none in H. rewrite H. now rewrite Ascii.eqb_refl.
  - now rewrite IH.
Qed.

Lemma split_dir path : exists f, fileNameFromPath path = Some f /\ splitsAtLastSlash path (directoryFromPath path) f.
Proof.
  unfold fileNameFromPath, directoryFromPath, splitsAtLastSlash, substr_from.
  destruct (find_last_of slash path) as [i|] eqn:E; cbn [plus1].
  - apply find_last_of_some in E. destruct E as (a & b & -> & <- & Hn).
    replace (a ++ slash :: b) with ((a ++ [slash]) ++ b) by (rewrite <- app_assoc; reflexivity).
    assert (S (length a) = length (a ++ [slash])) as HL by (rewrite app_length; cbn; lia).
    rewrite HL. rewrite app_length.
    destruct (Nat.ltb_spec (length (a ++ [slash]) + length b) (length (a ++ [slash]))); [lia|].
    exists b. rewrite skipn_app, skipn_all, Nat.sub_diag. split; [reflexivity|].
    rewrite firstn_app, firstn_all, Nat.sub_diag, firstn_O, app_nil_r.
    split; [reflexivity|]. split; [exact Hn|]. right. now exists a.
  - exists path. destruct (Nat.ltb_spec (length path) 0); [lia|]. split; [reflexivity|].
    split; [reflexivity|]. split; [now apply find_last_of_none in E|now left].
Qed.

Lemma splits_unique path d f d' f' : splitsAtLastSlash path d f -> splitsAtLastSlash path d' f' -> d = d' /\ f = f'.
Proof.
  intros (E & Hn & Hd) (E' & Hn' & Hd'). rewrite E in E'. clear E path.
  assert (forall (d f d' f' : str), ~ In "/"%char f -> (d' = [] \/ exists x, d' = x ++ ["/"%char]) ->
    d ++ f = d' ++ f' -> length d' <= length d) as Hlen.
  { clear. intros d f d' f' Hn Hd' E.
    destruct (le_lt_dec (length d') (length d)) as [|Hlt]; [assumption|]. exfalso. apply Hn.
    destruct Hd' as [->|[x ->]]; [cbn in Hlt; lia|].
    assert (skipn (length d) (d ++ f) = skipn (length d) ((x ++ ["/"%char]) ++ f')) as E2 by now rewrite E.
    rewrite skipn_app, skipn_all, Nat.sub_diag in E2. cbn [app skipn] in E2. rewrite E2.
    rewrite app_length in Hlt. cbn in Hlt.
    rewrite skipn_app. apply in_or_app. left. rewrite skipn_app. apply in_or_app. right.
    replace (length d - length x) with 0 by lia. now left. }
  assert (length d = length d').
  { apply Nat.le_antisymm; [exact (Hlen d' f' d f Hn' Hd (eq_sym E'))|exact (Hlen d f d' f' Hn Hd' E')]. }
  assert (firstn (length d) (d ++ f) = firstn (length d') (d' ++ f')) as E1 by (rewrite E', H; reflexivity).
  rewrite !firstn_app, !firstn_all, !Nat.sub_diag, !firstn_O, !app_nil_r in E1. split; [exact E1|].
  subst d'. now apply app_inv_head in E'.
Qed.

Theorem C07_directory_and_file_name :
  forall path, exists file,
  fileNameFromPath path = Some file
  /\ splitsAtLastSlash path (directoryFromPath path) file
  /\ (forall d f, splitsAtLastSlash path d f -> d = directoryFromPath path /\ f = file).
Proof.
  intros path. destruct (split_dir path) as (f & E & H). exists f. split; [exact E|]. split; [exact H|].
  intros. eapply splits_unique; eauto.
Qed.

Lemma fileName_of d f : (d = [] \/ exists x, d = x ++ ["/"%char]) -> ~ In "/"%char f ->
  fileNameFromPath (d ++ f) = Some f /\ directoryFromPath (d ++ f) = d.
Proof.
  intros Hd Hn. destruct (split_dir (d ++ f)) as (f' & E & H).
  destruct (splits_unique _ _ _ d f H) as [E1 E2].
  { split; [reflexivity|]. now split. } subst. split; [exact E|]. congruence.
Qed.

(* extension and base name: consistent as soon as the file name contains a dot *)
Theorem C07_extension_split :
  forall path file, fileNameFromPath path = Some file -> In "."%char file ->
  exists base ext, fileNameNoExtFromPath path = Some base /\ extensionFromPath path = Some ext
    /\ splitsAtLastDot file base ext.
Proof.
  intros path file E Hin. unfold fileNameNoExtFromPath, extensionFromPath. rewrite E.
  destruct (find_last_of dot file) as [i|] eqn:Ef; [|apply find_last_of_none in Ef; contradiction].
  apply find_last_of_some in Ef. destruct Ef as (a & b & -> & <- & Hn).
  exists a, b. cbn [substr_to plus1]. unfold substr_from.
  rewrite firstn_app, firstn_all, Nat.sub_diag, firstn_O, app_nil_r. split; [reflexivity|].
  replace (a ++ dot :: b) with ((a ++ [dot]) ++ b) by (rewrite <- app_assoc; reflexivity).
  assert (S (length a) = length (a ++ [dot])) as HL by (rewrite app_length; cbn; lia).
  rewrite HL. rewrite app_length.
  destruct (Nat.ltb_spec (length (a ++ [dot]) + length b) (length (a ++ [dot]))); [lia|].
  rewrite skipn_app, skipn_all, Nat.sub_diag. cbn [app skipn]. split; [reflexivity|].
  split; [rewrite <- app_assoc; reflexivity|exact Hn].
Qed.

(* without a dot the "extension" is the whole file name, and so is the base name *)
Theorem C07_no_dot_extension_is_whole_name :
  forall path file, fileNameFromPath path = Some file -> ~ In "."%char file ->
  fileNameNoExtFromPath path = Some file /\ extensionFromPath path = Some file.
Proof.
  intros path file E Hn. unfold fileNameNoExtFromPath, extensionFromPath. rewrite E.
  apply find_last_of_none in Hn. change "."%char with dot in Hn. rewrite Hn. cbn [substr_to plus1].
  unfold substr_from. destruct (Nat.ltb_spec (length file) 0); [lia|]. auto.
Qed.

(* replacing the extension keeps directory and base name, and the new extension is
   found again; a leading dot of the new extension is not doubled *)
Theorem C07_change_extension :
  forall path newExt, newExt <> [] -> ~ In "."%char newExt -> ~ In "/"%char newExt ->
  exists p', changeFileExtension path newExt = Some p'
    /\ changeFileExtension path ("."%char :: newExt) = Some p'
    /\ directoryFromPath p' = directoryFromPath path
    /\ fileNameNoExtFromPath p' = fileNameNoExtFromPath path
    /\ extensionFromPath p' = Some newExt.
Proof.
  intros path newExt Hne Hd Hs.
  destruct (split_dir path) as (f & E & Hp & Hn & Hdir).
  assert (exists base, fileNameNoExtFromPath path = Some base /\ ~ In "/"%char base) as (base & Eb & Hb).
  { unfold fileNameNoExtFromPath. rewrite E. eexists. split; [reflexivity|].
    intros H. apply Hn. destruct (find_last_of dot f); cbn in H; [|exact H].
    rewrite <- (firstn_skipn n f). apply in_or_app. now left. }
  exists (directoryFromPath path ++ base ++ dot :: newExt).
  assert (changeFileExtension path newExt = Some (directoryFromPath path ++ base ++ dot :: newExt)) as E1.
  { unfold changeFileExtension. rewrite Eb. destruct newExt as [|c r]; [congruence|].
    destruct (Ascii.eqb c dot) eqn:Ec; [|reflexivity].
    apply Ascii.eqb_eq in Ec. subst c. exfalso. apply Hd. now left. }
  split; [exact E1|]. split; [unfold changeFileExtension; rewrite Eb; reflexivity|].
  assert (~ In "/"%char (base ++ dot :: newExt)) as Hn2.
  { intros H. apply in_app_or in H. destruct H as [H|[H|H]]; [contradiction|discriminate H|contradiction]. }
  destruct (fileName_of (directoryFromPath path) (base ++ dot :: newExt) Hdir Hn2) as [F1 F2].
  split; [exact F2|].
  destruct (C07_extension_split _ _ F1) as (b' & e' & G1 & G2 & G3 & G4).
  { apply in_or_app. right. now left. }
  rewrite Eb, G1, G2.
  assert (find_last_of dot (base ++ dot :: newExt) = find_last_of dot (b' ++ dot :: e')) as G5 by (f_equal; exact G3).
  rewrite !find_last_of_app in G5 by assumption. injection G5 as G5.
  assert (base = b' /\ dot :: newExt = dot :: e') as [-> G6].
  { assert (firstn (length base) (base ++ dot :: newExt) = firstn (length b') (b' ++ dot :: e')) as K
      by (rewrite G3, G5; reflexivity).
    rewrite !firstn_app, !firstn_all, !Nat.sub_diag, !firstn_O, !app_nil_r in K. subst b'.
    split; [reflexivity|]. now apply app_inv_head in G3. }
  injection G6 as ->. auto.
Qed.

(* an empty new extension removes the extension *)
Theorem C07_remove_extension :
  forall path base, fileNameNoExtFromPath path = Some base ->
  changeFileExtension path [] = Some (directoryFromPath path ++ base).
Proof. intros path base E. unfold changeFileExtension. now rewrite E. Qed.

Definition s := list_ascii_of_string.
Example C07_ex : directoryFromPath (s "/a.b/c.tar.gz") = s "/a.b/"
  /\ fileNameFromPath (s "/a.b/c.tar.gz") = Some (s "c.tar.gz")
  /\ fileNameNoExtFromPath (s "/a.b/c.tar.gz") = Some (s "c.tar")
  /\ extensionFromPath (s "/a.b/c.tar.gz") = Some (s "gz")
  /\ changeFileExtension (s "/a.b/c.tar.gz") (s "root") = Some (s "/a.b/c.tar.root")
  /\ extensionFromPath (s "/a.b/data") = Some (s "data").
Proof. vm_compute. repeat split. Qed.

Print Assumptions C07_directory_and_file_name.
Print Assumptions C07_extension_split.
Print Assumptions C07_no_dot_extension_is_whole_name.
Print Assumptions C07_change_extension.
Print Assumptions C07_remove_extension.
