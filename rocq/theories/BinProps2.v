(* C44, C45, C49: failure of the hash, sub-bins and bin centers, merged amplitude files *)
From Coq Require Import String Ascii List ZArith Reals Bool Lia Lra Sorting.Sorted Permutation.
From Verif Require Import PathModel StrModel DecModel CGBoxModel EventMetaModel EventMetaProps LikSetProofs BinModel BinProps BinOrdProps FileMgrModel FileMgrProps.
Import ListNotations.
Open Scope list_scope. Open Scope nat_scope.

(* ---- C44: recalculating the hash ---- *)
(* the numbers of the events are fed exactly if the tree has both branches of momenta and a branch for every
   additional variable; otherwise nothing is fed and the hash is the empty string *)
Theorem C44_hash_iff : forall f h, (readable (efVars f) f -> updateHashor f h = Some (h ++ numbers (efVars f) (eventsOf f))) /\ (~ readable (efVars f) f -> updateHashor f h = None).
Proof.
  intros f h. unfold updateHashor, eventsOf, numbers. split.
  - intros (t & -> & -> & -> & H). apply hasAll_iff in H. now rewrite H.
  - intros N. destruct (efTree f) as [t|] eqn:Et; [|reflexivity]. destruct (trProd t) eqn:A; [|reflexivity]. destruct (trDecay t) eqn:B; [|reflexivity].
    destruct (hasAll (efVars f) t) eqn:C; [|reflexivity]. exfalso. apply N. exists t. repeat split; auto. now apply hasAll_iff.
Qed.
Theorem C44_recalculated_hash : forall digest f, (readable (efVars f) f -> recalculateHash digest f = digest (numbers (efVars f) (eventsOf f))) /\ (~ readable (efVars f) f -> recalculateHash digest f = []).
Proof.
  intros digest f. unfold recalculateHash. destruct (C44_hash_iff f []) as [A B]. split; intros H; [now rewrite (A H)|now rewrite (B H)].
Qed.
(* the concrete case: a file with one event, and the same file whose tree lacks the decay momenta *)
Example C44_hash_ex : let ok := file1 REAL (bM 0 1) 0 in let bad := EF [] [] REAL [] [] [] [] [] (Some (Tr true false [] [Ev [] [] (fun _ => 0%R)])) in
  readable (efVars ok) ok /\ eventsOf ok <> [] /\ ~ readable (efVars bad) bad.
Proof.
  cbn zeta. split; [|split].
  - unfold file1. eexists. split; [reflexivity|]. repeat split. intros v Hv. exact Hv.
  - discriminate.
  - intros (t & E & _ & D & _). injection E as <-. discriminate.
Qed.

(* ---- C45: sub-bins and bin centers ---- *)
Lemma filter_dict {V} (p : str * V -> bool) (m : smap V) : dict m -> dict (filter p m).
Proof.
  induction m as [|x m IH]; intros D; [exact D|]. apply dict_cons in D as [D F]. cbn [filter]. destruct (p x); [|auto]. apply dict_cons. split; [auto|].
  rewrite Forall_forall in *. intros y Hy. apply filter_In in Hy as [Hy _]. auto.
Qed.
Lemma find_filter {V} (q : str -> bool) k (m : smap V) : m_find k (filter (fun '(k, _) => q k) m) = if q k then m_find k m else None.
Proof.
  induction m as [|[k' v] m IH]; cbn [filter m_find]; [now destruct (q k)|]. destruct (q k') eqn:Q; cbn [m_find]; rewrite IH; destruct (str_eqb k k') eqn:E; try (destruct (q k) eqn:Q2; reflexivity).
  - apply str_eqb_eq in E. subst k'. now rewrite Q.
  - apply str_eqb_eq in E. subst k'. now rewrite Q.
Qed.
Lemma existsb_in k l : existsb (str_eqb k) l = true <-> In k l.
Proof.
  rewrite existsb_exists. split; [intros (x & H & E); apply str_eqb_eq in E; now subst|]. intros H. exists k. split; [exact H|apply str_eqb_refl].
Qed.
(* a bin the constructor accepts *)
Definition valid (b : bin) : Prop := forall k lo hi, m_find k b = Some (lo, hi) -> (lo <= hi)%R.
(* the sub-bin has the boundaries of exactly the variables not excepted *)
Theorem C45_sub_bin : forall b exc, dict b -> valid b -> exists s, getSubMultiBin b exc = Some s /\ dict s /\
  (forall k, In k exc -> m_find k s = None) /\ (forall k, ~ In k exc -> m_find k s = m_find k b).
Proof.
  intros b exc D V. unfold getSubMultiBin, multiBin. set (s := filter _ b). assert (Ds : dict s) by now apply filter_dict.
  assert (F : forall k, m_find k s = if negb (existsb (str_eqb k) exc) then m_find k b else None) by (intros k; apply (find_filter (fun k => negb (existsb (str_eqb k) exc)))).
  exists s. split; [|split; [exact Ds|split]].
  - replace (forallb _ s) with true; [reflexivity|]. symmetry. apply forallb_forall. intros [k [lo hi]] H. apply find_in in H; [|exact Ds]. rewrite F in H.
    destruct (negb _); [|discriminate]. apply V in H. apply negb_true_iff, Rltb_false. exact H.
  - intros k H. rewrite F. apply existsb_in in H. now rewrite H.
  - intros k H. rewrite F. destruct (existsb (str_eqb k) exc) eqn:E; [apply existsb_in in E; contradiction|reflexivity].
Qed.
(* an event is in the sub-bin exactly if the variables not excepted are in their intervals *)
Theorem C45_sub_bin_events : forall b exc s ev, dict b -> valid b -> getSubMultiBin b exc = Some s -> 
  (inside ev s <-> forall k lo hi, ~ In k exc -> m_find k b = Some (lo, hi) -> exists x, m_find k ev = Some x /\ (lo <= x < hi)%R).
Proof.
  intros b exc s ev D V H. destruct (C45_sub_bin b exc D V) as (s' & E & _ & A & B). assert (s' = s) by congruence. subst s'. unfold inside. split.
  - intros I k lo hi N F. apply I. now rewrite B.
  - intros I k lo hi F. destruct (in_dec (list_eq_dec ascii_dec) k exc) as [Q|Q]; [rewrite A in F by exact Q; discriminate|]. apply (I k lo hi Q). now rewrite <- B.
Qed.
(* the center of each variable is the midpoint of its interval; the centers of a bin without empty interval are in the bin *)
Lemma centers_find b k : m_find k (getBinCenters b) = match m_find k b with Some lh => Some (center lh) | None => None end.
Proof.
  induction b as [|[q [lo hi]] b IH]; [reflexivity|]. cbn [getBinCenters map m_find]. destruct (str_eqb k q); [f_equal; unfold center; cbn [fst snd]; lra|exact IH].
Qed.
Lemma centers_vars b : vars (getBinCenters b) = vars b.
Proof. unfold vars, getBinCenters. rewrite map_map. apply map_ext. now intros [q [lo hi]]. Qed.
Lemma centers_dict b : dict b -> dict (getBinCenters b).
Proof.
  induction b as [|[q [lo hi]] b IH]; intros D; [constructor|]. apply dict_cons in D as [D F]. apply (dict_cons (V := R)). split; [now apply IH|].
  change (Forall (key_lt (q, 1 / 2 * (lo + hi))%R) (getBinCenters b)). unfold getBinCenters. apply Forall_forall. intros [k x] H. apply in_map_iff in H as ([k' [l h]] & E & H).
  injection E as <- <-. rewrite Forall_forall in F. exact (F _ H).
Qed.
Theorem C45_centers : forall b, dict b -> (forall k lo hi, m_find k b = Some (lo, hi) -> m_find k (getBinCenters b) = Some ((lo + hi) / 2)%R) /\
  vars (getBinCenters b) = vars b /\ (nonEmpty b -> inBin b (getBinCenters b) = Some true).
Proof.
  intros b D. split; [|split].
  - intros k lo hi H. rewrite centers_find, H. reflexivity.
  - apply centers_vars.
  - intros N. destruct (C45_inBin b (getBinCenters b) D (centers_dict b D)) as (r & E & H). rewrite E. f_equal. apply H. split; [apply centers_vars|].
    intros k lo hi F. exists ((lo + hi) / 2)%R. split; [rewrite centers_find, F; reflexivity|]. apply N in F. lra.
Qed.
Definition massT : bin := [(lit "mass"%string, (1, 2)%R); (lit "t"%string, (0, 1)%R)].
Example C45_sub_ex : dict massT /\ valid massT /\ nonEmpty massT /\ getSubMultiBin massT [lit "t"%string] = Some (mBin 1 2).
Proof.
  assert (X : forall k lo hi, m_find k massT = Some (lo, hi) -> (lo < hi)%R).
  { intros k lo hi H. unfold massT in H. cbn [m_find] in H. destruct (str_eqb k _); [injection H as <- <-; lra|]. destruct (str_eqb k _); [injection H as <- <-; lra|discriminate]. }
  split; [repeat constructor|]. split; [intros k lo hi H; apply X in H; lra|]. split; [exact X|].
  unfold getSubMultiBin, multiBin. change (filter _ massT) with (mBin 1 2). unfold mBin. cbn [forallb]. replace (Rltb 2 1) with false; [reflexivity|]. symmetry. apply Rltb_false. lra.
Qed.

(* ---- C49: merged amplitudes ---- *)
(* the tags under which the wave is merged *)
Definition tagsOf (fm : fileManager) (ty : Z) (wave : str) : list str :=
  match zfind ty (fmMerged fm) with Some tags => map fst (filter (fun t => existsb (str_eqb wave) (snd t)) tags) | None => [] end.
Lemma merged_iff fm ty wave : existsb (str_eqb wave) (mergedWaves fm ty) = true <-> tagsOf fm ty wave <> [].
Proof.
  unfold mergedWaves, tagsOf. destruct (zfind ty (fmMerged fm)) as [tags|]; [|split; [discriminate|contradiction]]. rewrite existsb_in, in_flat_map. split.
  - intros (t & Ht & Hw) E. apply map_eq_nil in E. assert (Q : In t (filter (fun t => existsb (str_eqb wave) (snd t)) tags)) by (apply filter_In; split; [exact Ht|now apply existsb_in]). rewrite E in Q. destruct Q.
  - intros N. destruct (filter _ tags) as [|t r] eqn:E; [contradiction|]. assert (Q : In t (filter (fun t => existsb (str_eqb wave) (snd t)) tags)) by (rewrite E; now left). apply filter_In in Q as [Q1 Q2]. exists t. split; [exact Q1|now apply existsb_in].
Qed.
(* a wave that is not merged has a file of its own name, a wave merged under one tag has the file of the tag,
   a wave merged under several tags gives an exception; files registered explicitly come first. The file is in the amplitude directory *)
Theorem C49_merged : forall fm ty id wi wave,
  (forall p, kfind (ty, id, wi) (fmSpecial fm) = Some p -> ampPath fm ty id wi wave = Some p) /\
  (kfind (ty, id, wi) (fmSpecial fm) = None ->
     (tagsOf fm ty wave = [] -> ampPath fm ty id wi wave = Some (pathJoin (fmAmpDir fm) (ampFileName wave id ty))) /\
     (forall t, tagsOf fm ty wave = [t] -> ampPath fm ty id wi wave = Some (pathJoin (fmAmpDir fm) (ampFileName t id ty))) /\
     (length (tagsOf fm ty wave) >= 2 -> ampPath fm ty id wi wave = None)).
Proof.
  intros fm ty id wi wave. unfold ampPath. split; [now intros p ->|]. intros ->. pose proof (merged_iff fm ty wave) as M. unfold baseName. unfold tagsOf in *.
  destruct (existsb _ (mergedWaves fm ty)) eqn:E.
  - destruct (zfind ty (fmMerged fm)) as [tags|]; [|now destruct (proj1 M eq_refl)]. destruct (filter _ tags) as [|t [|t' r]] eqn:F; cbn [map length] in *.
    + now destruct (proj1 M eq_refl).
    + split; [discriminate|]. split; [intros s Q; injection Q as <-; reflexivity|lia].
    + split; [discriminate|]. split; [discriminate|]. reflexivity.
  - assert (N : match zfind ty (fmMerged fm) with Some tags => map fst (filter (fun t => existsb (str_eqb wave) (snd t)) tags) | None => [] end = []).
    { destruct (match zfind ty (fmMerged fm) with Some _ => _ | None => _ end) eqn:Q; [reflexivity|]. assert (X : false = true) by (apply M; discriminate). discriminate. }
    rewrite N. split; [reflexivity|]. split; [discriminate|cbn; lia].
Qed.
(* joining: a relative name is put behind the directory and exactly one slash *)
Theorem C49_path : forall dir name, name <> [] -> relative name -> dir <> [] ->
  (forall d, dir = d ++ [slash] -> pathJoin dir name = dir ++ name) /\ ((forall d, dir <> d ++ [slash]) -> pathJoin dir name = dir ++ slash :: name).
Proof.
  intros dir [|c name] N Rl D; [contradiction|]. unfold pathJoin. destruct (Ascii.eqb c slash) eqn:E. { apply Ascii.eqb_eq in E. subst c. now destruct (Rl name). }
  destruct (exists_last D) as (d & x & ->). rewrite last_last. split.
  - intros d' Q. apply app_inj_tail in Q as [-> ->]. rewrite Ascii.eqb_refl. destruct (d' ++ [slash]) eqn:X; [now destruct d'|reflexivity].
  - intros Q. destruct (Ascii.eqb x slash) eqn:X; [apply Ascii.eqb_eq in X; subst x; now destruct (Q d)|]. destruct (d ++ [x]) eqn:Y; [now destruct d|reflexivity].
Qed.
Definition fm2 : fileManager := FM (lit "amps") (lit "ints") [(1%Z, [fileM "a.root" 0 1])] [lit "w1"; lit "w2"; lit "w3"] [] [(1%Z, [(lit "A", [lit "w1"; lit "w2"]); (lit "B", [lit "w2"])])] [].
Example C49_merged_ex : tagsOf fm2 1 (lit "w1") = [lit "A"] /\ length (tagsOf fm2 1 (lit "w2")) = 2 /\ tagsOf fm2 1 (lit "w3") = [] /\ ampPath fm2 1 0 0 (lit "w1") = Some (lit "amps/A_eventFileId-0_1.root").
Proof. repeat split. Qed.
