(* C49: names of amplitude and integral files; C50: event files of a bin *)
From Coq Require Import String Ascii List ZArith Reals Bool Lia Lra Sorting.Sorted Permutation.
From Verif Require Import PathModel StrModel DecModel CGBoxModel EventMetaModel EventMetaProps LikSetProofs BinModel BinProps BinOrdProps FileMgrModel.
Import ListNotations.
Open Scope list_scope. Open Scope nat_scope.

(* ---- specification ---- *)
Definition relative (s : str) : Prop := forall r, s <> slash :: r.
(* the file fits to the bin: in each variable of both the closed intervals meet *)
Definition touches (mb : bin) (f : inputFile) : Prop :=
  forall v lo hi l h, m_find v (fileBounds f) = Some (lo, hi) -> m_find v mb = Some (l, h) -> (l <= hi /\ lo <= h)%R.

(* ---- names ---- *)
Lemma first_char {A} (c : A) a a' r r' : ~ In c a -> ~ In c a' -> a ++ c :: r = a' ++ c :: r' -> a = a' /\ r = r'.
Proof.
  revert a'. induction a as [|x a IH]; intros [|y a'] N N' E; cbn in E.
  - injection E as ->. auto.
  - injection E as -> E. exfalso. apply N'. now left.
  - injection E as -> E. exfalso. apply N. now left.
  - injection E as -> E. destruct (IH a') as [-> ->]; auto; intros H; [apply N|apply N']; now right.
Qed.
Lemma showInt_chars x c : In c (showInt x) -> isDigit c = true \/ c = "-"%char.
Proof.
  unfold showInt. destruct (x <? 0)%Z eqn:E; [intros [<-|H]; [now right|]|intros H]; left; destruct (showNN_spec (if (x <? 0)%Z then (-x)%Z else x)) as (_ & F & _); rewrite E in *; try (apply Z.ltb_lt in E; lia); try (apply Z.ltb_ge in E; lia); rewrite forallb_forall in F; auto.
Qed.
Lemma showNat_chars n c : In c (showInt (Z.of_nat n)) -> isDigit c = true.
Proof.
  unfold showInt. replace (Z.of_nat n <? 0)%Z with false by (symmetry; apply Z.ltb_ge; lia). intros H. destruct (showNN_spec (Z.of_nat n)) as (_ & F & _); [lia|]. rewrite forallb_forall in F. auto.
Qed.
Lemma name_inj_gen (mid : str) mid0 base base' (i i' : nat) ty ty' : mid = mid0 ++ ["-"%char] ->
  base ++ mid ++ showInt (Z.of_nat i) ++ lit "_" ++ showInt ty ++ lit ".root" = base' ++ mid ++ showInt (Z.of_nat i') ++ lit "_" ++ showInt ty' ++ lit ".root" ->
  base = base' /\ i = i' /\ ty = ty'.
Proof.
  intros Em E. assert (E1 : rev (showInt ty) ++ "_"%char :: rev (showInt (Z.of_nat i)) ++ "-"%char :: rev mid0 ++ rev base = rev (showInt ty') ++ "_"%char :: rev (showInt (Z.of_nat i')) ++ "-"%char :: rev mid0 ++ rev base').
  { assert (X : forall bs A B, rev (bs ++ mid ++ A ++ lit "_" ++ B ++ lit ".root") = rev (lit ".root") ++ rev B ++ "_"%char :: rev A ++ "-"%char :: rev mid0 ++ rev bs).
    { intros bs A B. rewrite Em. rewrite !rev_app_distr. rewrite <- !app_assoc. reflexivity. }
    apply (f_equal (@rev ascii)) in E. rewrite !X in E. now apply app_inv_head in E. }
  assert (U : forall z, ~ In "_"%char (rev (showInt z))). { intros z H. apply in_rev in H. apply showInt_chars in H as [H|H]; discriminate. }
  apply first_char in E1 as [E1 E2]; auto.
  assert (D : forall n, ~ In "-"%char (rev (showInt (Z.of_nat n)))). { intros n H. apply in_rev in H. apply showNat_chars in H. discriminate. }
  apply first_char in E2 as [E2 E3]; auto. apply app_inv_head in E3.
  apply (f_equal (@rev ascii)) in E1, E2, E3. rewrite !rev_involutive in *. apply showInt_inj in E1, E2. split; [exact E3|]. split; [lia|exact E1].
Qed.
(* C49: default file names are different for different waves, event files or events types, whatever the wave names are *)
Theorem C49_names : forall base base' id id' ty ty', ampFileName base id ty = ampFileName base' id' ty' -> base = base' /\ id = id' /\ ty = ty'.
Proof. intros *. apply (name_inj_gen _ (lit "_eventFileId")). reflexivity. Qed.
Lemma pathJoin_inj dir a b : relative a -> relative b -> a <> [] -> b <> [] -> pathJoin dir a = pathJoin dir b -> a = b.
Proof.
  intros Ra Rb Na Nb. destruct a as [|x a]; [contradiction|]. destruct b as [|y b]; [contradiction|]. unfold pathJoin.
  destruct (Ascii.eqb x slash) eqn:Ex; [apply Ascii.eqb_eq in Ex; subst; exfalso; eapply Ra; reflexivity|]. destruct (Ascii.eqb y slash) eqn:Ey; [apply Ascii.eqb_eq in Ey; subst; exfalso; eapply Rb; reflexivity|].
  destruct dir as [|d dir]; [auto|]. destruct (Ascii.eqb (last (d :: dir) "a"%char) slash); intros H; apply app_inv_head in H; [exact H|congruence].
Qed.
Lemma ampFileName_shape base id ty : relative base -> relative (ampFileName base id ty) /\ ampFileName base id ty <> [].
Proof. intros R. unfold ampFileName. destruct base as [|c base]; cbn; (split; [|discriminate]); intros r E; injection E; [discriminate|]. intros _ ->. eapply R. reflexivity. Qed.
(* C49: two amplitudes without a special file are in the same file exactly if they belong to the same event file, the same events type, and have the same name or merge tag *)
Theorem C49_same_file : forall fm ty id wi w b p ty' id' wi' w' b' p', kfind (ty, id, wi) (fmSpecial fm) = None -> kfind (ty', id', wi') (fmSpecial fm) = None ->
  baseName fm ty w = Some b -> baseName fm ty' w' = Some b' -> relative b -> relative b' ->
  ampPath fm ty id wi w = Some p -> ampPath fm ty' id' wi' w' = Some p' -> (p = p' <-> b = b' /\ id = id' /\ ty = ty').
Proof.
  intros fm ty id wi w b p ty' id' wi' w' b' p' S S' B B' Rb Rb'. unfold ampPath. rewrite S, S', B, B'. cbn [bnd]. intros H H'. injection H as <-. injection H' as <-. split.
  - intros E. destruct (ampFileName_shape b id ty Rb) as [R1 N1]. destruct (ampFileName_shape b' id' ty' Rb') as [R2 N2]. apply pathJoin_inj in E; auto. now apply C49_names in E.
  - intros (-> & -> & ->). reflexivity.
Qed.
(* C49: without special files and merged amplitudes each amplitude has its own file *)
Theorem C49_own_file : forall fm ty id wi w ty' id' wi' w' p, fmSpecial fm = [] -> fmMerged fm = [] -> relative w -> relative w' ->
  ampPath fm ty id wi w = Some p -> ampPath fm ty' id' wi' w' = Some p -> ty = ty' /\ id = id' /\ w = w'.
Proof.
  intros fm ty id wi w ty' id' wi' w' p S M R R' H H'. assert (B : forall t x, baseName fm t x = Some x) by (intros t x; unfold baseName, mergedWaves; rewrite M; reflexivity).
  destruct (C49_same_file fm ty id wi w w p ty' id' wi' w' w' p) as [X _]; auto; [rewrite S; reflexivity|rewrite S; reflexivity|]. destruct (X eq_refl) as (? & ? & ?). auto.
Qed.
(* C49: integral files *)
Theorem C49_integral_names : forall dir i i' ty ty', integralPath dir i ty = integralPath dir i' ty' -> i = i' /\ ty = ty'.
Proof.
  intros dir i i' ty ty' E. unfold integralPath in E. destruct (name_inj_gen (lit "/integral_binID-") (lit "/integral_binID") dir dir i i' ty ty' eq_refl E) as (_ & H). exact H.
Qed.
Lemma binIndex_spec x l i : binIndex x l = Some i -> nth_error l i = Some x /\ forall j, j < i -> nth_error l j <> Some x.
Proof.
  revert i. induction l as [|y l IH]; intros i H; cbn in H; [discriminate|]. destruct (binEq y x) eqn:E.
  - injection H as <-. apply bins_eqb_iff in E. subst. split; [reflexivity|]. intros j Hj. lia.
  - destruct (binIndex x l) as [n|]; [|discriminate]. cbn [bnd] in H. injection H as <-. destruct (IH n eq_refl) as [H1 H2]. split; [exact H1|]. intros [|j] Hj; cbn; [|apply H2; lia]. intros Q. injection Q as ->. assert (binEq x x = true) by now apply bins_eqb_iff. congruence.
Qed.
Theorem C49_integral_files : forall fm b b' ty ty' p, getIntegralFilePath fm b ty = Some p -> getIntegralFilePath fm b' ty' = Some p -> b = b' /\ ty = ty'.
Proof.
  intros fm b b' ty ty' p H H'. unfold getIntegralFilePath in *. destruct (binIndex b (fmBins fm)) as [i|] eqn:E; [|discriminate]. destruct (binIndex b' (fmBins fm)) as [i'|] eqn:E'; [|discriminate]. cbn [bnd] in *.
  destruct (_ || _); [|discriminate]. destruct (_ || _); [|discriminate]. injection H as <-. injection H' as H'. apply C49_integral_names in H' as [-> ->]. split; [|reflexivity].
  apply binIndex_spec in E as [E _]. apply binIndex_spec in E' as [E' _]. congruence.
Qed.
(* C49: every bin of the list has its integral files *)
Theorem C49_integral_exists : forall fm b ty, In b (fmBins fm) -> ty = GENERATED \/ ty = ACCEPTED -> exists i, nth_error (fmBins fm) i = Some b /\ getIntegralFilePath fm b ty = Some (integralPath (fmIntDir fm) i ty).
Proof.
  intros fm b ty H T. assert (X : exists i, binIndex b (fmBins fm) = Some i).
  { induction (fmBins fm) as [|y l IH]; [destruct H|]. cbn. destruct (binEq y b) eqn:E; [eauto|]. destruct H as [->|H]; [assert (binEq b b = true) by (now apply bins_eqb_iff); congruence|]. destruct (IH H) as [n ->]. cbn [bnd]. eauto. }
  destruct X as [i Hi]. exists i. split; [now apply binIndex_spec|]. unfold getIntegralFilePath. rewrite Hi. cbn [bnd]. destruct T as [-> | ->]; reflexivity.
Qed.

(* ---- the tables of the paths ---- *)
Lemma key_eqb_iff a b : key_eqb a b = true <-> a = b.
Proof. destruct a as [[t i] w]. destruct b as [[t' i'] w']. cbn. rewrite !andb_true_iff, Z.eqb_eq, !Nat.eqb_eq. split; [intros [[-> ->] ->]; reflexivity|intros E; injection E as -> -> ->; auto]. Qed.
Lemma kfind_set {V} k q (v : V) m : kfind q (kset k v m) = if key_eqb q k then Some v else kfind q m.
Proof.
  induction m as [|[x w] m IH]; cbn [kset kfind]; [reflexivity|]. destruct (key_eqb k x) eqn:E; cbn [kfind].
  - apply key_eqb_iff in E. subst x. destruct (key_eqb q k); reflexivity.
  - rewrite IH. destruct (key_eqb q x) eqn:E1; [|reflexivity]. apply key_eqb_iff in E1. subst x. destruct (key_eqb q k) eqn:E2; [|reflexivity]. apply key_eqb_iff in E2. subst q. assert (key_eqb k k = true) by now apply key_eqb_iff. congruence.
Qed.
Lemma find_oset {V} k q (v : V) m : m_find q (oset k v m) = if str_eqb q k then Some v else m_find q m.
Proof.
  induction m as [|[x w] m IH]; cbn [oset m_find]; [reflexivity|]. destruct (str_eqb k x) eqn:E; cbn [m_find].
  - apply str_eqb_eq in E. subst x. destruct (str_eqb q k); reflexivity.
  - rewrite IH. destruct (str_eqb q x) eqn:E1; [|reflexivity]. apply str_eqb_eq in E1. subst x. destruct (str_eqb q k) eqn:E2; [|reflexivity]. apply str_eqb_eq in E2. subst q. rewrite str_eqb_refl in E. discriminate.
Qed.
Lemma index_spec x l i : index x l = Some i <-> nth_error l i = Some x /\ forall j, j < i -> nth_error l j <> Some x.
Proof.
  revert i. induction l as [|y l IH]; intros i; cbn [index]. { split; [discriminate|]. intros [H _]. destruct i; discriminate. }
  destruct (str_eqb x y) eqn:E.
  - apply str_eqb_eq in E. subst y. split; [intros H; injection H as <-; split; [reflexivity|]; intros j Hj; lia|]. intros [_ H]. destruct i; [reflexivity|]. exfalso. apply (H 0); [lia|reflexivity].
  - assert (N : x <> y) by (intros ->; rewrite str_eqb_refl in E; discriminate). destruct (index x l) as [n|] eqn:Ei; cbn [bnd].
    + split.
      * intros H. injection H as <-. destruct (proj1 (IH n) eq_refl) as [H1 H2]. split; [exact H1|]. intros [|j] Hj; cbn; [congruence|]. apply H2. lia.
      * intros [H1 H2]. destruct i as [|i]; [cbn in H1; congruence|]. f_equal. f_equal. cbn in H1. assert (Some n = Some i); [|congruence]. apply IH. split; [exact H1|]. intros j Hj. apply (H2 (S j)). lia.
    + split; [discriminate|]. intros [H1 H2]. exfalso. destruct i as [|i]; [cbn in H1; congruence|]. assert (None = Some i); [|discriminate]. apply IH. split; [exact H1|]. intros j Hj. apply (H2 (S j)). lia.
Qed.
Lemma index_nodup x l i : NoDup l -> nth_error l i = Some x -> index x l = Some i.
Proof. intros ND H. apply index_spec. split; [exact H|]. intros j Hj Q. rewrite NoDup_nth_error in ND. assert (j = i); [apply ND; [apply nth_error_Some; congruence|congruence]|lia]. Qed.

(* one event file *)
Lemma waves_fold fm ty id waves : forall acc, (forall wi w w', In (wi, w) waves -> In (wi, w') waves -> w = w') ->
  match foldO (fun '(wi, w) acc => do p <- ampPath fm ty id wi w; Some (kset (ty, id, wi) p acc)) waves acc with
  | Some r => (forall wi w, In (wi, w) waves -> exists p, ampPath fm ty id wi w = Some p /\ kfind (ty, id, wi) r = Some p) /\
              (forall k, (forall wi w, In (wi, w) waves -> k <> (ty, id, wi)) -> kfind k r = kfind k acc)
  | None => exists wi w, In (wi, w) waves /\ ampPath fm ty id wi w = None
  end.
Proof.
  induction waves as [|[wi w] waves IH]; intros acc C; cbn [foldO]. { split; [intros ? ? []|reflexivity]. }
  destruct (ampPath fm ty id wi w) as [p|] eqn:E; cbn [bnd]; [|exists wi, w; split; [now left|exact E]].
  specialize (IH (kset (ty, id, wi) p acc)). destruct (foldO _ waves _) as [r|].
  - destruct IH as [H1 H2]. { intros q x x' Hx Hx'. eapply C; right; eauto. } split.
    + intros q x [H|H]; [|auto]. injection H as <- <-. exists p. split; [exact E|].
      destruct (in_dec Nat.eq_dec wi (map fst waves)) as [Hi|Hi].
      * apply in_map_iff in Hi as ([q x] & Eq & Hi). cbn in Eq. subst q. destruct (H1 wi x Hi) as (p' & Ep & Kp). assert (x = w) by (eapply C; [right; exact Hi|now left]). subst x. congruence.
      * rewrite H2; [rewrite kfind_set; assert (key_eqb (ty, id, wi) (ty, id, wi) = true) as -> by (now apply key_eqb_iff); reflexivity|]. intros q x Hx Eq. injection Eq as <-. apply Hi. change wi with (fst (wi, x)). now apply in_map.
    + intros k Hk. rewrite H2; [rewrite kfind_set|intros q x Hx; apply (Hk q x); now right]. destruct (key_eqb k (ty, id, wi)) eqn:Q; [|reflexivity]. apply key_eqb_iff in Q. exfalso. apply (Hk wi w); [now left|exact Q].
  - destruct IH as (q & x & Hq & Eq). { intros q x x' Hx Hx'. eapply C; right; eauto. } exists q, x. split; [now right|exact Eq].
Qed.
Lemma ids_fold fm ty waves ids : forall acc, (forall wi w w', In (wi, w) waves -> In (wi, w') waves -> w = w') ->
  match foldO (fun id acc => foldO (fun '(wi, w) acc => do p <- ampPath fm ty id wi w; Some (kset (ty, id, wi) p acc)) waves acc) ids acc with
  | Some r => (forall id wi w, In id ids -> In (wi, w) waves -> exists p, ampPath fm ty id wi w = Some p /\ kfind (ty, id, wi) r = Some p) /\
              (forall k, (forall id wi, In id ids -> k <> (ty, id, wi)) -> kfind k r = kfind k acc)
  | None => exists id wi w, In id ids /\ In (wi, w) waves /\ ampPath fm ty id wi w = None
  end.
Proof.
  induction ids as [|id ids IH]; intros acc C; cbn [foldO]. { split; [intros ? ? ? []|reflexivity]. }
  pose proof (waves_fold fm ty id waves acc C) as W. destruct (foldO _ waves acc) as [a|].
  2:{ destruct W as (wi & w & H & E). exists id, wi, w. split; [now left|auto]. }
  destruct W as [W1 W2]. cbn [bnd]. specialize (IH a C). destruct (foldO _ ids a) as [r|].
  - destruct IH as [H1 H2]. split.
    + intros q wi w [<-|Hq] Hw; [|auto]. destruct (in_dec Nat.eq_dec id ids) as [Hi|Hi]; [auto|]. destruct (W1 wi w Hw) as (p & E & K). exists p. split; [exact E|]. rewrite H2; [exact K|]. intros q x Hq Eq. injection Eq as <- <-. contradiction.
    + intros k Hk. rewrite H2; [|intros q x Hq; apply Hk; now right]. apply W2. intros wi w _. apply Hk. now left.
  - destruct IH as (q & wi & w & Hq & Hw & E). exists q, wi, w. split; [now right|auto].
Qed.
Lemma waves_index (all waves : list str) r : mapO (fun w => do i <- index w all; Some (i, w)) waves = Some r -> 
  (forall wi w, In (wi, w) r <-> In w waves /\ index w all = Some wi).
Proof.
  revert r. induction waves as [|x waves IH]; intros r H; cbn [mapO] in H. { injection H as <-. intros. cbn. tauto. }
  destruct (index x all) as [i|] eqn:E; [|discriminate]. cbn [bnd] in H. destruct (mapO _ waves) as [r'|]; [|discriminate]. cbn [bnd] in H. injection H as <-. specialize (IH r' eq_refl). intros wi w. cbn [In]. rewrite IH. split.
  - intros [Q|[Q1 Q2]]; [injection Q as <- <-; auto|auto].
  - intros [[<-|Q] Q2]; [left; congruence|right; auto].
Qed.
Lemma waves_index_some (all waves : list str) : (forall w, In w waves -> In w all) -> exists r, mapO (fun w => do i <- index w all; Some (i, w)) waves = Some r.
Proof.
  induction waves as [|x waves IH]; intros H; cbn [mapO]; [eauto|]. assert (X : exists i, index x all = Some i).
  { assert (Hx : In x all) by (apply H; now left). clear - Hx. induction all as [|y l IHl]; [destruct Hx|]. cbn. destruct (str_eqb x y) eqn:E; [eauto|]. destruct Hx as [->|Hx]; [rewrite str_eqb_refl in E; discriminate|]. destruct (IHl Hx) as [n ->]. cbn [bnd]. eauto. }
  destruct X as [i ->]. cbn [bnd]. destruct IH as [r ->]; [intros w Hw; apply H; now right|]. cbn [bnd]. eauto.
Qed.
Lemma paths_spec fm ty waves out (ids : option (list (Z * list nat))) : fmEventFiles fm <> [] -> (forall w, In w waves -> In w (fmWaves fm)) ->
  (match ids with None => do fs <- zfind ty (fmEventFiles fm); Some (List.seq 0 (length fs)) | Some d => zfind ty d end) = Some out ->
  match getAmplitudeFilePaths fm [ty] waves ids with
  | Some r => forall id wi w, In id out -> In w waves -> index w (fmWaves fm) = Some wi -> exists p, ampPath fm ty id wi w = Some p /\ kfind (ty, id, wi) r = Some p
  | None => exists id wi w, In id out /\ In w waves /\ index w (fmWaves fm) = Some wi /\ ampPath fm ty id wi w = None
  end.
Proof.
  intros Ne Hw Ho. unfold getAmplitudeFilePaths. destruct (fmEventFiles fm) as [|x y] eqn:Ef; [contradiction|]. destruct (waves_index_some _ _ Hw) as [r Er]. rewrite Er. cbn [bnd foldO]. rewrite Ho. cbn [bnd].
  pose proof (waves_index _ _ _ Er) as Hr. pose proof (ids_fold fm ty r out []) as S. set (FO := foldO _ out []) in *. destruct FO as [a|].
  - destruct S as [S1 _]. { intros wi w w' H1 H2. apply Hr in H1 as [_ H1]. apply Hr in H2 as [_ H2]. apply index_spec in H1 as [H1 _]. apply index_spec in H2 as [H2 _]. congruence. }
    intros id wi w Hi Hw' Hx. apply S1; [exact Hi|]. apply Hr. auto.
  - destruct S as (id & wi & w & Hi & Hx & E). { intros wi w w' H1 H2. apply Hr in H1 as [_ H1]. apply Hr in H2 as [_ H2]. apply index_spec in H1 as [H1 _]. apply index_spec in H2 as [H2 _]. congruence. }
    apply Hr in Hx as [Hx1 Hx2]. exists id, wi, w. auto.
Qed.
(* C49: the pairs of event file and amplitude file of a wave, in the order of the event files *)
Theorem C49_pairs_for_wave : forall fm ty wave fs l, NoDup (fmWaves fm) -> zfind ty (fmEventFiles fm) = Some fs -> In wave (fmWaves fm) ->
  pairsForWave fm ty wave = Some l -> exists wi, nth_error (fmWaves fm) wi = Some wave /\ length l = length fs /\
  forall id f, nth_error fs id = Some f -> exists p, nth_error l id = Some (dataFileName f, p) /\ ampPath fm ty id wi wave = Some p.
Proof.
  intros fm ty wave fs l ND Hf Hw H. unfold pairsForWave in H. rewrite Hf in H. destruct (In_nth_error _ _ Hw) as [wi Hwi]. pose proof (index_nodup _ _ _ ND Hwi) as Ei. rewrite Ei in H.
  assert (Ne : fmEventFiles fm <> []) by (intros Q; rewrite Q in Hf; discriminate).
  pose proof (paths_spec fm ty [wave] (List.seq 0 (length fs)) None Ne) as P. destruct (getAmplitudeFilePaths fm [ty] [wave] None) as [r|]; [|discriminate]. cbn [bnd] in H.
  assert (Q : forall id, id < length fs -> exists p, ampPath fm ty id wi wave = Some p /\ kfind (ty, id, wi) r = Some p).
  { intros id Hid. apply P; [intros w [<-|[]]; exact Hw|rewrite Hf; reflexivity|apply in_seq; lia|now left|exact Ei]. }
  exists wi. split; [exact Hwi|]. clear P Hf Hw.
  assert (G : forall k s gs, (forall i g, nth_error gs i = Some g -> nth_error fs (s + i) = Some g) -> length gs = k -> s + k = length fs -> forall l, mapO (fun '(id, f) => do p <- kfind (ty, id, wi) r; Some (dataFileName f, p)) (List.combine (List.seq s k) gs) = Some l ->
    length l = k /\ forall i f, nth_error gs i = Some f -> exists p, nth_error l i = Some (dataFileName f, p) /\ ampPath fm ty (s + i) wi wave = Some p).
  { induction k as [|k IH]; intros s gs Hg L E l0 Hl.
    - destruct gs; [|discriminate]. cbn in Hl. injection Hl as <-. split; [reflexivity|]. intros [|i]; discriminate.
    - destruct gs as [|g gs]; [discriminate|]. cbn [List.seq List.combine mapO] in Hl. destruct (Q s ltac:(lia)) as (p & Ep & Kp). rewrite Kp in Hl. cbn [bnd] in Hl. destruct (mapO _ (List.combine (List.seq (S s) k) gs)) as [l1|] eqn:El; [|discriminate]. cbn [bnd] in Hl. injection Hl as <-.
      destruct (IH (S s) gs) with (l := l1) as [L1 X]; auto; [intros i g' Hi; replace (S s + i) with (s + S i) by lia; now apply Hg|lia|]. split; [cbn; lia|]. intros [|i] f Hi; cbn in Hi.
      + injection Hi as <-. exists p. split; [reflexivity|]. now rewrite Nat.add_0_r.
      + destruct (X i f Hi) as (p' & N1 & N2). exists p'. split; [exact N1|]. now replace (s + S i) with (S s + i) by lia. }
  destruct (G (length fs) 0 fs) with (l := l) as [L X]; auto.
Qed.

(* ---- event files of a bin ---- *)
Lemma fileOverlaps_iff mb f : dict (fileBounds f) -> (fileOverlaps mb f = true <-> touches mb f).
Proof.
  intros D. unfold fileOverlaps, touches. rewrite forallb_forall. split.
  - intros H v lo hi l h Hf Hm. apply find_in in Hf; [|exact D]. specialize (H _ Hf). cbn in H. rewrite Hm in H. apply negb_true_iff, orb_false_iff in H as [H1 H2]. apply Rltb_false in H1, H2. auto.
  - intros H [v [lo hi]] Hf. apply find_in in Hf; [|exact D]. destruct (m_find v mb) as [[l h]|] eqn:E; [|reflexivity]. destruct (H _ _ _ _ _ Hf E) as [H1 H2]. apply Rltb_false in H1, H2. now rewrite H1, H2.
Qed.
(* C50: which files are selected, and in which order *)
Theorem C50_selected : forall fm mb ty fs, zfind ty (fmEventFiles fm) = Some fs -> Forall (fun f => dict (fileBounds f)) fs ->
  (forall id, In id (getEventFileIds fm mb ty) <-> exists f, nth_error fs id = Some f /\ touches mb f) /\
  StronglySorted lt (getEventFileIds fm mb ty).
Proof.
  intros fm mb ty fs Hf D. unfold getEventFileIds. rewrite Hf. rewrite Forall_forall in D. split.
  - intros id. rewrite filter_In, in_seq. split.
    + intros [_ H]. destruct (nth_error fs id) as [f|] eqn:E; [|discriminate]. exists f. split; [reflexivity|]. apply fileOverlaps_iff; [|exact H]. apply D. eapply nth_error_In; eauto.
    + intros (f & E & T). rewrite E. split; [assert (id < length fs) by (apply nth_error_Some; congruence); lia|]. apply fileOverlaps_iff; [|exact T]. apply D. eapply nth_error_In; eauto.
  - set (p := fun i => _). clearbody p. generalize (length fs) as n. generalize 0 as s. intros s n. revert s. induction n as [|n IH]; intros s; cbn [List.seq filter]; [constructor|]. destruct (p s); [|apply IH]. constructor; [apply IH|]. apply Forall_forall. intros x Hx. apply filter_In in Hx as [Hx _]. apply in_seq in Hx. lia.
Qed.
(* C50: no event of the bin is missed: the file of an event of the bin is selected *)
Theorem C50_no_file_missed : forall fm mb ty fs id f ev, zfind ty (fmEventFiles fm) = Some fs -> Forall (fun f => dict (fileBounds f)) fs -> dict mb -> nth_error fs id = Some f ->
  inBoundaries ev (fileBounds f) = true -> inBoundaries ev mb = true -> In id (getEventFileIds fm mb ty).
Proof.
  intros fm mb ty fs id f ev Hf D Dm Hi If Im. destruct (C50_selected fm mb ty fs Hf D) as [S _]. apply S. exists f. split; [exact Hi|]. rewrite Forall_forall in D. specialize (D f (nth_error_In _ _ Hi)).
  apply C45_inBoundaries in If; [|exact D]. apply C45_inBoundaries in Im; [|exact Dm]. intros v lo hi l h Ef Em. destruct (If _ _ _ Ef) as (x & X1 & X2). destruct (Im _ _ _ Em) as (y & Y1 & Y2). assert (x = y) by congruence. subst. lra.
Qed.
(* ---- all files of a bin ---- *)
Lemma oset_fold (amps : list ((Z * nat * nat) * str)) ty id (wl : list (nat * str)) : forall acc, NoDup (map snd wl) ->
  match foldO (fun '(wi, w) acc => do p <- kfind (ty, id, wi) amps; Some (oset w p acc)) wl acc with
  | Some l => (forall wi w, In (wi, w) wl -> exists p, kfind (ty, id, wi) amps = Some p /\ m_find w l = Some p) /\ (forall w, ~ In w (map snd wl) -> m_find w l = m_find w acc)
  | None => exists wi w, In (wi, w) wl /\ kfind (ty, id, wi) amps = None
  end.
Proof.
  induction wl as [|[wi w] wl IH]; intros acc ND; cbn [foldO]. { split; [intros ? ? []|reflexivity]. }
  cbn [map snd] in ND. apply NoDup_cons_iff in ND as [N ND]. destruct (kfind (ty, id, wi) amps) as [p|] eqn:E; cbn [bnd]; [|exists wi, w; split; [now left|exact E]].
  specialize (IH (oset w p acc) ND). destruct (foldO _ wl _) as [l|].
  - destruct IH as [H1 H2]. split.
    + intros q x [H|H]; [|auto]. injection H as <- <-. exists p. split; [exact E|]. rewrite H2 by exact N. rewrite find_oset, str_eqb_refl. reflexivity.
    + intros x Hx. rewrite H2; [rewrite find_oset|intros Q; apply Hx; now right]. destruct (str_eqb x w) eqn:Q; [|reflexivity]. apply str_eqb_eq in Q. exfalso. apply Hx. now left.
  - destruct IH as (q & x & H & Q). exists q, x. split; [now right|exact Q].
Qed.
Lemma in_enum {A} (l : list A) i x : In (i, x) (List.combine (List.seq 0 (length l)) l) <-> nth_error l i = Some x.
Proof.
  assert (G : forall l s, In (i, x) (List.combine (List.seq s (length l)) l) <-> s <= i /\ nth_error l (i - s) = Some x).
  { induction l0 as [|y l0 IH]; intros s; cbn [length List.seq List.combine In]. { split; [tauto|]. intros [_ H]. destruct (i - s); discriminate. }
    rewrite IH. split.
    - intros [E|[H1 H2]]; [injection E as <- <-; rewrite Nat.sub_diag; auto|]. split; [lia|]. replace (i - s) with (S (i - S s)) by lia. exact H2.
    - intros [H1 H2]. destruct (i - s) as [|n] eqn:Q; [left; cbn in H2; injection H2 as ->; f_equal; lia|right]. split; [lia|]. replace (i - S s) with n by lia. exact H2. }
  rewrite G. rewrite Nat.sub_0_r. split; [tauto|]. intros H. split; [lia|exact H].
Qed.
Lemma enum_snd {A} (l : list A) : map snd (List.combine (List.seq 0 (length l)) l) = l.
Proof. generalize 0. induction l as [|x l IH]; intros s; cbn; [reflexivity|]. now rewrite IH. Qed.
(* C49/C50: the table of a bin has exactly the selected event files, and for each of them the amplitude file of each wave *)
Theorem C50_files_in_bin : forall fm mb ty fs d, NoDup (fmWaves fm) -> zfind ty (fmEventFiles fm) = Some fs -> NoDup (map dataFileName fs) ->
  filesInBin fm mb ty = Some d ->
  (forall name, (exists l, m_find name d = Some l) <-> exists id f, In id (getEventFileIds fm mb ty) /\ nth_error fs id = Some f /\ name = dataFileName f) /\
  (forall id f, In id (getEventFileIds fm mb ty) -> nth_error fs id = Some f -> exists l, m_find (dataFileName f) d = Some l /\
     forall wi w, nth_error (fmWaves fm) wi = Some w -> exists p, m_find w l = Some p /\ ampPath fm ty id wi w = Some p).
Proof.
  intros fm mb ty fs d NW Hf NF H. unfold filesInBin in H. assert (Ne : fmEventFiles fm <> []) by (intros Q; rewrite Q in Hf; discriminate).
  destruct (getEventFileIds fm mb ty) as [|i0 ids0] eqn:Ei. { injection H as <-. split; [|intros ? ? []]. intros name. split; [intros [? ?]; discriminate|intros (? & ? & [] & _)]. }
  set (ids := i0 :: ids0) in *. assert (Hid : forall i, In i ids -> i < length fs). { intros i Hi. rewrite <- Ei in Hi. unfold getEventFileIds in Hi. rewrite Hf in Hi. apply filter_In in Hi as [Hi _]. apply in_seq in Hi. lia. }
  pose proof (paths_spec fm ty (fmWaves fm) ids (Some [(ty, ids)]) Ne (fun w Hw => Hw)) as P. destruct (getAmplitudeFilePaths fm [ty] (fmWaves fm) (Some [(ty, ids)])) as [amps|]; [|discriminate]. cbn [bnd] in H.
  assert (P' : forall id wi w, In id ids -> nth_error (fmWaves fm) wi = Some w -> exists p, ampPath fm ty id wi w = Some p /\ kfind (ty, id, wi) amps = Some p).
  { intros id wi w Hi Hw. apply P; [cbn; now rewrite Z.eqb_refl|exact Hi|eapply nth_error_In; eauto|now apply index_nodup]. } clear P. rewrite Hf in H. cbn [bnd] in H.
  assert (G : forall todo acc, (forall i, In i todo -> In i ids) -> foldO (fun id acc => do f <- nth_error fs id; do l <- foldO (fun '(wi, w) acc => do p <- kfind (ty, id, wi) amps; Some (oset w p acc)) (List.combine (List.seq 0 (length (fmWaves fm))) (fmWaves fm)) []; Some (oset (dataFileName f) l acc)) todo acc = Some d ->
    (forall name, (exists l, m_find name d = Some l) <-> (exists l, m_find name acc = Some l) \/ exists id f, In id todo /\ nth_error fs id = Some f /\ name = dataFileName f) /\
    (forall id f, In id todo -> nth_error fs id = Some f -> exists l, m_find (dataFileName f) d = Some l /\ forall wi w, nth_error (fmWaves fm) wi = Some w -> exists p, m_find w l = Some p /\ ampPath fm ty id wi w = Some p) /\
    (forall name, (forall id f, In id todo -> nth_error fs id = Some f -> name <> dataFileName f) -> m_find name d = m_find name acc)).
  { induction todo as [|id todo IH]; intros acc Inc Hd; cbn [foldO] in Hd.
    - injection Hd as <-. split; [|split; [intros ? ? []|reflexivity]]. intros name. split; [now left|]. intros [Q|(? & ? & [] & _)]. exact Q.
    - destruct (nth_error fs id) as [f|] eqn:Ef; [|discriminate]. cbn [bnd] in Hd.
      pose proof (oset_fold amps ty id (List.combine (List.seq 0 (length (fmWaves fm))) (fmWaves fm)) []) as O. rewrite enum_snd in O. specialize (O NW). destruct (foldO _ (List.combine _ _) []) as [l|]; [|discriminate]. destruct O as [O _]. cbn [bnd] in Hd.
      destruct (IH _ (fun i Hi => Inc i (or_intror Hi)) Hd) as (I1 & I2 & I3). split; [|split].
      + intros name. rewrite I1. rewrite find_oset. split.
        * intros [Q|(j & g & Hj & Eg & En)]; [|right; exists j, g; split; [now right|auto]]. destruct (str_eqb name (dataFileName f)) eqn:E; [|now left]. apply str_eqb_eq in E. right. exists id, f. split; [now left|auto].
        * intros [Q|(j & g & [<-|Hj] & Eg & En)].
          -- left. destruct (str_eqb name (dataFileName f)); eauto.
          -- rewrite Ef in Eg. injection Eg as <-. subst name. left. rewrite str_eqb_refl. eauto.
          -- right. exists j, g. auto.
      + intros j g Hj Eg. destruct (in_dec Nat.eq_dec j todo) as [Hin|Nin]; [auto|]. destruct Hj as [<-|Hj]; [|contradiction]. rewrite Ef in Eg. injection Eg as <-. exists l. split.
        * rewrite I3; [rewrite find_oset, str_eqb_refl; reflexivity|]. intros j g Hj Eg Q. assert (j = id); [|subst; contradiction].
          rewrite NoDup_nth_error in NF. apply NF; [rewrite map_length; apply nth_error_Some; congruence|]. rewrite !nth_error_map, Eg, Ef. cbn. now rewrite Q.
        * intros wi w Hw. destruct (O wi w) as (p & K & M); [now apply in_enum|]. exists p. split; [exact M|]. destruct (P' id wi w (Inc id (or_introl eq_refl)) Hw) as (p' & Ep & Kp). congruence.
      + intros name Hn. rewrite I3; [rewrite find_oset|intros j g Hj; apply Hn; now right]. destruct (str_eqb name (dataFileName f)) eqn:E; [|reflexivity]. apply str_eqb_eq in E. exfalso. apply (Hn id f); [now left|exact Ef|exact E]. }
  destruct (G ids [] (fun i Hi => Hi) H) as (G1 & G2 & _). split; [|exact G2]. intros name. rewrite G1. split; [intros [[l Q]|Q]; [discriminate|exact Q]|auto].
Qed.

(* C50: without a binning in the configuration, every file belongs to exactly one bin of the list, and there are no other bins *)
Theorem C50_default_bins : forall files l, binsOfFiles files = Some l -> NoDup l /\ forall b, In b l <-> exists f, In f files /\ fileBounds f = b.
Proof.
  intros files l H. unfold binsOfFiles in H.
  assert (G : forall fs acc, NoDup acc -> foldO addBin fs acc = Some l -> NoDup l /\ forall b, In b l <-> In b acc \/ exists f, In f fs /\ fileBounds f = b).
  { induction fs as [|f fs IH]; intros acc N E; cbn [foldO] in E.
    - injection E as <-. split; [exact N|]. intros b. split; [now left|]. intros [Q|(? & [] & _)]. exact Q.
    - unfold addBin at 1 in E. unfold multiBin in E. destruct (forallb _ (fileBounds f)); [|discriminate]. cbn [bnd] in E. destruct (existsb _ acc) eqn:X.
      + apply existsb_exists in X as (c & Hc & Q). apply bins_eqb_iff in Q. subst c. destruct (IH acc N E) as [I1 I2]. split; [exact I1|]. intros b. rewrite I2. split; [intros [Q|(g & Hg & Q)]; [now left|right; exists g; split; [now right|exact Q]]|]. intros [Q|(g & [<-|Hg] & Q)]; [now left|subst; now left|right; eauto].
      + assert (Na : ~ In (fileBounds f) acc). { intros Q. assert (existsb (fun c => binEq (fileBounds f) c) acc = true); [|congruence]. apply existsb_exists. exists (fileBounds f). split; [exact Q|]. now apply bins_eqb_iff. }
        destruct (IH (acc ++ [fileBounds f])) as [I1 I2]; [|exact E|]. { rewrite <- (rev_involutive (acc ++ _)). apply NoDup_rev. rewrite rev_app_distr. cbn. constructor; [rewrite <- in_rev; exact Na|]. now apply NoDup_rev. }
        split; [exact I1|]. intros b. rewrite I2, in_app_iff. cbn [In]. split.
        * intros [[Q|[Q|[]]]|(g & Hg & Q)]; [now left|right; exists f; split; [now left|exact Q]|right; exists g; split; [now right|exact Q]].
        * intros [Q|(g & [<-|Hg] & Q)]; [left; now left|left; right; now left|right; eauto]. }
  destruct (G files [] (NoDup_nil _) H) as [G1 G2]. split; [exact G1|]. intros b. rewrite G2. split; [intros [[]|Q]; exact Q|auto].
Qed.

(* ---- examples ---- *)
Definition fileM (n : string) (lo hi : R) : inputFile := IFile (lit n) (mBin lo hi) [lit "mass"%string].
Definition fm1 : fileManager := FM (lit "amps") (lit "ints") [(1%Z, [fileM "a.root" 0 1; fileM "b.root" 1 2; fileM "c.root" 3 4])] [lit "[1-,0-+]"; lit "[1-,1++]"] [] [] [mBin 0 1; mBin 1 2].
Example C49_ex : ampPath fm1 1 2 0 (lit "[1-,0-+]") = Some (lit "amps/[1-,0-+]_eventFileId-2_1.root") /\ relative (lit "[1-,0-+]").
Proof. split; [reflexivity|]. intros r. discriminate. Qed.
Lemma touchM a b n lo hi : (touches (mBin a b) (fileM n lo hi)) <-> (a <= hi /\ lo <= b)%R.
Proof.
  split.
  - intros H. apply (H (lit "mass"%string)); reflexivity.
  - intros H v l h l' h' H1 H2. cbn [fileBounds fileM] in H1. apply mBin_find in H1 as [_ H1]. apply mBin_find in H2 as [_ H2]. injection H1 as -> ->. injection H2 as -> ->. exact H.
Qed.
Lemma fm1_dict : Forall (fun f => dict (fileBounds f)) [fileM "a.root" 0 1; fileM "b.root" 1 2; fileM "c.root" 3 4].
Proof. repeat (constructor; [apply mBin_dict|]). constructor. Qed.
Example C50_ex : In 0 (getEventFileIds fm1 (mBin 0 1) 1) /\ ~ In 2 (getEventFileIds fm1 (mBin 0 1) 1).
Proof.
  destruct (C50_selected fm1 (mBin 0 1) 1 _ eq_refl fm1_dict) as [S _]. split.
  - apply S. eexists. split; [reflexivity|]. apply touchM. lra.
  - intros H. apply S in H as (f & E & T). cbn in E. injection E as <-. apply touchM in T. lra.
Qed.
(* C50: a file that only touches the bin is selected although no event can be in both *)
Theorem C50_touching_refuted : exists fm mb ty fs id f, zfind ty (fmEventFiles fm) = Some fs /\ nth_error fs id = Some f /\ In id (getEventFileIds fm mb ty) /\
  forall ev, inBoundaries ev (fileBounds f) = true -> inBoundaries ev mb = true -> False.
Proof.
  exists fm1, (mBin 0 1), 1%Z, [fileM "a.root" 0 1; fileM "b.root" 1 2; fileM "c.root" 3 4], 1, (fileM "b.root" 1 2). split; [reflexivity|]. split; [reflexivity|]. split.
  - destruct (C50_selected fm1 (mBin 0 1) 1 _ eq_refl fm1_dict) as [S _]. apply S. eexists. split; [reflexivity|]. apply touchM. lra.
  - intros ev H1 H2. apply C45_inBoundaries in H1; [|apply mBin_dict]. apply C45_inBoundaries in H2; [|apply mBin_dict]. destruct (H1 (lit "mass"%string) 1%R 2%R) as (x & X & L); [reflexivity|]. destruct (H2 (lit "mass"%string) 0%R 1%R) as (y & Y & L'); [reflexivity|]. assert (x = y) by congruence. subst. lra.
Qed.
(* C49: a merge tag that is the name of a wave that is not merged gives this wave the file of the merged amplitudes *)
Theorem C49_tag_refuted : exists fm ty id wi wi' w w' p, w <> w' /\ nth_error (fmWaves fm) wi = Some w /\ nth_error (fmWaves fm) wi' = Some w' /\ mergedWaves fm ty = [w] /\
  ampPath fm ty id wi w = Some p /\ ampPath fm ty id wi' w' = Some p.
Proof.
  exists (FM (lit "amps") [] [(1%Z, [fileM "a.root" 0 1])] [lit "v"%string; lit "w"%string] [] [(1%Z, [(lit "w"%string, [lit "v"%string])])] []), 1%Z, 0, 0, 1, (lit "v"%string), (lit "w"%string), (lit "amps/w_eventFileId-0_1.root"%string).
  split; [discriminate|]. repeat (split; [reflexivity|]). reflexivity.
Qed.
