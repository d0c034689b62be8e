(* C63: on-the-fly binning selects exactly the events of the bin *)
From Coq Require Import String Ascii List ZArith Reals Bool Lia Lra Sorting.Sorted.
From Coquelicot Require Import Complex.
From Verif Require Import ArrayModel PathModel StrModel CGBoxModel FitResultModel LikParModel AmpIntModel AmpIntProps LikModel LikSetModel LikSetProofs LikSetProps LikBinProofs.
Import ListNotations.
Open Scope list_scope. Open Scope nat_scope.

(* ---- specification ---- *)
(* every variable of the bin lies in its half-open interval; an absent branch reads 0 *)
Definition inBin (bounds : smap (R * R)) (ev : smap R) : Prop :=
  forall v lo hi, In (v, (lo, hi)) bounds -> (lo <= branch ev v < hi)%R.
(* the amplitudes of the events of the bin, in the order of the file *)
Inductive binned (bounds : smap (R * R)) : list (smap R) -> list C -> list C -> Prop :=
  | binned_nil : binned bounds [] [] []
  | binned_in ev a evs l r : inBin bounds ev -> binned bounds evs l r -> binned bounds (ev :: evs) (a :: l) (a :: r)
  | binned_out ev a evs l r : ~ inBin bounds ev -> binned bounds evs l r -> binned bounds (ev :: evs) (a :: l) r.
(* the amplitude file m was computed from the event files fst of parts, its tree holds the
   amplitudes snd of parts one file after the other, and [want] are those of the bin *)
Inductive binnedFile (bounds : smap (R * R)) (fl : list evtMeta) (m : ampMeta) : list C -> Prop :=
  | binned_file parts wants : amHashes m = map (fun p => emHash (fst p)) parts -> amTree m = map (fun a => [a]) (flat_map snd parts) ->
      Forall2 (fun p w => In (fst p) fl /\ binned bounds (emTree (fst p)) (snd p) w) parts wants -> binnedFile bounds fl m (concat wants).

Lemma useEvent_iff bounds ev : useEvent bounds ev = true <-> inBin bounds ev.
Proof.
  unfold useEvent, inBin. rewrite forallb_forall. split.
  - intros H v lo hi Hi. specialize (H _ Hi). cbn in H. destruct (Rlt_dec (branch ev v) lo); [discriminate|]. destruct (Rle_dec hi (branch ev v)); [discriminate|]. lra.
  - intros H [v [lo hi]] Hi. specialize (H _ _ _ Hi). destruct (Rlt_dec (branch ev v) lo); [lra|]. destruct (Rle_dec hi (branch ev v)); [lra|reflexivity].
Qed.
Lemma binned_length bounds evs l w : binned bounds evs l w -> length l = length evs.
Proof. induction 1; cbn; congruence. Qed.

Lemma mapOpt_app {A B} (f : A -> option B) l1 l2 r1 r2 : mapOpt f l1 = Some r1 -> mapOpt f l2 = Some r2 -> mapOpt f (l1 ++ l2) = Some (r1 ++ r2).
Proof. intros H1 H2. apply mapOpt_spec in H1, H2. apply mapOpt_intro. now apply Forall2_app. Qed.
(* reading the recorded indices of one file *)
Lemma read_binned bounds evs l w : binned bounds evs l w -> forall pre post off,
  mapOpt (fun k => readEntry (map (fun a => [a]) (pre ++ l ++ post)) (length pre - off + k)) (map fst (filter (fun p => useEvent bounds (snd p)) (List.combine (List.seq off (length evs)) evs))) = Some w \/ length pre < off.
Proof.
  induction 1 as [|ev a evs l w Hi B IH|ev a evs l w Hi B IH]; intros pre post off.
  - left. reflexivity.
  - destruct (Nat.lt_ge_cases (length pre) off) as [|Hp]; [now right|left]. cbn [length List.seq List.combine filter snd]. replace (useEvent bounds ev) with true by (symmetry; now apply useEvent_iff).
    cbn [map fst]. destruct (IH (pre ++ [a]) post (S off)) as [E|E]; [|rewrite app_length in E; cbn in E; lia].
    apply mapOpt_spec in E. apply mapOpt_intro. constructor.
    + replace (length pre - off + off) with (length pre) by lia. unfold readEntry. rewrite nth_error_map, nth_error_app2, Nat.sub_diag by lia. reflexivity.
    + rewrite app_length in E. cbn [length] in E. replace (length pre + 1 - S off) with (length pre - off) in E by lia.
      replace (pre ++ (a :: l) ++ post) with ((pre ++ [a]) ++ l ++ post) by (rewrite <- app_assoc; reflexivity). exact E.
  - destruct (Nat.lt_ge_cases (length pre) off) as [|Hp]; [now right|left]. cbn [length List.seq List.combine filter snd].
    replace (useEvent bounds ev) with false by (symmetry; apply not_true_iff_false; intros X; now apply useEvent_iff in X).
    destruct (IH (pre ++ [a]) post (S off)) as [E|E]; [|rewrite app_length in E; cbn in E; lia].
    rewrite app_length in E. cbn [length] in E. replace (length pre + 1 - S off) with (length pre - off) in E by lia.
    replace (pre ++ (a :: l) ++ post) with ((pre ++ [a]) ++ l ++ post) by (rewrite <- app_assoc; reflexivity). exact E.
Qed.
Lemma readInBin_binned bounds fl fs m want : (forall x, In x fl -> props (emHash x) fs = (length (emTree x), eventIndices bounds (emTree x))) ->
  binnedFile bounds fl m want -> readInBin fs m = Some want.
Proof.
  intros HP [parts wants Eh Et F]. unfold readInBin. rewrite Eh, Et.
  assert (G : forall pre acc, foldO (fun h '(skip, acc) =>
            let p := props h fs in
            do a <- mapOpt (fun k => readEntry (map (fun a => [a]) (pre ++ flat_map snd parts)) (skip + k)) (snd p);
            Some (skip + fst p, acc ++ a)) (map (fun p => emHash (fst p)) parts) (length pre, acc) = Some (length pre + length (flat_map snd parts), acc ++ concat wants)).
  { clear Eh Et. induction F as [|[ef l] w parts wants [Hf B] F IH]; intros pre acc; cbn [map foldO flat_map concat fst snd].
    - rewrite app_nil_r. cbn. now rewrite Nat.add_0_r.
    - cbn [fst snd] in *. rewrite (HP ef Hf). cbn [fst snd]. rewrite eventIndices_filter.
      destruct (read_binned bounds _ _ _ B pre (flat_map snd parts) 0) as [E|E]; [|lia]. rewrite Nat.sub_0_r in E. rewrite E. cbn [bnd].
      specialize (IH (pre ++ l) (acc ++ w)). rewrite app_length, (binned_length _ _ _ _ B), <- !app_assoc in IH. rewrite IH. rewrite app_length, (binned_length _ _ _ _ B). f_equal. f_equal. lia. }
  specialize (G [] []). cbn [app length] in G. rewrite G. reflexivity.
Qed.
Lemma readAmps_binned bounds fl fs ms wants : (forall x, In x fl -> props (emHash x) fs = (length (emTree x), eventIndices bounds (emTree x))) ->
  Forall2 (binnedFile bounds fl) ms wants -> readAmps true fs ms = Some (concat wants).
Proof.
  intros HP F. unfold readAmps. assert (G : forall acc, foldO (fun m acc => do a <- readInBin fs m; Some (acc ++ a)) ms acc = Some (acc ++ concat wants)).
  { induction F as [|m w ms wants B F IH]; intros acc; cbn [foldO concat]; [now rewrite app_nil_r|]. rewrite (readInBin_binned bounds fl fs m w HP B). cbn [bnd]. rewrite IH, <- app_assoc. reflexivity. }
  exact (G []).
Qed.
Lemma app_eq_len {A} (a b x y : list A) : length a = length b -> a ++ x = b ++ y -> a = b /\ x = y.
Proof.
  revert b. induction a as [|h a IH]; intros [|g b] L E; cbn in *; try discriminate; [auto|]. injection E as -> E. destruct (IH b ltac:(lia) E) as [-> ->]. auto.
Qed.
Lemma binnedFile_fun bounds fl m w w' : NoDup (map emHash fl) -> binnedFile bounds fl m w -> binnedFile bounds fl m w' -> w = w'.
Proof.
  intros ND [parts wants Eh Et F] [parts' wants' Eh' Et' F'].
  assert (Ef : flat_map snd parts = flat_map snd parts'). { rewrite Et in Et'. clear - Et'. revert Et'. generalize (flat_map snd parts'). induction (flat_map snd parts) as [|x l IH]; intros [|y l'] E; cbn in E; try discriminate; [reflexivity|]. injection E as -> E. f_equal. now apply IH. }
  rewrite Eh in Eh'. clear Eh Et Et'. f_equal. revert parts' wants' F' Eh' Ef. induction F as [|[ef l] w0 parts wants [Hf B] F IH]; intros parts' wants' F' Eh' Ef.
  - destruct parts'; [|discriminate]. now inversion F'.
  - destruct parts' as [|[ef' l'] parts']; [discriminate|]. cbn [map fst] in Eh'. injection Eh' as E1 E2. inversion F' as [|? w0' ? wants'' [Hf' B'] F'']; subst. cbn [fst snd] in *.
    assert (ef = ef') by (eapply NoDup_map_inj; eauto). subst ef'. cbn [flat_map] in Ef.
    destruct (app_eq_len l l' _ _ ltac:(rewrite (binned_length _ _ _ _ B), (binned_length _ _ _ _ B'); reflexivity) Ef) as [<- Ef']. f_equal; [|now apply (IH parts' wants'')].
    clear - B B'. revert w0' B'. induction B; intros w' B'; inversion B'; subst; try contradiction; try reflexivity; [f_equal|]; auto.
Qed.

(* C63: after setOnTheFlyBinning, a successful addAmplitude for files computed from the
   registered event files stores exactly the amplitudes of the events of the bin, file after
   file in order, divided by the square root of the normalisation integral if asked to *)
Theorem C63_events_of_the_bin : forall h h2 bounds fl ms wants s0 tr0 s, fl <> [] -> NoDup (map emHash fl) ->
  (forall c, In c h2 -> isBin c = false) ->
  runs (h ++ SBin bounds (map Some fl) :: h2) = Some (s0, tr0) -> exec s0 (SAmp (map Some ms)) = Some (s, true) ->
  Forall2 (binnedFile bounds fl) ms wants ->
  exists m e w, In m ms /\ m_find (amName m) (stParams s) = Some (e, w) /\ stEvts s = length (concat wants) /\
    (forall k a, nth_error (concat wants) k = Some a ->
       stDec s e k w = if stUse s && negb (Ceqb (stNormM s e w e w) (RtoC 0)) then (a / RtoC (sqrt (Re (stNormM s e w e w))))%C else a) /\
    (forall e' k w', (e', w') <> (e, w) -> stDec s e' k w' = stDec s0 e' k w').
Proof.
  intros h h2 bounds fl ms wants s0 tr0 s Hne ND Hb H0 Ha F.
  assert (Hs : h ++ SBin bounds (map Some fl) :: h2 = (h ++ [SBin bounds (map Some fl)]) ++ h2) by (now rewrite <- app_assoc). rewrite Hs in H0.
  destruct (runs_app _ _ _ _ H0) as (s1 & tr1 & H1). destruct (runs_files h2 _ _ _ _ _ H1 H0 Hb) as [Sp Nn]. pose proof (runs_sorted _ _ _ H0) as S0.
  rewrite runs_snoc in H1. destruct (runs h) as [[sh trh]|] eqn:Hh; [|discriminate]. cbn [bnd fst snd exec] in H1. pose proof (runs_sorted _ _ _ Hh) as Sh.
  unfold setOnTheFlyBinning in H1. destruct (binFiles bounds (map Some fl) (stFiles sh)) as [fs ok] eqn:Eb. cbn [fst snd] in H1. injection H1 as H1 _.
  assert (ok = true). { clear - Eb. revert Eb. generalize (stFiles sh). induction fl as [|x fl IH]; intros f E; cbn in E; [congruence|]. eauto. } subst ok.
  destruct (binFiles_props _ _ _ _ Sh ND Eb) as (P1 & _ & P3). assert (Ef : stFiles s1 = fs) by (rewrite <- H1; reflexivity). rewrite Ef in *.
  cbn [exec] in Ha. pose proof (amp_keeps _ _ _ _ Ha) as K. decompose [and] K. clear K.
  destruct (amp_full _ _ _ Ha) as (m0 & ml & e & w & fs' & total & amps & dec & fx & Em & Hn & Hf & Hc & Nz & He & Hr & Hcp & D & N & Fs & P & _).
  assert (ms = m0 :: ml). { clear - Em. revert Em. generalize (m0 :: ml). induction ms as [|x ms IH]; intros [|y l] E; cbn in E; try discriminate; [reflexivity|]. injection E as -> E. f_equal. now apply IH. } subst ms.
  assert (Fl : flyOf s0 = true). { unfold flyOf. destruct (stFiles s0) eqn:Es; [|reflexivity]. exfalso. apply Nn; [apply P3; now left|reflexivity]. }
  rewrite Fl in *. apply countEvents_spec in Hc as (S1 & P2 & _ & Ht & _); [|exact S0].
  rewrite (readAmps_binned bounds fl fs' _ wants) in Hr; [|intros x Hx; now rewrite P2, Sp, P1|exact F]. injection Hr as <-.
  exists m0, e, w. split; [now left|]. split; [congruence|].
  assert (Lw : length (concat wants) = total).
  { rewrite Ht, <- (wantCount_same true _ _ _ P2). apply readAmps_length. apply (readAmps_binned bounds fl); [intros x Hx; now rewrite P2, Sp, P1|exact F]. }
  split; [congruence|]. apply copyAmps_spec in Hcp as (C1 & C2 & _). cbn [plus] in C1. split.
  - intros k a Hk. rewrite D, (C1 k a Hk). replace (stUse s) with (stUse s0) by congruence. replace (stNormM s) with (stNormM s0) by congruence. reflexivity.
  - intros e' k w' Hn'. rewrite D. apply C2. intros (-> & -> & _). now apply Hn'.
Qed.

(* C63: the number of recorded events of a file and which ones *)
Theorem C63_recorded_entries : forall h s tr bounds fl s' ok x, runs h = Some (s, tr) -> NoDup (map emHash fl) -> setOnTheFlyBinning s bounds (map Some fl) = (s', ok) -> In x fl ->
  exists idx, m_find (emHash x) (stFiles s') = Some (length (emTree x), idx) /\ StronglySorted lt idx /\
    forall k, In k idx <-> exists ev, nth_error (emTree x) k = Some ev /\ inBin bounds ev.
Proof.
  intros h s tr bounds fl s' ok x H ND Hs Hx. unfold setOnTheFlyBinning in Hs. destruct (binFiles bounds (map Some fl) (stFiles s)) as [fs o] eqn:Eb. injection Hs as <- <-. cbn [stFiles withFiles].
  assert (o = true). { clear - Eb. revert Eb. generalize (stFiles s). induction fl as [|y fl IH]; intros f E; cbn in E; [congruence|]. eauto. } subst o.
  pose proof (runs_sorted _ _ _ H) as S.
  assert (Hm : m_find (emHash x) fs = Some (length (emTree x), eventIndices bounds (emTree x))).
  { clear H. revert Eb S ND Hx. generalize (stFiles s). induction fl as [|y fl IH]; intros f Eb S ND Hx; [destruct Hx|]. cbn [map binFiles] in Eb. cbn [map] in ND. apply NoDup_cons_iff in ND as [Ny ND].
    destruct Hx as [->|Hx]; [|eapply IH; [exact Eb|now apply m_set_sorted|exact ND|exact Hx]].
    assert (G : forall l g g', binFiles bounds (map Some l) g = (g', true) -> fsorted g -> ~ In (emHash x) (map emHash l) -> m_find (emHash x) g' = m_find (emHash x) g).
    { clear. induction l as [|z l IHl]; intros g g' E S Hn; cbn [map binFiles] in E; [injection E as <-; reflexivity|]. cbn [map] in Hn. apply IHl in E; [|now apply m_set_sorted|intros X; apply Hn; now right].
      rewrite E, m_find_set by exact S. destruct (str_eqb (emHash x) (emHash z)) eqn:X; [|reflexivity]. apply str_eqb_eq in X. exfalso. apply Hn. now left. }
    rewrite (G _ _ _ Eb); [|now apply m_set_sorted|exact Ny]. rewrite m_find_set by exact S. replace (str_eqb (emHash x) (emHash x)) with true by (symmetry; now apply str_eqb_eq). reflexivity. }
  exists (eventIndices bounds (emTree x)). split; [exact Hm|]. rewrite eventIndices_filter. generalize (emTree x). intros t. clear.
  assert (G : forall t off, StronglySorted lt (map fst (filter (fun p => useEvent bounds (snd p)) (List.combine (List.seq off (length t)) t))) /\
    forall k, In k (map fst (filter (fun p => useEvent bounds (snd p)) (List.combine (List.seq off (length t)) t))) <-> off <= k /\ exists ev, nth_error t (k - off) = Some ev /\ inBin bounds ev).
  { clear t. induction t as [|ev t IH]; intros off; cbn [length List.seq List.combine filter map snd].
    - split; [constructor|]. intros k. split; [intros []|]. intros (_ & ev & E & _). destruct (k - off); discriminate.
    - destruct (IH (S off)) as [I1 I2].
      assert (Step : forall k, (S off <= k /\ (exists ev0, nth_error t (k - S off) = Some ev0 /\ inBin bounds ev0)) <-> (k <> off /\ off <= k /\ exists ev0, nth_error (ev :: t) (k - off) = Some ev0 /\ inBin bounds ev0)).
      { intros k. split.
        - intros (L & e0 & E & B). split; [lia|]. split; [lia|]. exists e0. replace (k - off) with (S (k - S off)) by lia. auto.
        - intros (Nk & L & e0 & E & B). split; [lia|]. exists e0. replace (k - off) with (S (k - S off)) in E by lia. auto. }
      destruct (useEvent bounds ev) eqn:U; cbn [map fst].
      + split; [constructor; [exact I1|]; apply Forall_forall; intros k Hk; apply I2 in Hk; lia|]. intros k. cbn [In]. rewrite I2, Step. split.
        * intros [<-|X]; [|tauto]. split; [lia|]. exists ev. rewrite Nat.sub_diag. split; [reflexivity|]. now apply useEvent_iff.
        * intros [L X]. destruct (Nat.eq_dec k off); [left; auto|right; auto].
      + split; [exact I1|]. intros k. rewrite I2, Step. split; [tauto|]. intros [L (e0 & E & B)]. split; [|eauto]. intros ->. rewrite Nat.sub_diag in E. cbn in E. injection E as <-. apply useEvent_iff in B. congruence. }
  destruct (G t 0) as [G1 G2]. split; [exact G1|]. intros k. rewrite G2, Nat.sub_0_r. split; [tauto|]. intros X. split; [lia|exact X].
Qed.

(* ---- example ---- *)
Definition evM (m : R) : smap R := [(lit "mass"%string, m)].
Definition fK : evtMeta := EM (lit "hK"%string) [evM 0; evM 1; evM 2].
Definition binX : smap (R * R) := [(lit "mass"%string, (1%R, 2%R))].
Definition aK (hs : list str) (t : list C) : ampMeta := AM (lit "A"%string) hs (map (fun a => [a]) t).
Lemma evM_in m : inBin binX (evM m) <-> (1 <= m < 2)%R.
Proof.
  unfold inBin, binX. split; [intros H; exact (H _ _ _ (or_introl eq_refl))|]. intros H v lo hi [E|[]]. injection E as <- <- <-. exact H.
Qed.
Lemma evIdx : eventIndices binX (emTree fK) = [1].
Proof.
  rewrite eventIndices_filter. cbn [fK emTree length List.seq List.combine filter snd].
  assert (U : forall m, useEvent binX (evM m) = true <-> (1 <= m < 2)%R) by (intros m; rewrite useEvent_iff; apply evM_in).
  destruct (useEvent binX (evM 0)) eqn:E0; [apply U in E0; lra|]. destruct (useEvent binX (evM 1)) eqn:E1; [|exfalso; apply not_true_iff_false in E1; apply E1, U; lra].
  destruct (useEvent binX (evM 2)) eqn:E2; [apply U in E2; lra|]. reflexivity.
Qed.
Lemma bin_amp hs t fs x : countEvents true [(lit "hK"%string, (3, [1]))] [aK hs t] = (fs, 1) -> readAmps true fs [aK hs t] = Some [x] ->
  exists s0 s, runs (hPre (RtoC 1) ++ [SBin binX (map Some [fK])]) = Some (s0, okAll (hPre (RtoC 1) ++ [SBin binX [Some fK]])) /\
    exec s0 (SAmp (map Some [aK hs t])) = Some (s, true) /\ m_find (lit "A"%string) (stParams s) = Some (1, 0) /\ stDec s 1 0 0 = x.
Proof.
  intros Hc Hr. rewrite runs_snoc, runs_hPre. cbn [bnd fst snd exec map]. unfold setOnTheFlyBinning. cbn [binFiles]. change (emHash fK) with (lit "hK"%string). rewrite evIdx. change (length (emTree fK)) with 3.
  change (stFiles (sPre (RtoC 1))) with (@nil (str * (nat * list nat))). cbn [m_set fst snd]. eexists. eexists. split; [reflexivity|].
  cbn [exec]. unfold addAmplitude. change (stAcc (withFiles (sPre (RtoC 1)) [(lit "hK"%string, (3, [1]))])) with true. cbn [negb].
  change (mapOpt (fun m : option ampMeta => m) [Some (aK hs t)]) with (Some [aK hs t]). cbn [forallb]. rewrite str_eqb_refl. cbn [negb andb].
  change (m_find (amName (aK hs t)) (stParams (withFiles (sPre (RtoC 1)) [(lit "hK"%string, (3, [1]))]))) with (Some (1, 0)). cbn iota.
  change (stFiles (withFiles (sPre (RtoC 1)) [(lit "hK"%string, (3, [1]))])) with [(lit "hK"%string, (3, [1]))]. cbn iota. rewrite Hc. cbv zeta beta iota. change (1 =? 0) with false. cbv iota.
  change (stOrder (withFiles (sPre (RtoC 1)) [(lit "hK"%string, (3, [1]))])) with (@nil str). cbn iota.
  assert (Ck : forall l, checkOrder l l = true). { induction l as [|y l IH]; [reflexivity|]. cbn [checkOrder]. now rewrite str_eqb_refl. }
  rewrite Ck. cbn [negb]. rewrite Hr. cbn [bnd]. change (stEvts (withFiles (sPre (RtoC 1)) [(lit "hK"%string, (3, [1]))])) with 0. cbn [Nat.eqb negb].
  change (stNormM (withFiles (sPre (RtoC 1)) [(lit "hK"%string, (3, [1]))]) 1 0 1 0) with (RtoC 1 / RtoC 1)%C.
  change (stAccM (withFiles (sPre (RtoC 1)) [(lit "hK"%string, (3, [1]))]) 1 0 1 0) with (RtoC 1 / RtoC 1)%C. rewrite div1.
  change (stUse (withFiles (sPre (RtoC 1)) [(lit "hK"%string, (3, [1]))])) with true.
  cbn [copyAmps andb]. rewrite Czero_false by (intros X; apply (f_equal fst) in X; cbn in X; lra). cbn [andb negb]. cbn [Re RtoC fst]. destruct (Rlt_dec 0 1); [|lra]. cbn [bnd]. rewrite sqrt_1, div1.
  cbn [negb]. split; [reflexivity|]. split; [reflexivity|]. cbn [stDec]. unfold upd3. reflexivity.
Qed.

(* the hypotheses of C63_events_of_the_bin can be met: of three events the second is in the bin *)
Example C63_ex : exists s0 s tr0, runs (hPre (RtoC 1) ++ [SBin binX (map Some [fK])]) = Some (s0, tr0) /\
  exec s0 (SAmp (map Some [aK [lit "hK"%string] [RtoC 5; RtoC 6; RtoC 7]])) = Some (s, true) /\
  Forall2 (binnedFile binX [fK]) [aK [lit "hK"%string] [RtoC 5; RtoC 6; RtoC 7]] [[RtoC 6]] /\ stDec s 1 0 0 = RtoC 6.
Proof.
  destruct (bin_amp [lit "hK"%string] [RtoC 5; RtoC 6; RtoC 7] [(lit "hK"%string, (3, [1]))] (RtoC 6) eq_refl eq_refl) as (s0 & s & H1 & H2 & _ & H3).
  exists s0, s. eexists. split; [exact H1|]. split; [exact H2|]. split; [|exact H3]. constructor; [|constructor].
  apply (binned_file binX [fK] (aK [lit "hK"%string] [RtoC 5; RtoC 6; RtoC 7]) [(fK, [RtoC 5; RtoC 6; RtoC 7])] [[RtoC 6]] eq_refl eq_refl). constructor; [|constructor]. split; [now left|].
  apply binned_out; [rewrite evM_in; lra|]. apply binned_in; [rewrite evM_in; lra|]. apply binned_out; [rewrite evM_in; lra|]. constructor.
Qed.

(* C63: an event file that was not registered is silently accepted, and the entries of the
   registered files behind it are read from the wrong place: the amplitude file holds 9 for the
   unregistered file and 5, 6, 7 for the registered one; 5 (not in the bin) is stored instead of 6 *)
Theorem C63_unknown_file_refuted : exists s0 s tr0, 
  runs (hPre (RtoC 1) ++ [SBin binX (map Some [fK])]) = Some (s0, tr0) /\ (forall c b, In (c, b) tr0 -> b = true) /\
  m_find (lit "hU"%string) (stFiles s0) = None /\
  exec s0 (SAmp (map Some [aK [lit "hU"%string; lit "hK"%string] [RtoC 9; RtoC 5; RtoC 6; RtoC 7]])) = Some (s, true) /\
  binned binX (emTree fK) [RtoC 5; RtoC 6; RtoC 7] [RtoC 6] /\
  stEvts s = 1 /\ stDec s 1 0 0 = RtoC 5.
Proof.
  destruct (bin_amp [lit "hU"%string; lit "hK"%string] [RtoC 9; RtoC 5; RtoC 6; RtoC 7] [(lit "hK"%string, (3, [1])); (lit "hU"%string, (0, []))] (RtoC 5) eq_refl eq_refl) as (s0 & s & H1 & H2 & _ & H3).
  exists s0, s. eexists. split; [exact H1|]. split; [|split; [|split; [exact H2|split; [|split; [|exact H3]]]]].
  - intros c b Hi. unfold okAll in Hi. apply in_map_iff in Hi as (x & X & _). now injection X as _ <-.
  - rewrite runs_snoc, runs_hPre in H1. cbn [bnd fst snd exec map] in H1. unfold setOnTheFlyBinning in H1. cbn [binFiles] in H1. apply (f_equal (fun x => match x with Some y => fst y | None => s0 end)) in H1. cbn [fst] in H1. rewrite <- H1. reflexivity.
  - apply binned_out; [rewrite evM_in; lra|]. apply binned_in; [rewrite evM_in; lra|]. apply binned_out; [rewrite evM_in; lra|]. constructor.
  - cbn [exec] in H2. pose proof (runs_sorted _ _ _ H1) as Srt.
    destruct (amp_full _ _ _ H2) as (m0 & ml & e & w & fs & total & amps & dec & fx & E & _ & _ & Hc & _ & _ & _ & _ & _ & N & _). rewrite N.
    cbn [map] in E. injection E as E0 El. destruct ml; [|discriminate]. subst m0. rewrite runs_snoc, runs_hPre in H1. cbn [bnd fst snd exec map] in H1. unfold setOnTheFlyBinning in H1. cbn [binFiles] in H1. apply (f_equal (fun x => match x with Some y => fst y | None => s0 end)) in H1. cbn [fst] in H1.
    change (emHash fK) with (lit "hK"%string) in H1. rewrite evIdx in H1. rewrite <- H1 in Hc. cbn in Hc. now injection Hc as _ <-.
Qed.
