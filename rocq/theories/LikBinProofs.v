(* Lemmas about addAmplitude and the on-the-fly binning *)
From Coq Require Import String Ascii List ZArith Reals Bool Lia Lra Sorting.Sorted.
From Coquelicot Require Import Complex.
From Verif Require Import ArrayModel PathModel StrModel CGBoxModel FitResultModel LikParModel AmpIntModel AmpIntProps LikModel LikSetModel LikSetProofs.
Import ListNotations.
Open Scope list_scope. Open Scope nat_scope.

Notation files := (smap (nat * list nat)).
Definition fsorted (fs : files) : Prop := StronglySorted (@key_lt (nat * list nat)) fs.
Definition sameProps (fs fs' : files) : Prop := forall h, props h fs' = props h fs.

Lemma touch_spec h fs : fsorted fs -> fsorted (touch h fs) /\ sameProps fs (touch h fs) /\ touch h fs <> [].
Proof.
  intros S. unfold touch. destruct (m_find h fs) eqn:E.
  - split; [exact S|]. split; [intros g; reflexivity|]. intros ->. discriminate.
  - split; [now apply m_set_sorted|]. split.
    + intros g. unfold props. rewrite m_find_set by exact S. destruct (str_eqb g h) eqn:G; [|reflexivity]. apply str_eqb_eq in G. subst. now rewrite E.
    + intros X. assert (In h (map fst (m_set h (0, []) fs))) by (apply m_set_keys; auto). rewrite X in *. destruct H.
Qed.
Lemma touch_keep h fs : fs <> [] -> touch h fs <> [].
Proof.
  unfold touch. intros H. destruct (m_find h fs); [exact H|]. intros X. assert (In h (map fst (m_set h (0, []) fs))) by (apply m_set_keys; auto). rewrite X in *. destruct H0.
Qed.

Definition inBinCount (fs : files) (hs : list str) : nat := list_sum (map (fun h => length (snd (props h fs))) hs).
Definition wantCount (fly : bool) (fs : files) (ms : list ampMeta) : nat :=
  list_sum (map (fun m => if fly then inBinCount fs (amHashes m) else length (amTree m)) ms).
Lemma inBinCount_same fs fs' hs : sameProps fs fs' -> inBinCount fs' hs = inBinCount fs hs.
Proof. intros H. unfold inBinCount. f_equal. apply map_ext. intros h. now rewrite H. Qed.

Lemma inBinCount_cons fs h hs : inBinCount fs (h :: hs) = length (snd (props h fs)) + inBinCount fs hs. Proof. reflexivity. Qed.
Lemma wantCount_cons fly fs m ms : wantCount fly fs (m :: ms) = (if fly then inBinCount fs (amHashes m) else length (amTree m)) + wantCount fly fs ms. Proof. reflexivity. Qed.
Lemma wantCount_same fly fs fs' ms : sameProps fs fs' -> wantCount fly fs' ms = wantCount fly fs ms.
Proof. intros H. unfold wantCount. f_equal. apply map_ext. intros m. destruct fly; [now apply inBinCount_same|reflexivity]. Qed.
Lemma countHashes hs : forall fs n fs' n', fsorted fs ->
  fold_left (fun '(fs, n) h => let fs := touch h fs in (fs, n + length (snd (props h fs)))) hs (fs, n) = (fs', n') ->
  fsorted fs' /\ sameProps fs fs' /\ (fs <> [] -> fs' <> []) /\ n' = n + inBinCount fs hs.
Proof.
  induction hs as [|h hs IH]; intros fs n fs' n' S H; cbn [fold_left] in H.
  - injection H as <- <-. split; [exact S|]. split; [intros g; reflexivity|]. split; [auto|]. unfold inBinCount. cbn. lia.
  - destruct (touch_spec h fs S) as (S1 & P1 & N1). apply IH in H as (S2 & P2 & N2 & ->); [|exact S1]. split; [exact S2|].
    split; [intros g; now rewrite P2, P1|]. split; [auto|]. rewrite (inBinCount_same _ _ _ P1), inBinCount_cons, (P1 h). lia.
Qed.
Lemma countEvents_aux fly ms : forall fs n fs' n', fsorted fs ->
  fold_left (fun '(fs, n) m =>
    if fly : bool then fold_left (fun '(fs, n) h => let fs := touch h fs in (fs, n + length (snd (props h fs)))) (amHashes m) (fs, n)
    else (fs, n + length (amTree m))) ms (fs, n) = (fs', n') ->
  fsorted fs' /\ sameProps fs fs' /\ (fs <> [] -> fs' <> []) /\ n' = n + wantCount fly fs ms /\ (fly = false -> fs' = fs).
Proof.
  induction ms as [|m ms IH]; intros fs n fs' n' S H; cbn [fold_left] in H.
  - injection H as <- <-. split; [exact S|]. split; [intros g; reflexivity|]. split; [auto|]. split; [unfold wantCount; cbn; lia|auto].
  - destruct fly.
    + destruct (fold_left _ (amHashes m) (fs, n)) as [f1 n1] eqn:E in H. apply countHashes in E as (S1 & P1 & N1 & ->); [|exact S].
      apply IH in H as (S2 & P2 & N2 & -> & _); [|exact S1]. split; [exact S2|]. split; [intros g; now rewrite P2, P1|]. split; [auto|]. split; [|discriminate].
      rewrite (wantCount_same _ _ _ _ P1), wantCount_cons. lia.
    + apply IH in H as (S2 & P2 & N2 & -> & F2); [|exact S]. split; [exact S2|]. split; [exact P2|]. split; [auto|]. split; [|auto]. rewrite wantCount_cons. lia.
Qed.
Lemma countEvents_spec fly fs ms fs' n : fsorted fs -> countEvents fly fs ms = (fs', n) ->
  fsorted fs' /\ sameProps fs fs' /\ (fs <> [] -> fs' <> []) /\ n = wantCount fly fs ms /\ (fly = false -> fs' = fs).
Proof. intros S H. apply (countEvents_aux fly ms fs 0 fs' n S H). Qed.

Lemma mapOpt_length {A B} (f : A -> option B) l r : mapOpt f l = Some r -> length r = length l.
Proof. intros H. apply mapOpt_spec in H. induction H; cbn; congruence. Qed.

Lemma readInBin_aux fs t hs : forall skip acc r, foldO (fun h '(skip, acc) =>
            let p := props h fs in
            do a <- mapOpt (fun k => readEntry t (skip + k)) (snd p);
            Some (skip + fst p, acc ++ a)) hs (skip, acc) = Some r -> length (snd r) = length acc + inBinCount fs hs.
Proof.
  induction hs as [|h hs IH]; intros skip acc r H; cbn [foldO] in H.
  - injection H as <-. unfold inBinCount. cbn. lia.
  - cbv zeta in H. destruct (mapOpt _ (snd (props h fs))) as [a|] eqn:E in H; [|discriminate]. cbn [bnd] in H. apply IH in H. rewrite H, app_length, (mapOpt_length _ _ _ E).
    rewrite inBinCount_cons. lia.
Qed.
Lemma readInBin_length fs m l : readInBin fs m = Some l -> length l = inBinCount fs (amHashes m).
Proof.
  unfold readInBin. intros H. destruct (foldO _ (amHashes m) (0, [])) as [r|] eqn:E; [|discriminate]. cbn [bnd] in H. injection H as <-. apply readInBin_aux in E. exact E.
Qed.
Lemma readAmps_aux fly fs ms : forall acc l, foldO (fun m acc => do a <- (if fly : bool then readInBin fs m else mapOpt entryAmp (amTree m)); Some (acc ++ a)) ms acc = Some l ->
  length l = length acc + wantCount fly fs ms.
Proof.
  induction ms as [|m ms IH]; intros acc l H; cbn [foldO] in H; [injection H as <-; unfold wantCount; cbn; lia|].
  destruct (if fly then readInBin fs m else mapOpt entryAmp (amTree m)) as [a|] eqn:E; [|discriminate]. cbn [bnd] in H. apply IH in H. rewrite H, app_length.
  rewrite wantCount_cons. destruct fly; [apply readInBin_length in E|apply mapOpt_length in E]; lia.
Qed.
Lemma readAmps_length fly fs ms l : readAmps fly fs ms = Some l -> length l = wantCount fly fs ms.
Proof. apply (readAmps_aux fly fs ms []). Qed.

(* the values written *)
Definition scaled (use : bool) (norm a : C) : C := if use && negb (Czero norm) then (a / RtoC (sqrt (Re norm)))%C else a.
Lemma upd3_same m e k w v : upd3 m e k w v e k w = v.
Proof. unfold upd3. now rewrite !Nat.eqb_refl. Qed.
Lemma copyAmps_spec use norm e w l : forall k dec fx dec' fx', copyAmps use norm e w k l dec fx = Some (dec', fx', true) ->
  (forall i a, nth_error l i = Some a -> dec' e (k + i) w = scaled use norm a) /\
  (forall a i b, ~ (a = e /\ b = w /\ k <= i < k + length l) -> dec' a i b = dec a i b) /\
  (use = true -> norm <> RtoC 0 -> l <> [] -> (0 < Re norm)%R) /\
  (use = true -> norm = RtoC 0 -> Forall (fun a => a = RtoC 0) l) /\
  (fx' = true <-> fx = true /\ forall i a, nth_error l i = Some a -> scaled use norm a = RtoC 0).
Proof.
  assert (CZ : forall z, Czero z = true <-> z = RtoC 0) by (intros z; apply Ceqb_eq).
  induction l as [|a l IH]; intros k dec fx dec' fx' H; cbn [copyAmps] in H.
  - injection H as <- <-. split; [intros i a X; destruct i; discriminate|]. split; [reflexivity|]. split; [congruence|]. split; [constructor|].
    split; [intros; split; [assumption|intros i a X; destruct i; discriminate]|tauto].
  - destruct (use && Czero norm && negb (Czero a)) eqn:E0; [discriminate|].
    destruct (if use && negb (Czero norm) then _ else _) as [a'|] eqn:Ea in H; [|discriminate]. cbn [bnd] in H.
    assert (Sc : a' = scaled use norm a) by (unfold scaled; revert Ea; destruct (use && negb (Czero norm)); [destruct (Rlt_dec 0 (Re norm)); [congruence|discriminate]|congruence]).
    apply IH in H as (H1 & H2 & H3 & H4 & H5). split; [|split; [|split; [|split]]].
    + intros [|i] b X; cbn in X.
      * injection X as <-. rewrite Nat.add_0_r. rewrite H2 by lia. rewrite upd3_same. exact Sc.
      * replace (k + S i) with (k + 1 + i) by lia. now apply H1.
    + intros x i y N. cbn [length] in N. rewrite H2 by lia. unfold upd3.
      destruct (Nat.eqb_spec x e), (Nat.eqb_spec i k), (Nat.eqb_spec y w); cbn [andb]; try reflexivity. exfalso. apply N. lia.
    + intros U Nz _. destruct (Czero norm) eqn:Z0; [apply CZ in Z0; congruence|]. rewrite U in Ea. cbn in Ea. destruct (Rlt_dec 0 (Re norm)); [assumption|discriminate].
    + intros U Z0. constructor; [|auto]. apply CZ in Z0. rewrite U, Z0 in E0. cbn in E0. apply CZ. destruct (Czero a); [reflexivity|discriminate].
    + rewrite H5. destruct (Czero a') eqn:Za.
      * apply CZ in Za. split; intros [F G]; (split; [exact F|]).
        -- intros [|i] b X; cbn in X; [injection X as <-; congruence|eauto].
        -- intros i b X. apply (G (S i) b X).
      * split; [intros [X _]; discriminate|]. intros [F G]. specialize (G 0 a eq_refl). rewrite <- Sc in G. apply CZ in G. congruence.
Qed.

(* everything a successful addAmplitude does *)
Definition flyOf (s : state) : bool := match stFiles s with [] => false | _ :: _ => true end.
Lemma amp_full s ms s' : addAmplitude s ms = Some (s', true) ->
  exists m0 ml e w fs total amps dec fx, ms = map Some (m0 :: ml) /\ (forall m, In m ml -> amName m = amName m0) /\
    m_find (amName m0) (stParams s) = Some (e, w) /\ countEvents (flyOf s) (stFiles s) (m0 :: ml) = (fs, total) /\ total <> 0 /\
    (stEvts s = 0 \/ stEvts s = total) /\ readAmps (flyOf s) fs (m0 :: ml) = Some amps /\
    copyAmps (stUse s) (stNormM s e w e w) e w 0 amps (stDec s) (Czero (stAccM s e w e w)) = Some (dec, fx, true) /\
    stDec s' = dec /\ stEvts s' = total /\ stFiles s' = fs /\ stPars s' = (if fx then fixWave (amName m0) (stPars s) else stPars s) /\
    (let hs := flat_map amHashes (m0 :: ml) in let order := match stOrder s with [] => hs | o => o end in checkOrder order hs = true /\ stOrder s' = order).
Proof.
  unfold addAmplitude. fold (flyOf s). intros H. destruct (negb (stAcc s)); [discriminate|].
  destruct (mapOpt (fun m => m) ms) as [[|m0 ml]|] eqn:E; try discriminate H.
  destruct (negb (forallb _ (m0 :: ml))) eqn:En; [discriminate|]. destruct (m_find (amName m0) (stParams s)) as [[e w]|] eqn:Ef; [|discriminate].
  cbv zeta in H. destruct (countEvents (flyOf s) (stFiles s) (m0 :: ml)) as [fs total] eqn:Ec.
  destruct (Nat.eqb_spec total 0) as [|Nz]; [discriminate|]. set (hs := flat_map amHashes (m0 :: ml)) in *.
  destruct (checkOrder _ hs) eqn:Eo in H; [|discriminate]. cbn [negb] in H.
  destruct (readAmps (flyOf s) fs (m0 :: ml)) as [amps|] eqn:Er; [|discriminate]. cbn [bnd] in H.
  set (evts := if stEvts s =? 0 then total else stEvts s) in *. destruct (Nat.eqb_spec total evts) as [Et|]; [|discriminate]. cbn [negb] in H.
  destruct (copyAmps _ _ _ _ _ _ _ _) as [[[dec fx] ok]|] eqn:Ep; [|discriminate]. cbn [bnd] in H. destruct ok; cbn [negb] in H; [|discriminate].
  apply (f_equal (fun x => match x with Some y => fst y | None => s end)) in H. cbn [fst] in H. subst s'.
  exists m0, ml, e, w, fs, total, amps, dec, fx. cbn [stDec stEvts stFiles stPars stOrder].
  split.
  { apply mapOpt_spec in E. clear - E. remember (m0 :: ml) as r. clear Heqr. induction E as [|x y l r X F IH]; [reflexivity|]. cbn [map]. now rewrite X, IH. }
  split.
  { apply negb_false_iff in En. rewrite forallb_forall in En. intros m Hm. apply str_eqb_eq. apply En. now right. }
  split; [exact Ef|]. split; [exact Ec|]. split; [exact Nz|]. split.
  { unfold evts in Et. destruct (Nat.eqb_spec (stEvts s) 0); auto. }
  split; [exact Er|]. split; [exact Ep|]. split; [reflexivity|]. split; [symmetry; exact Et|]. split; [reflexivity|]. split; [reflexivity|]. split; [exact Eo|reflexivity].
Qed.

(* the files recorded, over any history *)
Lemma amp_files s ms s' b : addAmplitude s ms = Some (s', b) -> stFiles s' = stFiles s \/ exists ml n, countEvents (flyOf s) (stFiles s) ml = (stFiles s', n).
Proof.
  unfold addAmplitude. fold (flyOf s). intros H. destruct (negb (stAcc s)); [injection H as <- <-; auto|].
  destruct (mapOpt (fun m => m) ms) as [[|m0 ml]|] eqn:E; try (injection H as <- <-; now left).
  destruct (negb (forallb _ (m0 :: ml))) eqn:En; [injection H as <- <-; now left|]. destruct (m_find (amName m0) (stParams s)) as [[e w]|] eqn:Ef; [|injection H as <- <-; now left].
  cbv zeta in H. destruct (countEvents (flyOf s) (stFiles s) (m0 :: ml)) as [fs total] eqn:Ec. right. exists (m0 :: ml), total. rewrite Ec.
  repeat (first [dcase H | progress cbn beta iota zeta in H]); try discriminate; apply (f_equal (fun x => match x with Some y => stFiles (fst y) | None => [] end)) in H; cbn in H; now rewrite H.
Qed.
Definition isBin (c : scall) : bool := match c with SBin _ _ => true | _ => false end.
Lemma binFiles_sorted bounds ms : forall fs, fsorted fs -> fsorted (fst (binFiles bounds ms fs)).
Proof. induction ms as [|[m|] ms IH]; intros fs S; cbn [binFiles fst]; auto. apply IH. now apply m_set_sorted. Qed.
Lemma exec_files s c s' b : exec s c = Some (s', b) -> fsorted (stFiles s) -> fsorted (stFiles s') /\
  (isBin c = false -> sameProps (stFiles s) (stFiles s') /\ (stFiles s <> [] -> stFiles s' <> [])).
Proof.
  intros H S. assert (K : stFiles s' = stFiles s -> fsorted (stFiles s') /\ (isBin c = false -> sameProps (stFiles s) (stFiles s') /\ (stFiles s <> [] -> stFiles s' <> []))).
  { intros ->. split; [exact S|]. intros _. split; [intros h; reflexivity|auto]. }
  destruct c; cbn [exec] in H.
  - apply K. apply init_flags in H. decompose [and] H. congruence.
  - apply K. unfold addNormIntegral in H. repeat dcase H; apply (f_equal (fun x => match x with Some y => stFiles (fst y) | None => [] end)) in H; cbn in H; congruence.
  - apply K. destruct (addAccIntegral s m over) as [[[s1 m1] b1]|] eqn:E; [|discriminate]. cbn [bnd fst snd] in H. injection H as <- <-.
    unfold addAccIntegral in E. cbv zeta in E. repeat dcase E; apply (f_equal (fun x => match x with Some y => stFiles (fst (fst y)) | None => [] end)) in E; cbn in E; congruence.
  - destruct (amp_files _ _ _ _ H) as [E|(ml & n & E)]; [now apply K|]. apply countEvents_spec in E as (S1 & P1 & N1 & _); auto.
  - apply K. apply finish_keeps in H. decompose [and] H. congruence.
  - injection H as H. unfold setOnTheFlyBinning in H. destruct (binFiles bounds ms (stFiles s)) as [fs ok] eqn:E. injection H as <- <-. cbn [stFiles withFiles].
    split; [|discriminate]. replace fs with (fst (binFiles bounds ms (stFiles s))) by (now rewrite E). now apply binFiles_sorted.
  - apply K. now injection H as <- <-.
Qed.
Lemma runs_sorted h s tr : runs h = Some (s, tr) -> fsorted (stFiles s).
Proof.
  revert h s tr. apply (runs_inv (fun s _ => fsorted (stFiles s))); [constructor|]. intros s tr c s' b I H. now apply (exec_files s c s' b H).
Qed.
Lemma runs_app h1 h2 s tr : runs (h1 ++ h2) = Some (s, tr) -> exists s1 tr1, runs h1 = Some (s1, tr1).
Proof. unfold runs. rewrite foldO_app. destruct (foldO _ h1 (fresh, [])) as [[s1 tr1]|]; [eauto|discriminate]. Qed.
Lemma runs_files h2 : forall h s1 tr1 s2 tr2, runs h = Some (s1, tr1) -> runs (h ++ h2) = Some (s2, tr2) -> (forall c, In c h2 -> isBin c = false) ->
  sameProps (stFiles s1) (stFiles s2) /\ (stFiles s1 <> [] -> stFiles s2 <> []).
Proof.
  induction h2 as [|c h2 IH] using rev_ind; intros h s1 tr1 s2 tr2 H1 H2 Hb.
  - rewrite app_nil_r, H1 in H2. injection H2 as <- <-. split; [intros g; reflexivity|auto].
  - rewrite app_assoc, runs_snoc in H2. destruct (runs (h ++ h2)) as [[sm trm]|] eqn:Em; [|discriminate]. cbn [bnd fst snd] in H2.
    destruct (exec sm c) as [[s' b]|] eqn:Ee; [|discriminate]. cbn [bnd fst snd] in H2. injection H2 as <- <-.
    destruct (IH h s1 tr1 sm trm H1 Em) as [P N]; [intros d Hd; apply Hb, in_or_app; now left|].
    destruct (exec_files _ _ _ _ Ee (runs_sorted _ _ _ Em)) as [_ X]. destruct (X (Hb c ltac:(apply in_or_app; right; now left))) as [P' N'].
    split; [intros g; now rewrite P', P|auto].
Qed.

(* what setOnTheFlyBinning records *)
Lemma eventIndices_filter bounds t : eventIndices bounds t = map fst (filter (fun p => useEvent bounds (snd p)) (List.combine (List.seq 0 (length t)) t)).
Proof.
  unfold eventIndices. assert (G : forall l acc, fold_left (fun acc '(k, ev) => if useEvent bounds ev then acc ++ [k] else acc) l acc = acc ++ map fst (filter (fun p : nat * smap R => useEvent bounds (snd p)) l)).
  { induction l as [|[k ev] l IH]; intros acc; cbn [fold_left filter snd map]; [now rewrite app_nil_r|]. rewrite IH. destruct (useEvent bounds ev); [cbn [map fst]; now rewrite <- app_assoc|reflexivity]. }
  apply G.
Qed.
Lemma binFiles_props bounds : forall l fs fs', fsorted fs -> NoDup (map emHash l) -> binFiles bounds (map Some l) fs = (fs', true) ->
  (forall m, In m l -> props (emHash m) fs' = (length (emTree m), eventIndices bounds (emTree m))) /\
  (forall h, ~ In h (map emHash l) -> props h fs' = props h fs) /\ (l <> [] \/ fs <> [] -> fs' <> []).
Proof.
  induction l as [|m l IH]; intros fs fs' S ND H; cbn [map binFiles] in H.
  - injection H as <-. split; [intros m []|]. split; [reflexivity|]. intros [X|X]; [now destruct X|exact X].
  - cbn [map] in ND. apply NoDup_cons_iff in ND as [Nm ND]. apply IH in H as (H1 & H2 & H3); [|now apply m_set_sorted|exact ND]. 
    assert (Pm : forall g, props g (m_set (emHash m) (length (emTree m), eventIndices bounds (emTree m)) fs) = if str_eqb g (emHash m) then (length (emTree m), eventIndices bounds (emTree m)) else props g fs).
    { intros g. unfold props. rewrite m_find_set by exact S. now destruct (str_eqb g (emHash m)). }
    split; [|split].
    + intros x [<-|Hx]; [|auto]. rewrite H2 by exact Nm. rewrite Pm. replace (str_eqb (emHash m) (emHash m)) with true by (symmetry; now apply str_eqb_eq). reflexivity.
    + intros g Ng. cbn [map] in Ng. rewrite H2 by (intros X; apply Ng; now right). rewrite Pm. destruct (str_eqb g (emHash m)) eqn:E; [|reflexivity]. apply str_eqb_eq in E. subst. exfalso. apply Ng. now left.
    + intros _. apply H3. right. intros Y. assert (X : In (emHash m) (map fst (m_set (emHash m) (length (emTree m), eventIndices bounds (emTree m)) fs))) by (apply m_set_keys; auto). rewrite Y in X. destruct X.
Qed.
