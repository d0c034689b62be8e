(* C44: merging event files *)
From Coq Require Import String Ascii List ZArith Reals Bool Lia Lra Sorting.Sorted.
From Verif Require Import PathModel StrModel CGBoxModel LikSetProofs EventMetaModel.
Import ListNotations.
Open Scope list_scope. Open Scope nat_scope.

(* ---- specification ---- *)
Definition keys {V} (m : smap V) : list str := map fst m.
Definition wellFormed (f : evtFile) : Prop := StronglySorted (@key_lt (R * R)) (efBins f) /\ StronglySorted (@key_lt R) (efAuxVals f).
Definition eventsOf (f : evtFile) : list event := match efTree f with Some t => trEvents t | None => [] end.
(* the file has a tree with both branches of momenta and the variables vars *)
Definition readable (vars : list str) (f : evtFile) : Prop :=
  exists t, efTree f = Some t /\ trProd t = true /\ trDecay t = true /\ forall v, In v vars -> In v (trBranch t).
(* the file fits to the first one *)
Definition fits (mergeBins : bool) (f0 f : evtFile) : Prop :=
  readable (efVars f0) f /\ efProd f = efProd f0 /\ efDecay f = efDecay f0 /\
  (if mergeBins then forall k, In k (keys (efBins f0)) -> In k (keys (efBins f)) else efBins f = efBins f0).
Definition auxAgree (fs : list evtFile) : Prop :=
  forall f g k x y, In f fs -> In g fs -> m_find k (efAuxVals f) = Some x -> m_find k (efAuxVals g) = Some y -> x = y.
(* the texts joined: a text is put behind ", " if there is one already *)
Definition joined (texts : list str) : str := fold_left appendAux texts [].
(* all numbers of the events, in order *)
Definition numbers (vars : list str) (evs : list event) : list R := flat_map (eventNumbers vars) evs.
(* the events with the momenta and the variables vars *)
Definition sameEvent (vars : list str) (e e' : event) : Prop :=
  evProd e' = evProd e /\ evDecay e' = evDecay e /\ forall v, In v vars -> evVar e' v = evVar e v.
(* lo and hi are the smallest and the largest boundary of variable k *)
Definition hullOf (fs : list evtFile) (k : str) (lo hi : R) : Prop :=
  (forall f l h, In f fs -> m_find k (efBins f) = Some (l, h) -> (lo <= l)%R /\ (h <= hi)%R) /\
  (exists f h, In f fs /\ m_find k (efBins f) = Some (lo, h)) /\ (exists f l, In f fs /\ m_find k (efBins f) = Some (l, hi)).

(* ---- lemmas ---- *)
Lemma list_eqb_iff a : forall b, list_eqb a b = true <-> a = b.
Proof.
  induction a as [|x a IH]; intros [|y b]; cbn; try (split; [discriminate|discriminate]); [tauto|].
  rewrite andb_true_iff, IH, str_eqb_eq. split; [intros [-> ->]; reflexivity|intros E; injection E as -> ->; auto].
Qed.
Lemma decRb_iff x y : decRb x y = true <-> x = y. Proof. unfold decRb. destruct (Req_EM_T x y); intuition congruence. Qed.
Lemma bins_eqb_iff a : forall b, bins_eqb a b = true <-> a = b.
Proof.
  unfold bins_eqb. induction a as [|[k [l u]] a IH]; intros [|[k' [l' u']] b]; cbn [length Nat.eqb List.combine forallb andb]; try (split; [discriminate|discriminate]); [tauto|].
  specialize (IH b). rewrite andb_true_iff in IH. rewrite !andb_true_iff, str_eqb_eq, !decRb_iff.
  split; [intros (A & ((-> & ->) & ->) & B); f_equal; apply IH; auto|]. intros E. injection E as -> -> -> ->. destruct (proj2 IH eq_refl). auto.
Qed.
Lemma hasAll_iff vars t : hasAll vars t = true <-> forall v, In v vars -> In v (trBranch t).
Proof.
  unfold hasAll. rewrite forallb_forall. split; intros H v Hv; specialize (H v Hv).
  - apply existsb_exists in H as (w & Hw & E). apply str_eqb_eq in E. now subst.
  - apply existsb_exists. exists v. split; [exact H|]. now apply str_eqb_eq.
Qed.
Lemma m_find_key {V} k (m : smap V) : (exists v, m_find k m = Some v) <-> In k (keys m).
Proof.
  destruct (m_find k m) eqn:E.
  - split; [|eauto]. intros _. destruct (in_dec (list_eq_dec ascii_dec) k (keys m)) as [|N]; [assumption|]. apply m_find_none in N. congruence.
  - split; [intros [? ?]; discriminate|]. apply m_find_none in E. contradiction.
Qed.

(* the hull *)
Definition lo_ (x y : R) : R := if Rlt_dec x y then x else y.
Definition hi_ (x y : R) : R := if Rlt_dec y x then x else y.
Lemma hull_spec merged new : (exists r, hull merged new = Some r) <-> (forall k, In k (keys merged) -> In k (keys new)).
Proof.
  induction merged as [|[k [lo hi]] m IH]; cbn [hull keys map fst]; [split; [intros _ k []|eauto]|].
  destruct (m_find k new) as [[lo' hi']|] eqn:E.
  - split.
    + intros [r H]. destruct (hull m new) as [r'|] eqn:E'; [|discriminate]. intros k' [<-|Hk]; [apply m_find_key; eauto|]. apply IH; eauto.
    + intros H. destruct (proj2 IH) as [r' ->]; [intros k' Hk; apply H; now right|]. cbn [bnd]. eauto.
  - split; [intros [? ?]; discriminate|]. intros H. exfalso. apply m_find_none in E. apply E, H. now left.
Qed.
Lemma hull_find merged new r : hull merged new = Some r -> keys r = keys merged /\
  forall k, m_find k r = match m_find k merged, m_find k new with Some (lo, hi), Some (lo', hi') => Some (lo_ lo' lo, hi_ hi' hi) | _, _ => None end.
Proof.
  revert r. induction merged as [|[k [lo hi]] m IH]; intros r H; cbn [hull] in H; [injection H as <-; auto|].
  destruct (m_find k new) as [[lo' hi']|] eqn:E; [|discriminate]. destruct (hull m new) as [r'|]; [|discriminate]. cbn [bnd] in H. injection H as <-.
  destruct (IH r' eq_refl) as [K V]. split; [cbn [keys map fst]; unfold keys in K; now rewrite K|]. intros q. cbn [m_find].
  destruct (str_eqb q k) eqn:Q; [|apply V]. apply str_eqb_eq in Q. subst q. rewrite E. reflexivity.
Qed.

(* the boundaries after a list of files *)
Definition hulls (fs : list evtFile) (b : smap (R * R)) : option (smap (R * R)) := foldO (fun f b => hull b (efBins f)) fs b.
Lemma hulls_some fs : forall b, (exists r, hulls fs b = Some r) <-> (forall f k, In f fs -> In k (keys b) -> In k (keys (efBins f))).
Proof.
  unfold hulls. induction fs as [|f fs IH]; intros b; cbn [foldO]; [split; [intros _ f k []|eauto]|]. destruct (hull b (efBins f)) as [b1|] eqn:E; cbn [bnd].
  - pose proof (proj1 (hull_find _ _ _ E)) as K. pose proof (proj1 (hull_spec b (efBins f)) (ex_intro _ _ E)) as K2. rewrite IH. rewrite K. split.
    + intros H g k [<-|Hg] Hk; [auto|now apply H].
    + intros H g k Hg. apply H. now right.
  - split; [intros [? ?]; discriminate|]. intros H. exfalso. destruct (proj2 (hull_spec b (efBins f))) as [r Er]; [intros k; apply H; now left|congruence].
Qed.
Lemma hulls_find fs : forall b r, hulls fs b = Some r -> keys r = keys b /\ forall k lo hi, m_find k r = Some (lo, hi) -> exists l0 h0, m_find k b = Some (l0, h0) /\
  (lo <= l0)%R /\ (h0 <= hi)%R /\ (forall f l h, In f fs -> m_find k (efBins f) = Some (l, h) -> (lo <= l)%R /\ (h <= hi)%R) /\
  (lo = l0 \/ exists f h, In f fs /\ m_find k (efBins f) = Some (lo, h)) /\ (hi = h0 \/ exists f l, In f fs /\ m_find k (efBins f) = Some (l, hi)).
Proof.
  unfold hulls. induction fs as [|f fs IH]; intros b r H; cbn [foldO] in H.
  - injection H as <-. split; [reflexivity|]. intros k lo hi Hk. exists lo, hi. split; [exact Hk|]. split; [lra|]. split; [lra|]. split; [intros f l h []|]. split; now left.
  - destruct (hull b (efBins f)) as [b1|] eqn:E; [|discriminate]. cbn [bnd] in H. destruct (hull_find _ _ _ E) as [K V]. destruct (IH b1 r H) as [K1 V1]. split; [congruence|].
    intros k lo hi Hk. destruct (V1 k lo hi Hk) as (l1 & h1 & A1 & A2 & A3 & A4 & A5 & A6). rewrite V in A1.
    destruct (m_find k b) as [[l0 h0]|]; [|discriminate]. destruct (m_find k (efBins f)) as [[lf hf]|] eqn:Ef; [|discriminate]. injection A1 as <- <-.
    exists l0, h0. split; [reflexivity|]. unfold lo_, hi_ in *. destruct (Rlt_dec lf l0), (Rlt_dec h0 hf); (split; [lra|]); (split; [lra|]); (split; [
      intros g l h [<-|Hg] Hl; [rewrite Ef in Hl; injection Hl as <- <-; lra|eapply A4; eauto]|]);
      (split; [destruct A5 as [A5|(g & h & Hg & Eg)]; [|right; exists g, h; split; [now right|exact Eg]] | destruct A6 as [A6|(g & l & Hg & Eg)]; [|right; exists g, l; split; [now right|exact Eg]]]);
      subst; first [left; reflexivity | right; exists f, hf; split; [now left|exact Ef] | right; exists f, lf; split; [now left|exact Ef]].
Qed.

(* auxiliary values *)
Lemma mergeAux_spec new : forall cur, StronglySorted (@key_lt R) cur -> NoDup (keys new) ->
  ((exists r, mergeAux cur new = Some r) <-> (forall k x y, m_find k cur = Some x -> m_find k new = Some y -> x = y)) /\
  forall r, mergeAux cur new = Some r -> StronglySorted (@key_lt R) r /\ forall k, m_find k r = match m_find k cur with Some x => Some x | None => m_find k new end.
Proof.
  unfold mergeAux. induction new as [|[k0 v0] new IH]; intros cur S ND; cbn [foldO].
  - split; [split; [intros _ k x y _ H; discriminate|eauto]|]. intros r H. injection H as <-. split; [exact S|]. intros k. now destruct (m_find k cur).
  - cbn [keys map fst] in ND. apply NoDup_cons_iff in ND as [N0 ND].
    assert (Nf : forall k, m_find k ((k0, v0) :: new) = if str_eqb k k0 then Some v0 else m_find k new) by reflexivity.
    assert (N0' : m_find k0 new = None) by now apply m_find_none.
    destruct (m_find k0 cur) as [w|] eqn:E.
    + destruct (Req_EM_T w v0) as [->|Hw]; cbn [bnd].
      * destruct (IH cur S ND) as [I1 I2]. split.
        -- rewrite I1. split; intros H k x y Hx Hy; [rewrite Nf in Hy|].
           ++ destruct (str_eqb k k0) eqn:Q; [apply str_eqb_eq in Q; subst; congruence|eauto].
           ++ apply (H k x y Hx). rewrite Nf. destruct (str_eqb k k0) eqn:Q; [apply str_eqb_eq in Q; subst; congruence|exact Hy].
        -- intros r Hr. destruct (I2 r Hr) as [S' V]. split; [exact S'|]. intros k. rewrite V, Nf. destruct (m_find k cur) eqn:Ek; [reflexivity|]. destruct (str_eqb k k0) eqn:Q; [apply str_eqb_eq in Q; subst; congruence|reflexivity].
      * split; [|discriminate]. split; [intros [? ?]; discriminate|]. intros H. exfalso. apply Hw. apply (H k0 w v0 E). rewrite Nf, str_eqb_refl. reflexivity.
    + cbn [bnd]. destruct (IH (m_set k0 v0 cur) (m_set_sorted _ _ _ S) ND) as [I1 I2]. split.
      * rewrite I1. split; intros H k x y Hx Hy.
        -- rewrite Nf in Hy. destruct (str_eqb k k0) eqn:Q; [apply str_eqb_eq in Q; subst; congruence|]. apply (H k x y); [|exact Hy]. rewrite m_find_set, Q by exact S. exact Hx.
        -- rewrite m_find_set in Hx by exact S. destruct (str_eqb k k0) eqn:Q; [apply str_eqb_eq in Q; subst; congruence|]. apply (H k x y Hx). rewrite Nf, Q. exact Hy.
      * intros r Hr. destruct (I2 r Hr) as [S' V]. split; [exact S'|]. intros k. rewrite V, Nf, m_find_set by exact S. destruct (str_eqb k k0) eqn:Q; [|reflexivity]. apply str_eqb_eq in Q. subst. now rewrite E.
Qed.
Lemma sorted_NoDup {V} (m : smap V) : StronglySorted (@key_lt V) m -> NoDup (keys m).
Proof.
  induction 1 as [|[k v] m S IH F]; cbn [keys map fst]; constructor; [|exact IH]. intros Hk. apply in_map_iff in Hk as ([k2 v2] & E & Hk). cbn in E. subst k2.
  rewrite Forall_forall in F. specialize (F _ Hk). unfold key_lt in F. cbn in F. rewrite str_ltb_irrefl in F. discriminate.
Qed.
Definition auxs (fs : list evtFile) (a : smap R) : option (smap R) := foldO (fun f a => mergeAux a (efAuxVals f)) fs a.
Lemma auxs_spec fs : forall a, StronglySorted (@key_lt R) a -> Forall wellFormed fs ->
  ((exists r, auxs fs a = Some r) <-> auxAgree fs /\ (forall f k x y, In f fs -> m_find k a = Some x -> m_find k (efAuxVals f) = Some y -> x = y)) /\
  forall r, auxs fs a = Some r -> forall k x, m_find k r = Some x <-> m_find k a = Some x \/ (m_find k a = None /\ exists f, In f fs /\ m_find k (efAuxVals f) = Some x).
Proof.
  unfold auxs. induction fs as [|f fs IH]; intros a S W; cbn [foldO].
  - split; [split; [intros _; split; [intros f g k x y []|intros f k x y []]|eauto]|]. intros r H k x. injection H as <-. split; [auto|]. intros [H|[_ (f & [] & _)]]. exact H.
  - apply Forall_cons_iff in W as [[_ Wf] W]. destruct (mergeAux_spec (efAuxVals f) a S (sorted_NoDup _ Wf)) as [M1 M2]. destruct (mergeAux a (efAuxVals f)) as [a1|] eqn:E; cbn [bnd].
    + destruct (M2 a1 eq_refl) as [S1 V1]. destruct (IH a1 S1 W) as [I1 I2]. assert (M0 : forall k x y, m_find k a = Some x -> m_find k (efAuxVals f) = Some y -> x = y) by (apply M1; eauto). split.
      * rewrite I1. split; intros [H1 H2]; split.
        -- intros g g' k x y [<-|Hg] [<-|Hg'] Hx Hy; [congruence| | |exact (H1 g g' k x y Hg Hg' Hx Hy)].
           ++ destruct (m_find k a) as [z|] eqn:Ea.
              ** assert (z = x) by eauto. subst. apply (H2 g' k x y Hg'); [|exact Hy]. now rewrite V1, Ea.
              ** apply (H2 g' k x y Hg'); [|exact Hy]. now rewrite V1, Ea.
           ++ symmetry. destruct (m_find k a) as [z|] eqn:Ea.
              ** assert (z = y) by eauto. subst. apply (H2 g k y x Hg); [|exact Hx]. now rewrite V1, Ea.
              ** apply (H2 g k y x Hg); [|exact Hx]. now rewrite V1, Ea.
        -- intros g k x y [<-|Hg] Hx Hy; [eauto|]. apply (H2 g k x y Hg); [|exact Hy]. now rewrite V1, Hx.
        -- intros g g' k x y Hg Hg'. apply H1; now right.
        -- intros g k x y Hg Hx Hy. rewrite V1 in Hx. destruct (m_find k a) as [z|] eqn:Ea; [injection Hx as ->; exact (H2 g k x y (or_intror Hg) Ea Hy)|]. exact (H1 f g k x y (or_introl eq_refl) (or_intror Hg) Hx Hy).
      * intros r Hr k x. rewrite (I2 r Hr k x). rewrite V1. destruct (m_find k a) as [z|] eqn:Ea.
        -- split; [intros [H|[H _]]; [now left|discriminate]|]. intros [H|[H _]]; [now left|discriminate].
        -- split.
           ++ intros [H|[H (g & Hg & Eg)]]; right; (split; [reflexivity|]); [exists f; split; [now left|exact H]|exists g; split; [now right|exact Eg]].
           ++ intros [H|[_ (g & [<-|Hg] & Eg)]]; [discriminate|now left|]. destruct (m_find k (efAuxVals f)) as [z|] eqn:Ef; [left|right; eauto].
              f_equal. assert (X : auxAgree fs /\ (forall f k x y, In f fs -> m_find k a1 = Some x -> m_find k (efAuxVals f) = Some y -> x = y)) by (apply I1; eauto).
              eapply (proj2 X g k); eauto. now rewrite V1, Ea, Ef.
    + split; [|discriminate]. split; [intros [? ?]; discriminate|]. intros [H1 H2]. exfalso. destruct (proj2 M1) as [r Er]; [|discriminate]. intros k x y Hx Hy. eapply H2; eauto. now left.
Qed.

(* all steps after the first *)
Definition okFile (mb : bool) (m f : evtFile) : Prop :=
  readable (efVars m) f /\ efProd f = efProd m /\ efDecay f = efDecay m /\ (mb = false -> efBins f = efBins m).
Lemma merge_fold mb mas mv fs : forall m bins h evs s', 
  foldO (mergeStep mb mas mv) fs (MS m false bins h evs) = Some s' <->
  Forall (okFile mb m) fs /\ exists bins' av, (if mb then hulls fs bins else Some bins) = Some bins' /\ (if mv then auxs fs (efAuxVals m) else Some (efAuxVals m)) = Some av /\
    s' = MS (EF (if mas then fold_left appendAux (map efAux fs) (efAux m) else efAux m) (efHash m) (efType m) (efProd m) (efDecay m) (efBins m) (efVars m) av (efTree m)) false bins'
            (h ++ flat_map (fun f => numbers (efVars m) (eventsOf f)) fs) (evs ++ flat_map (fun f => map (project (efVars m)) (eventsOf f)) fs).
Proof.
  induction fs as [|f fs IH]; intros m bins h evs s'; cbn [foldO].
  - destruct m as [aux hs ty pr de bi va av tr]. cbn [efAux efHash efType efProd efDecay efBins efVars efAuxVals efTree map fold_left flat_map]. rewrite !app_nil_r. split.
    + intros H. injection H as <-. split; [constructor|]. exists bins, av. split; [now destruct mb|]. split; [now destruct mv|]. now destruct mas.
    + intros (_ & b' & av' & H1 & H2 & ->). f_equal. assert (b' = bins) by (destruct mb; cbn in H1; congruence). assert (av' = av) by (destruct mv; cbn in H2; congruence). subst. now destruct mas.
  - unfold mergeStep at 1. cbn [msFirst msM msBins msHash msTree]. destruct (efTree f) as [t|] eqn:Et.
    2:{ split; [discriminate|]. intros (F & _). apply Forall_cons_iff in F as [((t & E & _) & _) _]. congruence. }
    destruct (list_eqb (efProd m) (efProd f)) eqn:E1.
    2:{ cbn [negb bnd]. split; [discriminate|]. intros (F & _). apply Forall_cons_iff in F as [(_ & E & _) _]. rewrite E in E1. assert (list_eqb (efProd m) (efProd m) = true) by now apply list_eqb_iff. congruence. }
    destruct (list_eqb (efDecay m) (efDecay f)) eqn:E2.
    2:{ cbn [negb bnd]. split; [discriminate|]. intros (F & _). apply Forall_cons_iff in F as [(_ & _ & E & _) _]. rewrite E in E2. assert (list_eqb (efDecay m) (efDecay m) = true) by now apply list_eqb_iff. congruence. }
    cbn [negb bnd]. apply list_eqb_iff in E1, E2.
    destruct (if mb then hull bins (efBins f) else if bins_eqb (efBins m) (efBins f) then Some bins else None) as [bins1|] eqn:E3; cbn [bnd].
    2:{ split; [discriminate|]. intros (F & b' & av' & H1 & _). apply Forall_cons_iff in F as [(_ & _ & _ & E) _]. destruct mb.
        - unfold hulls in H1. cbn [foldO] in H1. rewrite E3 in H1. discriminate.
        - rewrite (E eq_refl) in E3. assert (bins_eqb (efBins m) (efBins m) = true) as Q by now apply bins_eqb_iff. rewrite Q in E3. discriminate. }
    destruct (trProd t && trDecay t && hasAll (efVars m) t) eqn:E4; cbn [negb].
    2:{ split; [discriminate|]. intros (F & _). apply Forall_cons_iff in F as [((t' & E & T1 & T2 & T3) & _) _]. rewrite Et in E. injection E as <-. rewrite T1, T2 in E4. cbn in E4. assert (hasAll (efVars m) t = true) by now apply hasAll_iff. congruence. }
    destruct (if mv then mergeAux (efAuxVals m) (efAuxVals f) else Some (efAuxVals m)) as [av1|] eqn:E5; cbn [bnd].
    2:{ split; [discriminate|]. intros (F & b' & av' & _ & H2 & _). destruct mv; [|discriminate]. unfold auxs in H2. cbn [foldO] in H2. rewrite E5 in H2. discriminate. }
    apply andb_true_iff in E4 as [E4 E4c]. apply andb_true_iff in E4 as [E4a E4b].
    rewrite IH. cbn [efAux efHash efType efProd efDecay efBins efVars efAuxVals efTree].
    assert (Ok : okFile mb m f). { split; [exists t; split; [exact Et|]; split; [exact E4a|]; split; [exact E4b|now apply hasAll_iff]|]. split; [auto|]. split; [auto|]. intros ->. destruct (bins_eqb (efBins m) (efBins f)) eqn:Q; [|discriminate]. symmetry. now apply bins_eqb_iff. }
    assert (Hev : eventsOf f = trEvents t) by (unfold eventsOf; now rewrite Et).
    cbn [map fold_left flat_map]. rewrite !app_assoc, Hev.
    assert (Hb : (if mb then hulls (f :: fs) bins else Some bins) = (if mb then hulls fs bins1 else Some bins1)). { destruct mb; [unfold hulls; cbn [foldO]; rewrite E3; reflexivity|]. destruct (bins_eqb (efBins m) (efBins f)); [now injection E3 as <-|discriminate]. }
    assert (Ha : (if mv then auxs (f :: fs) (efAuxVals m) else Some (efAuxVals m)) = (if mv then auxs fs av1 else Some av1)). { destruct mv; [unfold auxs; cbn [foldO]; rewrite E5; reflexivity|]. exact E5. }
    rewrite Hb, Ha. unfold numbers. split.
    + intros (F & b' & av' & H1 & H2 & H3). split; [constructor; assumption|]. exists b', av'. split; [exact H1|]. split; [exact H2|]. rewrite H3. now destruct mas.
    + intros (F & b' & av' & H1 & H2 & H3). apply Forall_cons_iff in F as [_ F]. split; [exact F|]. exists b', av'. split; [exact H1|]. split; [exact H2|]. rewrite H3. now destruct mas.
Qed.

Lemma merge_unfold digest mb mas mv f0 fs r : merge digest mb mas mv (f0 :: fs) = Some r <->
  exists s', foldO (mergeStep mb mas mv) (f0 :: fs) (MS (EF [] [] OTHER (efProd f0) (efDecay f0) (if mb then [] else efBins f0) (efVars f0) [] None) false (if mb then efBins f0 else []) [] []) = Some s' /\
    let m := msM s' in r = EF (efAux m) (digest (msHash s')) (efType m) (efProd m) (efDecay m) (if mb then msBins s' else efBins m) (efVars m) (efAuxVals m) (Some (Tr true true (efVars m) (msTree s'))).
Proof.
  assert (E : foldO (mergeStep mb mas mv) (f0 :: fs) (MS emptyMeta true [] [] []) = foldO (mergeStep mb mas mv) (f0 :: fs) (MS (EF [] [] OTHER (efProd f0) (efDecay f0) (if mb then [] else efBins f0) (efVars f0) [] None) false (if mb then efBins f0 else []) [] [])).
  { cbn [foldO]. unfold mergeStep at 1 3. cbn [msFirst msM emptyMeta efAux efHash efType efAuxVals efTree efBins msBins msHash msTree efProd efDecay efVars]. destruct (efTree f0); [|reflexivity]. now destruct mb. }
  unfold merge. rewrite E. set (X := foldO _ _ _). destruct X as [s'|]; cbn [bnd].
  - split; [intros H; injection H as <-; eauto|]. intros (s2 & H & ->). injection H as <-. reflexivity.
  - split; [discriminate|]. intros (s2 & H & _). discriminate.
Qed.
Lemma wf_self f0 fs : Forall wellFormed (f0 :: fs) -> wellFormed f0. Proof. intros H. now apply Forall_cons_iff in H. Qed.

(* C44: merge succeeds exactly if there is at least one file, every file can be read, has the
   same particle names and boundaries that fit, and auxiliary values agree if they are merged *)
Theorem C44_merge_iff : forall digest mb mas mv fs, Forall wellFormed fs ->
  ((exists r, merge digest mb mas mv fs = Some r) <->
   exists f0 rest, fs = f0 :: rest /\ (forall f, In f fs -> fits mb f0 f) /\ (mv = true -> auxAgree fs)).
Proof.
  intros digest mb mas mv [|f0 rest] W; [split; [intros [? ?]; discriminate|intros (? & ? & ? & _); discriminate]|].
  set (fs := f0 :: rest) in *. set (m0 := EF [] [] OTHER (efProd f0) (efDecay f0) (if mb then [] else efBins f0) (efVars f0) [] None).
  assert (A : (exists r, merge digest mb mas mv fs = Some r) <-> Forall (okFile mb m0) fs /\ (exists b, (if mb then hulls fs (if mb then efBins f0 else []) else Some (if mb then efBins f0 else [])) = Some b) /\ (exists av, (if mv then auxs fs [] else Some []) = Some av)).
  { split.
    - intros [r H]. apply merge_unfold in H as (s' & H & _). apply merge_fold in H as (F & b & av & H1 & H2 & _). split; [exact F|]. split; eauto.
    - intros (F & [b H1] & [av H2]). eexists. apply merge_unfold. eexists. split; [|reflexivity]. apply merge_fold. split; [exact F|]. exists b, av. split; [exact H1|]. split; [exact H2|]. reflexivity. }
  rewrite A. destruct (auxs_spec fs [] (SSorted_nil _) W) as [X _]. split.
  - intros (F & B & V). exists f0, rest. split; [reflexivity|]. rewrite Forall_forall in F. split.
    + intros f Hf. destruct (F f Hf) as (F1 & F2 & F3 & F4). split; [exact F1|]. split; [exact F2|]. split; [exact F3|]. destruct mb; [|exact (F4 eq_refl)].
      intros k. apply (proj1 (hulls_some fs (efBins f0)) B f k Hf).
    + intros ->. now apply X.
  - intros (f0' & rest' & E & Ft & Ag). assert (f0' = f0) by (unfold fs in E; congruence). subst f0'. split; [|split].
    + apply Forall_forall. intros f Hf. destruct (Ft f Hf) as (F1 & F2 & F3 & F4). split; [exact F1|]. split; [exact F2|]. split; [exact F3|]. intros ->. exact F4.
    + destruct mb; [|eauto]. apply hulls_some. intros f k Hf Hk. destruct (Ft f Hf) as (_ & _ & _ & F4). exact (F4 k Hk).
    + destruct mv; [|eauto]. apply X. split; [auto|]. intros f k x y _ H. discriminate.
Qed.

(* C44: what merge returns: all events in input order with the momenta and the variables of the
   first file, the digest of exactly these numbers, the particle names of all files *)
Theorem C44_merge_events : forall digest mb mas mv fs r, merge digest mb mas mv fs = Some r ->
  Forall2 (sameEvent (efVars r)) (flat_map eventsOf fs) (eventsOf r) /\
  efHash r = digest (numbers (efVars r) (flat_map eventsOf fs)) /\
  efHash r = recalculateHash digest r /\
  (forall f, In f fs -> efProd f = efProd r /\ efDecay f = efDecay r) /\
  (exists f0 rest, fs = f0 :: rest /\ efVars r = efVars f0) /\
  efAux r = (if mas then joined (map efAux fs) else []) /\
  efType r = OTHER.
Proof.
  intros digest mb mas mv [|f0 rest] r H; [discriminate|]. apply merge_unfold in H as (s' & H & ->). apply merge_fold in H as (F & b & av & H1 & H2 & ->).
  set (fs := f0 :: rest) in *. cbn [msM msBins msHash msTree efAux efHash efType efProd efDecay efBins efVars efAuxVals efTree app eventsOf trEvents].
  assert (P : Forall2 (sameEvent (efVars f0)) (flat_map eventsOf fs) (flat_map (fun f => map (project (efVars f0)) (eventsOf f)) fs)).
  { clear. induction fs as [|f fs IH]; cbn [flat_map]; [constructor|]. apply Forall2_app; [|exact IH]. induction (eventsOf f) as [|e l IHl]; cbn [map]; constructor; [|exact IHl].
    split; [reflexivity|]. split; [reflexivity|]. intros v Hv. cbn [project evVar]. replace (existsb (str_eqb v) (efVars f0)) with true; [reflexivity|]. symmetry. apply existsb_exists. exists v. split; [exact Hv|apply str_eqb_refl]. }
  assert (Nm : flat_map (fun f => numbers (efVars f0) (eventsOf f)) fs = numbers (efVars f0) (flat_map eventsOf fs)).
  { unfold numbers. clear. induction fs as [|f fs IH]; [reflexivity|]. cbn [flat_map]. now rewrite flat_map_app, IH. }
  split; [exact P|]. split; [now rewrite Nm|]. split.
  { unfold recalculateHash, updateHashor. cbn [efTree trProd trDecay efVars trEvents andb]. replace (hasAll (efVars f0) _) with true by (symmetry; apply hasAll_iff; auto). cbn [app].
    rewrite Nm. f_equal. unfold numbers. clear - P. induction P as [|e e' l l' (E1 & E2 & E3) P IH]; [reflexivity|]. cbn [flat_map]. rewrite <- IH. f_equal. unfold eventNumbers. rewrite E1, E2. do 2 f_equal. apply map_ext_in. intros v Hv. symmetry. now apply E3. }
  split. { intros f Hf. rewrite Forall_forall in F. destruct (F f Hf) as (_ & F2 & F3 & _). auto. }
  split; [exists f0, rest; auto|]. split; [now destruct mas|reflexivity].
Qed.

(* C44: the boundaries of the result: those of all files, or their hull in the variables of the first file *)
Theorem C44_merge_bins : forall digest mb mas mv fs r, merge digest mb mas mv fs = Some r ->
  (mb = false -> forall f, In f fs -> efBins r = efBins f) /\
  (mb = true -> (exists f0 rest, fs = f0 :: rest /\ keys (efBins r) = keys (efBins f0)) /\
     forall k lo hi, m_find k (efBins r) = Some (lo, hi) -> hullOf fs k lo hi).
Proof.
  intros digest mb mas mv [|f0 rest] r H; [discriminate|]. apply merge_unfold in H as (s' & H & ->). apply merge_fold in H as (F & b & av & H1 & H2 & ->).
  set (fs := f0 :: rest) in *. cbn [msM msBins msHash msTree efBins]. split; intros ->.
  - intros f Hf. rewrite Forall_forall in F. destruct (F f Hf) as (_ & _ & _ & F4). cbn [efBins] in F4. symmetry. now apply F4.
  - destruct (hulls_find _ _ _ H1) as [K V]. split; [exists f0, rest; auto|]. intros k lo hi Hk. destruct (V k lo hi Hk) as (l0 & h0 & A1 & A2 & A3 & A4 & A5 & A6). split; [exact A4|]. split.
    + destruct A5 as [->|A5]; [exists f0, h0; split; [now left|exact A1]|exact A5].
    + destruct A6 as [->|A6]; [exists f0, l0; split; [now left|exact A1]|exact A6].
Qed.

(* C44: an event in the bin of its file is in the merged bin *)
Theorem C44_merged_bin_contains : forall digest mas mv fs r f vars, merge digest true mas mv fs = Some r -> In f fs -> Forall wellFormed fs ->
  inBoundaries vars (efBins f) = true -> inBoundaries vars (efBins r) = true.
Proof.
  intros digest mas mv fs r f vars H Hf W Hb. destruct (C44_merge_bins _ _ _ _ _ _ H) as [_ B]. destruct (B eq_refl) as [(f0 & rest & E & K) V].
  destruct (proj1 (C44_merge_iff digest true mas mv fs W)) as (f0' & rest' & E' & Ft & _); [eauto|]. assert (f0' = f0) by congruence. subst f0'.
  assert (Sr : forall k lo hi, In (k, (lo, hi)) (efBins r) -> m_find k (efBins r) = Some (lo, hi)).
  { assert (ND : NoDup (keys (efBins r))). { rewrite K. apply sorted_NoDup. rewrite Forall_forall in W. apply W. rewrite E. now left. }
    clear - ND. induction (efBins r) as [|[q v] m IH]; intros k lo hi X; [destruct X|]; destruct X as [X|X]; cbn [m_find keys map fst] in *.
    - injection X as -> ->. now rewrite str_eqb_refl.
    - apply NoDup_cons_iff in ND as [Nq ND]. destruct (str_eqb k q) eqn:Q; [|now apply IH]. apply str_eqb_eq in Q. subst. exfalso. apply Nq. change q with (fst (q, (lo, hi))). now apply in_map. }
  unfold inBoundaries in *. rewrite forallb_forall in *. intros [k [lo hi]] Hk. destruct (V k lo hi (Sr _ _ _ Hk)) as (V1 & _).
  assert (Kf : In k (keys (efBins f))). { destruct (Ft f Hf) as (_ & _ & _ & F4). apply F4. rewrite <- K. change k with (fst (k, (lo, hi))). now apply in_map. }
  apply m_find_key in Kf as [[l h] Ef]. destruct (V1 f l h Hf Ef) as [L1 L2].
  assert (Hi : In (k, (l, h)) (efBins f)). { apply m_find_in; [|exact Ef]. rewrite Forall_forall in W. now apply W. }
  specialize (Hb _ Hi). cbn in Hb. destruct (m_find k vars) as [x|]; [|discriminate]. destruct (Rlt_dec x l); [discriminate|]. destruct (Rle_dec h x); [discriminate|].
  destruct (Rlt_dec x lo); [lra|]. destruct (Rle_dec hi x); [lra|reflexivity].
Qed.

(* C44: the auxiliary values are the union of those of the files *)
Theorem C44_merge_aux_values : forall digest mb mas mv fs r, merge digest mb mas mv fs = Some r -> Forall wellFormed fs ->
  forall k x, m_find k (efAuxVals r) = Some x <-> mv = true /\ exists f, In f fs /\ m_find k (efAuxVals f) = Some x.
Proof.
  intros digest mb mas mv [|f0 rest] r H W k x; [discriminate|]. apply merge_unfold in H as (s' & H & ->). apply merge_fold in H as (F & b & av & H1 & H2 & ->).
  cbn [msM efAuxVals] in *. destruct mv.
  - destruct (auxs_spec (f0 :: rest) [] (SSorted_nil _) W) as [_ X]. rewrite (X av H2 k x). cbn [m_find]. split; [intros [Y|[_ Y]]; [discriminate|auto]|]. intros [_ Y]. auto.
  - injection H2 as <-. split; [discriminate|]. intros [Y _]. discriminate.
Qed.

(* C44: merging in two steps gives the same events and the same hash as merging at once *)
Theorem C44_merge_in_two_steps : forall digest mb mas mv fs gs r1 r2 r r', merge digest mb mas mv fs = Some r1 -> merge digest mb mas mv gs = Some r2 ->
  efVars r2 = efVars r1 -> merge digest mb mas mv (fs ++ gs) = Some r -> merge digest mb mas mv [r1; r2] = Some r' ->
  efHash r' = efHash r /\ Forall2 (sameEvent (efVars r)) (eventsOf r) (eventsOf r').
Proof.
  intros digest mb mas mv fs gs r1 r2 r r' H1 H2 Hv H H'.
  destruct (C44_merge_events _ _ _ _ _ _ H1) as (P1 & _ & _ & _ & (a1 & b1 & E1 & V1) & _). destruct (C44_merge_events _ _ _ _ _ _ H2) as (P2 & _ & _ & _ & (a2 & b2 & E2 & V2) & _).
  destruct (C44_merge_events _ _ _ _ _ _ H) as (P & Hh & _ & _ & (a & b & E & V) & _). destruct (C44_merge_events _ _ _ _ _ _ H') as (P' & Hh' & _ & _ & (a' & b' & E' & V') & _).
  cbn [flat_map] in P', Hh'. rewrite app_nil_r in P', Hh'. injection E' as <- _. assert (Va : efVars r = efVars r1) by (rewrite E1 in E; cbn in E; injection E as <- _; congruence).
  rewrite V' in *. rewrite Va in *. rewrite Hv in *. rewrite flat_map_app in P, Hh.
  assert (Q : Forall2 (sameEvent (efVars r1)) (flat_map eventsOf fs ++ flat_map eventsOf gs) (eventsOf r1 ++ eventsOf r2)) by (now apply Forall2_app).
  split.
  - rewrite Hh, Hh'. f_equal. unfold numbers. clear - Q. induction Q as [|e e' l l' (Q1 & Q2 & Q3) Q IH]; [reflexivity|]. cbn [flat_map]. rewrite IH. f_equal. unfold eventNumbers. rewrite Q1, Q2. do 2 f_equal. apply map_ext_in. auto.
  - clear - P P' Q. revert P P'. generalize (eventsOf r) (eventsOf r'). induction Q as [|e e' l l' (Q1 & Q2 & Q3) Q IH]; intros m m' P P'; inversion P as [|? y ? ? (P1 & P2 & P3) PP]; inversion P' as [|? y' ? ? (R1 & R2 & R3) PP']; subst; constructor; [|auto].
    split; [congruence|]. split; [congruence|]. intros v Hv'. rewrite R3, P3, Q3 by exact Hv'. reflexivity.
Qed.

(* ---- examples ---- *)
Definition ev1 (x : R) : event := Ev [(x, 0%R, 0%R)] [] (fun _ => x).
Definition file1 (ty : eventsType) (bins : smap (R * R)) (x : R) : evtFile :=
  EF (lit "a"%string) [] ty [lit "pi-"%string] [] bins [lit "mass"%string] [] (Some (Tr true true [lit "mass"%string] [ev1 x])).
Definition bM (lo hi : R) : smap (R * R) := [(lit "mass"%string, (lo, hi))].
Definition bMT (lo hi : R) : smap (R * R) := [(lit "mass"%string, (lo, hi)); (lit "t"%string, (0%R, 1%R))].
Lemma file1_wf ty lo hi x : wellFormed (file1 ty (bM lo hi) x) /\ wellFormed (file1 ty (bMT lo hi) x).
Proof. split; split; cbn; repeat constructor. Qed.
Lemma file1_fits ty bins x f0 : efVars f0 = [lit "mass"%string] -> efProd f0 = [lit "pi-"%string] -> efDecay f0 = [] -> (forall k, In k (keys (efBins f0)) -> In k (keys bins)) -> fits true f0 (file1 ty bins x).
Proof.
  intros V P D B. split; [eexists; split; [reflexivity|]; split; [reflexivity|]; split; [reflexivity|]; rewrite V; auto|]. split; [now rewrite P|]. split; [now rewrite D|]. exact B.
Qed.
Example C44_ex : forall digest, exists r, merge digest true true true [file1 REAL (bM 0 1) 0; file1 REAL (bM 1 2) 1] = Some r /\ eventsOf r <> [] /\ efAux r = lit "a, a"%string.
Proof.
  intros digest. assert (W : Forall wellFormed [file1 REAL (bM 0 1) 0; file1 REAL (bM 1 2) 1]) by (constructor; [apply file1_wf|constructor; [apply file1_wf|constructor]]).
  destruct (proj2 (C44_merge_iff digest true true true _ W)) as [r H].
  - eexists. eexists. split; [reflexivity|]. split; [intros f [<-|[<-|[]]]; apply file1_fits; auto|]. intros _ f g k x y [<-|[<-|[]]] _ Hx; discriminate.
  - exists r. split; [exact H|]. destruct (C44_merge_events _ _ _ _ _ _ H) as (P & _ & _ & _ & _ & A & _). split; [|rewrite A; reflexivity]. intros N. rewrite N in P. inversion P.
Qed.

(* C44: the events type is lost: two files of real data give a file of type "other" *)
Theorem C44_type_refuted : forall digest mb mas mv, exists f g r, efType f = REAL /\ efType g = REAL /\ merge digest mb mas mv [f; g] = Some r /\ efType r <> REAL.
Proof.
  intros digest mb mas mv. exists (file1 REAL (bM 0 1) 0), (file1 REAL (bM 0 1) 1). 
  assert (W : Forall wellFormed [file1 REAL (bM 0 1) 0; file1 REAL (bM 0 1) 1]) by (constructor; [apply file1_wf|constructor; [apply file1_wf|constructor]]).
  destruct (proj2 (C44_merge_iff digest mb mas mv _ W)) as [r H].
  - eexists. eexists. split; [reflexivity|]. split.
    + intros f [<-|[<-|[]]]; (split; [eexists; split; [reflexivity|]; auto|]); (split; [reflexivity|]); (split; [reflexivity|]); destruct mb; auto.
    + intros _ f g k x y [<-|[<-|[]]] _ Hx; discriminate.
  - exists r. split; [reflexivity|]. split; [reflexivity|]. split; [exact H|]. destruct (C44_merge_events _ _ _ _ _ _ H) as (_ & _ & _ & _ & _ & _ & T). congruence.
Qed.

(* C44: binning variables of later files are ignored, those of the first are required: the result
   of merging with bin boundaries depends on the order of the files *)
Theorem C44_bin_order_refuted : forall digest mas mv, exists f g, Forall wellFormed [f; g] /\
  (exists r, merge digest true mas mv [f; g] = Some r /\ keys (efBins r) <> keys (efBins g)) /\ merge digest true mas mv [g; f] = None.
Proof.
  intros digest mas mv. exists (file1 REAL (bM 0 1) 0), (file1 REAL (bMT 0 1) 1).
  assert (W : Forall wellFormed [file1 REAL (bM 0 1) 0; file1 REAL (bMT 0 1) 1]) by (constructor; [apply file1_wf|constructor; [apply file1_wf|constructor]]).
  assert (W' : Forall wellFormed [file1 REAL (bMT 0 1) 1; file1 REAL (bM 0 1) 0]) by (constructor; [apply (file1_wf REAL 0 1)|constructor; [apply file1_wf|constructor]]).
  split; [exact W|]. split.
  - destruct (proj2 (C44_merge_iff digest true mas mv _ W)) as [r H].
    + eexists. eexists. split; [reflexivity|]. split; [intros f [<-|[<-|[]]]; apply file1_fits; auto; cbn; tauto|]. intros _ f g k x y [<-|[<-|[]]] _ Hx; discriminate.
    + exists r. split; [exact H|]. destruct (C44_merge_bins _ _ _ _ _ _ H) as [_ B]. destruct (B eq_refl) as [(f0 & rest & E & K) _]. injection E as <- _. rewrite K. discriminate.
  - destruct (merge digest true mas mv _) as [r|] eqn:E; [|reflexivity]. exfalso. destruct (proj1 (C44_merge_iff digest true mas mv _ W')) as (f0 & rest & E0 & Ft & _); [eauto|]. injection E0 as <- _.
    destruct (Ft (file1 REAL (bM 0 1) 0) (or_intror (or_introl eq_refl))) as (_ & _ & _ & B). destruct (B (lit "t"%string)) as [X|[]]; [right; now left|]. discriminate.
Qed.
