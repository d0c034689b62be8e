(* C91: the variables of the minimizer of the resonance fit. *)
From Coq Require Import String Ascii List ZArith Bool Reals Lia Lra.
From Coquelicot Require Import Complex.
From Verif Require Import PathModel StrModel DecModel CGBoxModel ParticleModel ParticleProps AmpIntModel ResCacheModel ResTransSpec ResTransProofs ResTransProps MinimModel MinimSpec MinimProofs.
Import ListNotations.
Open Scope list_scope. Open Scope nat_scope.

(* ---- lengths ---- *)
Lemma foldl_sum {A} (g : A -> nat) l : forall a, fold_left (fun n x => n + g x) l a = a + list_sum (map g l).
Proof. induction l as [|x l IH]; intros a; [cbn; lia|]. cbn [fold_left map]. rewrite IH. change (list_sum (g x :: map g l)) with (g x + list_sum (map g l)). lia. Qed.
Lemma foldl_ext {A B} (g h : A -> B -> A) l : (forall a x, g a x = h a x) -> forall a, fold_left g l a = fold_left h l a.
Proof. intros H. induction l as [|x l IH]; intros a; [reflexivity|]. cbn. now rewrite H, IH. Qed.
Lemma len_flat {A B} (g : A -> list B) l : length (flat_map g l) = list_sum (map (fun x => length (g x)) l).
Proof. induction l as [|x l IH]; [reflexivity|]. cbn [flat_map map]. rewrite app_length, IH. reflexivity. Qed.
Lemma list_sum_add {A} (g h : A -> nat) l : list_sum (map (fun x => g x + h x) l) = list_sum (map g l) + list_sum (map h l).
Proof. induction l as [|x l IH]; [reflexivity|]. cbn [map]. change (list_sum (?a :: ?b)) with (a + list_sum b). rewrite IH. lia. Qed.
Lemma list_sum_two {A} (g : A -> nat) l : list_sum (map (fun x => 2 * g x) l) = 2 * list_sum (map g l).
Proof. induction l as [|x l IH]; [reflexivity|]. cbn [map]. change (list_sum (?a :: ?b)) with (a + list_sum b). rewrite IH. lia. Qed.
Lemma foldl_fixed (l : list bool) : forall a, fold_left (fun n fx => if (fx : bool) then n else n + 2) l a = a + 2 * length (filter negb l).
Proof. induction l as [|x l IH]; intros a; [cbn; lia|]. cbn [fold_left]. rewrite IH. cbn [filter]. destruct x; cbn [negb length]; lia. Qed.
Lemma nFree_app l k : nFree (l ++ k) = nFree l + nFree k.
Proof. unfold nFree. now rewrite filter_app, app_length. Qed.
Lemma nFree_flat {A} (g : A -> list (nat * nat * bool)) l : nFree (flat_map g l) = list_sum (map (fun x => nFree (g x)) l).
Proof. induction l as [|x l IH]; [reflexivity|]. cbn [flat_map map]. rewrite nFree_app, IH. reflexivity. Qed.
Lemma nFree_comp o : nFree (compBran o) = length (filter negb (oFixed o)).
Proof.
  unfold compBran, nFree, upTo. generalize (oId o). intros i. generalize (oFixed o). intros l.
  assert (forall s g, (forall k, k < length l -> g (s + k) = nth k l true) -> length (filter (fun x : nat * nat * bool => negb (snd x)) (map (fun k => (i, k, g k)) (List.seq s (length l)))) = length (filter negb l)) as K.
  { induction l as [|x l IH]; intros s g H; [reflexivity|]. cbn [length List.seq map filter snd]. pose proof (H 0 ltac:(cbn; lia)) as H0. rewrite Nat.add_0_r in H0. cbn in H0. rewrite H0.
    assert (length (filter (fun x : nat * nat * bool => negb (snd x)) (map (fun k => (i, k, g k)) (List.seq (S s) (length l)))) = length (filter negb l)) as E.
    { apply IH. intros k Hk. replace (S s + k) with (s + S k) by lia. now rewrite H by (cbn; lia). }
    destruct x; cbn [negb length]; now rewrite E. }
  apply K. intros k _. reflexivity.
Qed.
Lemma firstn_nth_sum (l : list nat) b : list_sum (firstn b l) = list_sum (map (fun b' => nth b' l 0) (upTo b)).
Proof.
  unfold upTo. induction b as [|b IH]; [reflexivity|]. rewrite seq_S, map_app, list_sum_app, <- IH. cbn [Nat.add map]. change (list_sum [nth b l 0]) with (nth b l 0 + 0). rewrite Nat.add_0_r.
  clear IH. revert b. induction l as [|x l IH]; intros [|b]; try reflexivity.
  - cbn. lia.
  - change (x + list_sum (firstn (S b) l) = x + list_sum (firstn b l) + nth b l 0). rewrite IH. lia.
Qed.
Lemma flat_pos {A B} (g : A -> list B) l : forall j x r, nth_error l j = Some x -> r < length (g x) -> nth_error (flat_map g l) (list_sum (map (fun x => length (g x)) (firstn j l)) + r) = nth_error (g x) r.
Proof.
  induction l as [|y l IH]; intros [|j] x r H Hr; try discriminate.
  - injection H as ->. cbn [firstn map flat_map]. change (list_sum []) with 0. cbn [Nat.add]. now apply nth_error_app1.
  - cbn [firstn map flat_map]. change (list_sum (?a :: ?b)) with (a + list_sum b). rewrite nth_error_app2 by lia. replace (_ + _ + r - length (g y)) with (list_sum (map (fun x => length (g x)) (firstn j l)) + r) by lia. now apply IH.
Qed.

Section Fit.
Variables (f : fitModel) (nm : list nat) (mc : nat -> nat -> R) (nw nch nmass : nat).
Hypothesis WF : wfMin f nm mc nw nch nmass.
Notation md := (fmModel f).
Definition pos1 := 2 * length (couplingCells md).
Definition pos2 := pos1 + 2 * nFree (branchingCells md).
Definition pos3 := pos2 + length (flat_map compPars (mComps md)).

Lemma len_coup P rel : length (flat_map (coupVars f P rel) (couplingCells md)) = pos1.
Proof. apply len_flat2. intros x Hx. eapply coup_len; eauto. Qed.
Lemma len_bran P rel : length (flat_map (branVars f P rel) (branchingCells md)) = 2 * nFree (branchingCells md).
Proof. refine (proj1 (bran_flat f 0 P rel (branchingCells md) _)). intros x Hx. eapply bran_len; eauto. Qed.
Lemma len_par P rel : length (flat_map (parVars f P rel) (flat_map compPars (mComps md))) = length (flat_map compPars (mComps md)).
Proof. refine (proj1 (flat_single (parVars f P rel) _ _)). intros x Hx. eapply par_len; eauto. Qed.
Lemma fsmd_len1 P d b : mFsmd md = Some d -> b < (if fSame d then 1 else length (fFun d)) -> length (fsmdBin f P d b) = nth b (fNPar d) 0.
Proof.
  intros D Hb. unfold fsmdBin. destruct (flat_single (fun k => match nth_error (nth b (fmFsmd f) []) k with Some p => [Var (fsmdName b p) (pPar P (length (mComps md)) (nth b (fIndex d) 0 + k)) (parSetting (mpFixed p) p)] | None => [] end) (upTo (nth b (fNPar d) 0))) as [L _].
  - intros k Hk. apply in_upTo in Hk. pose proof (wmFsmd _ _ _ _ _ _ WF d D b Hb) as L. destruct (nth_error (nth b (fmFsmd f) []) k) eqn:E; [reflexivity|]. apply nth_error_None in E. lia.
  - rewrite L. unfold upTo. now rewrite seq_length.
Qed.
Lemma fsmd_nth P d b k p : mFsmd md = Some d -> b < (if fSame d then 1 else length (fFun d)) -> nth_error (nth b (fmFsmd f) []) k = Some p ->
  nth_error (fsmdVars f P) (list_sum (firstn b (fNPar d)) + k) = Some (Var (fsmdName b p) (pPar P (length (mComps md)) (nth b (fIndex d) 0 + k)) (parSetting (mpFixed p) p)).
Proof.
  intros D Hb Hp. pose proof (wmFsmd _ _ _ _ _ _ WF d D b Hb) as L. assert (k < nth b (fNPar d) 0) as Hk by (rewrite <- L; apply nth_error_Some; congruence).
  unfold fsmdVars. rewrite D, firstn_nth_sum.
  assert (nth_error (upTo (if fSame d then 1 else length (fFun d))) b = Some b) as Eb.
  { unfold upTo. rewrite (nth_error_nth' _ 0) by (now rewrite seq_length). now rewrite seq_nth. }
  pose proof (flat_pos (fsmdBin f P d) _ b b k Eb) as G. rewrite (fsmd_len1 P d b D Hb) in G. specialize (G Hk).
  assert (firstn b (upTo (if fSame d then 1 else length (fFun d))) = upTo b) as Ef.
  { unfold upTo. replace (if fSame d then 1 else length (fFun d)) with (b + ((if fSame d then 1 else length (fFun d)) - b)) by lia. rewrite seq_app, firstn_app, seq_length, Nat.sub_diag, firstn_O, app_nil_r. rewrite firstn_all2 by (rewrite seq_length; lia). reflexivity. }
  rewrite Ef in G. assert (map (fun x => length (fsmdBin f P d x)) (upTo b) = map (fun b' => nth b' (fNPar d) 0) (upTo b)) as Em.
  { apply map_ext_in. intros x Hx. apply in_upTo in Hx. apply fsmd_len1; [exact D|lia]. }
  rewrite Em in G. rewrite G. unfold fsmdBin. destruct (flat_single (fun k => match nth_error (nth b (fmFsmd f) []) k with Some p => [Var (fsmdName b p) (pPar P (length (mComps md)) (nth b (fIndex d) 0 + k)) (parSetting (mpFixed p) p)] | None => [] end) (upTo (nth b (fNPar d) 0))) as [_ S'].
  - intros k' Hk'. apply in_upTo in Hk'. destruct (nth_error (nth b (fmFsmd f) []) k') eqn:E; [reflexivity|]. apply nth_error_None in E. lia.
  - rewrite (S' k k); [now rewrite Hp|]. unfold upTo. rewrite (nth_error_nth' _ 0) by (now rewrite seq_length). now rewrite seq_nth.
Qed.
Lemma all_len P rel : length (allVars f P rel) = nrParameters f.
Proof.
  unfold allVars. rewrite !app_length, len_coup, len_bran, len_par. unfold nrParameters, pos1.
  rewrite (foldl_ext _ (fun n o => n + (oNPar o + (2 * length (compCoup o) + 2 * nFree (compBran o)))) (mComps md)).
  - rewrite foldl_sum. cbn [Nat.add]. unfold couplingCells, branchingCells. rewrite nFree_flat, !len_flat. rewrite !list_sum_add, !list_sum_two.
    assert (map (fun x => length (compPars x)) (mComps md) = map oNPar (mComps md)) as -> by (apply map_ext; intros o; unfold compPars, upTo; now rewrite map_length, seq_length).
    change (fun x => nFree (compBran x)) with (fun x => nFree (compBran x)).
    assert (length (fsmdVars f P) = match mFsmd md with None => 0 | Some d => fold_left (fun n b => n + nth b (fNPar d) 0) (upTo (if fSame d then 1 else length (fFun d))) 0 end) as ->.
    { unfold fsmdVars. destruct (mFsmd md) as [d|] eqn:D; [|reflexivity]. rewrite len_flat, foldl_sum. cbn [Nat.add]. f_equal. apply map_ext_in. intros b Hb. apply in_upTo in Hb. now apply fsmd_len1. }
    lia.
  - intros a o. rewrite foldl_fixed. cbn [Nat.add]. rewrite nFree_comp.
    rewrite (foldl_sum (fun ms => 2 * match nth_error (oChans o) ms with Some chan => length (getBins chan) | None => 0 end)). cbn [Nat.add]. rewrite list_sum_two.
    assert (list_sum (map (fun ms => match nth_error (oChans o) ms with Some chan => length (getBins chan) | None => 0 end) (oFromCoup o)) = length (compCoup o)) as ->; [|lia].
    unfold compCoup. rewrite (flat_map_index _ (fun ms => match nth_error (oChans o) ms with Some chan => map (fun b => (oId o, 0, b)) (getBins chan) | None => [] end) []) || rewrite len_flat.
    generalize (oFromCoup o). intros l. unfold upTo. assert (forall s (G : nat -> nat), (forall k ms, nth_error l k = Some ms -> G (s + k) = match nth_error (oChans o) ms with Some chan => length (getBins chan) | None => 0 end) ->
      list_sum (map (fun ms => match nth_error (oChans o) ms with Some chan => length (getBins chan) | None => 0 end) l) = list_sum (map G (List.seq s (length l)))) as K.
    { induction l as [|x l IH]; intros s G H; [reflexivity|]. cbn [map length List.seq]. change (list_sum (?a :: ?b)) with (a + list_sum b). rewrite <- (H 0 x eq_refl), Nat.add_0_r. f_equal. apply IH. intros k ms E. rewrite <- (H (S k) ms E). f_equal. lia. }
    apply K. intros k ms E. cbn [Nat.add]. rewrite E. destruct (nth_error (oChans o) ms); [now rewrite map_length|reflexivity].
Qed.
Lemma nth_coup P rel j x r : nth_error (couplingCells md) j = Some x -> r < 2 -> nth_error (allVars f P rel) (2 * j + r) = nth_error (coupVars f P rel x) r.
Proof.
  intros H Hr. unfold allVars. assert (j < length (couplingCells md)) by (apply nth_error_Some; congruence).
  rewrite nth_error_app1 by (rewrite len_coup; unfold pos1; lia). apply nth_flat2; auto. intros y Hy. eapply coup_len; eauto.
Qed.
Lemma nth_bran P rel j i k r : nth_error (branchingCells md) j = Some (i, k, false) -> r < 2 ->
  nth_error (allVars f P rel) (pos1 + 2 * nFree (firstn j (branchingCells md)) + r) = nth_error (branVars f P rel (i, k, false)) r.
Proof.
  intros H Hr. unfold allVars. rewrite nth_error_app2 by (rewrite len_coup; lia). rewrite len_coup. replace (_ + _ + r - pos1) with (2 * nFree (firstn j (branchingCells md)) + r) by lia.
  destruct (bran_flat f 0 P rel (branchingCells md)) as [_ G]; [intros x Hx; eapply bran_len; eauto|].
  pose proof (bran_len f nm mc nw nch nmass WF P rel (i, k, false) (nth_error_In _ _ H)) as L. cbn [snd] in L.
  assert (2 * nFree (firstn j (branchingCells md)) + r < 2 * nFree (branchingCells md)) as Lt.
  { rewrite <- (firstn_skipn j (branchingCells md)) at 2. rewrite nFree_app. destruct (skipn j (branchingCells md)) as [|y l] eqn:E.
    - rewrite <- (firstn_skipn j (branchingCells md)), E, app_nil_r in H. assert (j < length (firstn j (branchingCells md))) by (apply nth_error_Some; congruence). rewrite firstn_length in *. lia.
    - assert (y = (i, k, false)) as ->. { rewrite <- (firstn_skipn j (branchingCells md)), E in H. assert (j < length (branchingCells md)) by (apply nth_error_Some; intros F; rewrite <- (firstn_skipn j (branchingCells md)), E in F; congruence).
        rewrite nth_error_app2 in H by (rewrite firstn_length; lia). rewrite firstn_length, Nat.min_l, Nat.sub_diag in H by lia. now injection H. }
      change (nFree ((i, k, false) :: l)) with (S (nFree l)). lia. }
  rewrite nth_error_app1 by (rewrite len_bran; exact Lt). apply G; [exact H|lia].
Qed.
Lemma nth_par P rel j i k : nth_error (flat_map compPars (mComps md)) j = Some (i, k) -> nth_error (allVars f P rel) (pos2 + j) = nth_error (parVars f P rel (i, k)) 0.
Proof.
  intros H. unfold allVars. assert (j < length (flat_map compPars (mComps md))) by (apply nth_error_Some; congruence).
  rewrite nth_error_app2 by (rewrite len_coup; unfold pos2; lia). rewrite len_coup. rewrite nth_error_app2 by (rewrite len_bran; unfold pos2; lia). rewrite len_bran.
  replace (pos2 + j - pos1 - 2 * nFree (branchingCells md)) with j by (unfold pos2; lia). rewrite nth_error_app1 by (rewrite len_par; lia).
  apply flat_single; [|exact H]. intros x Hx. eapply par_len; eauto.
Qed.
Lemma nth_fsmd P rel j : nth_error (allVars f P rel) (pos3 + j) = nth_error (fsmdVars f P) j.
Proof.
  unfold allVars. rewrite nth_error_app2 by (rewrite len_coup; unfold pos3, pos2; lia). rewrite len_coup. rewrite nth_error_app2 by (rewrite len_bran; unfold pos3, pos2; lia). rewrite len_bran.
  rewrite nth_error_app2 by (rewrite len_par; unfold pos3, pos2; lia). rewrite len_par. f_equal. unfold pos3, pos2. lia.
Qed.

(* ---- anchors ---- *)
Lemma match_in b w i ch : In (w, i, ch) (anchorMatches f b) <-> w < length (nth b (mWaves md) []) /\ exists o c chan, nth_error (mComps md) i = Some o /\ nth_error (fmComps f) i = Some c /\
  nth_error (oChans o) ch = Some chan /\ chName chan = nth w (nth b (mWaves md) []) [] /\ nth b (fmAnchors f) ([], []) = (nth w (nth b (mWaves md) []) [], mcName c).
Proof.
  unfold anchorMatches. cbv zeta. rewrite in_flat_map. split.
  - intros (w' & Hw & H). apply in_upTo in Hw. apply in_flat_map in H as (i' & Hi & H). destruct (nth_error (mComps md) i') as [o|] eqn:E1; [|destruct H]. destruct (nth_error (fmComps f) i') as [c|] eqn:E2; [|destruct H].
    apply in_flat_map in H as (ch' & Hch & H). destruct (nth_error (oChans o) ch') as [chan|] eqn:E3; [|destruct H]. destruct (str_eqb _ _ && _ && _) eqn:E4; [|destruct H]. destruct H as [H|[]]. injection H as -> -> ->.
    apply andb_prop in E4 as [E4 E6]. apply andb_prop in E4 as [E4 E5]. apply str_eqb_eq in E4, E5, E6. split; [exact Hw|]. exists o, c, chan. split; [exact E1|]. split; [exact E2|]. split; [exact E3|]. split; [exact E4|].
    destruct (nth b (fmAnchors f) ([], [])) as [a1 a2]. cbn in E5, E6. congruence.
  - intros (Hw & o & c & chan & E1 & E2 & E3 & E4 & E5). exists w. split; [now apply in_upTo|]. apply in_flat_map. exists i. split; [apply in_upTo, nth_error_Some; congruence|]. rewrite E1, E2. apply in_flat_map. exists ch.
    split; [apply in_upTo, nth_error_Some; congruence|]. rewrite E3, E5. cbn [fst snd]. rewrite E4, !str_eqb_refl. now left.
Qed.
Lemma anchor_is b w i ch : anchorOf f b = Some (w, i, ch) -> anchorMatches f b = [(w, i, ch)].
Proof.
  unfold anchorOf. destruct (anchorMatches f b) as [|[[w' i'] ch'] [|]]; try discriminate. destruct (nth_error (mComps md) i'); [|discriminate]. destruct (_ =? _); [|discriminate]. now intros [= -> -> ->].
Qed.
Lemma chan_wave i o ms chan b : nth_error (mComps md) i = Some o -> nth_error (oChans o) ms = Some chan -> In b (getBins chan) -> b < length (mWaves md) /\ waveIdx chan b = lastIndex (chName chan) (nth b (mWaves md) []).
Proof.
  intros Ho Hc Hb. pose proof (wmFit _ _ _ _ _ _ WF) as W. pose proof (chan_bins md nm mc nw nch nmass W i o ms chan b Ho Hc Hb) as L. split; [now rewrite (wfBins _ _ _ _ _ _ W)|]. exact (chan_read md nm mc nw nch nmass W i o ms chan b Ho Hc L).
Qed.
Lemma isAnchor_iff i k b o c ms chan : accepted f -> In (i, k, b) (couplingCells md) -> nth_error (mComps md) i = Some o -> nth_error (fmComps f) i = Some c -> nth_error (oFromCoup o) k = Some ms ->
  nth_error (oChans o) ms = Some chan -> In b (getBins chan) -> (isAnchor f b (waveIdx chan b) i = true <-> isAnchorCoupling f b c chan).
Proof.
  intros A _ Ho Hc Hk Hch Hb. destruct (chan_wave i o ms chan b Ho Hch Hb) as [Lb Ew]. pose proof (proj1 (getBins_in chan b) Hb) as (w & Hw). rewrite Hw in Ew. symmetry in Ew. apply lastIndex_some in Ew as [Lw Nw].
  unfold isAnchor, isAnchorCoupling. rewrite Hw. destruct (anchorOf f b) as [[[w' i'] ch']|] eqn:E; [|exfalso; exact (A b Lb E)]. apply anchor_is in E. split.
  - intros H. apply andb_prop in H as [H1 H2]. apply Nat.eqb_eq in H1, H2. subst w' i'.
    assert (In (w, i, ch') (anchorMatches f b)) as HI by (rewrite E; now left). apply match_in in HI as (_ & o' & c' & chan' & E1 & E2 & E3 & E4 & E5). rewrite E5, Nw. congruence.
  - intros H. assert (In (w, i, ms) (anchorMatches f b)) as HI. { apply match_in. split; [exact Lw|]. exists o, c, chan. rewrite Nw. auto. }
    rewrite E in HI. destruct HI as [HI|[]]. injection HI as -> -> ->. now rewrite !Nat.eqb_refl.
Qed.
End Fit.
Definition listedIn (rel : str) (l : list str) : Prop := exists t, isWord rel t /\ In t l.
Lemma has_any rel l : existsb (has rel) l = true <-> listedIn rel l.
Proof. rewrite existsb_exists. split; intros (t & A & B); exists t; [apply has_word in B|apply has_word in A]; auto. Qed.

(* The release order of a step gives the minimizer exactly one variable for each parameter of the function *)
Theorem C91_variables f nm mc nw nch nmass P rel : wfMin f nm mc nw nch nmass -> exists vs, initParameters f P rel = Some vs /\ length vs = nrParameters f.
Proof. intros WF. exists (allVars f P rel). split; [eapply init_ok; eauto|]. eapply all_len; eauto. Qed.
(* Couplings: the variables 2j and 2j+1 start at the real and imaginary part, and are free if the order names all parameters,
   the couplings, those of the bin, or this one; the imaginary part of the anchor wave starts at zero and is always fixed *)
Theorem C91_couplings f nm mc nw nch nmass P rel vs : wfMin f nm mc nw nch nmass -> initParameters f P rel = Some vs ->
  forall j i k b o c chan, nth_error (couplingCells (fmModel f)) j = Some (i, k, b) -> coupChan f i k o c chan ->
  exists w re im, ((length (oFixed o) <= 1 /\ w = chName chan) \/ (1 < length (oFixed o) /\ exists d, cutAt (chName chan) w d)) /\
    let pre := lit "coupling__bin" ++ dec b in let name := pre ++ lit "__" ++ mcName c ++ lit "__" ++ w in
    let listed := listedIn rel [lit "*"; lit "coupling"; pre; name] in
    nth_error vs (2 * j) = Some re /\ nth_error vs (2 * j + 1) = Some im /\ vName re = name ++ lit "__real" /\ vName im = name ++ lit "__imag"
    /\ vStart re = fst (pCoup P i k b) /\ (listed -> vSet re = Free (1 / 10) None None) /\ (~ listed -> vSet re = Fixed)
    /\ (accepted f -> isAnchorCoupling f b c chan -> vStart im = 0%R /\ vSet im = Fixed)
    /\ (accepted f -> ~ isAnchorCoupling f b c chan -> vStart im = snd (pCoup P i k b) /\ vSet im = vSet re).
Proof.
  intros WF HV j i k b o c chan Hj (Ho & Hc & ms & Hk & Hch). rewrite (init_ok f nm mc nw nch nmass WF) in HV. injection HV as <-.
  pose proof (nth_coup f nm mc nw nch nmass WF P rel j (i, k, b) 0 Hj ltac:(lia)) as N0. pose proof (nth_coup f nm mc nw nch nmass WF P rel j (i, k, b) 1 Hj ltac:(lia)) as N1. rewrite Nat.add_0_r in N0.
  unfold coupVars in N0, N1. rewrite Ho, Hc, Hk, Hch in N0, N1. cbn [nth_error] in N0, N1. eexists (if 1 <? length (oFixed o) then beforeEq (chName chan) else chName chan), _, _. split.
  { destruct (Nat.ltb_spec 1 (length (oFixed o))); [right; split; [assumption|]; exists (afterEq (chName chan)); apply cut_ok|left; auto]. }
  cbv zeta. split; [exact N0|]. split; [exact N1|]. cbn [vName vStart vSet].
  assert (coupName o c chan b = (lit "coupling__bin" ++ dec b) ++ lit "__" ++ mcName c ++ lit "__" ++ (if 1 <? length (oFixed o) then beforeEq (chName chan) else chName chan)) as EN by (unfold coupName; now rewrite <- !app_assoc).
  rewrite EN. split; [reflexivity|]. split; [reflexivity|]. split; [reflexivity|].
  assert (coupFree rel o c chan b = true <-> listedIn rel [lit "*"; lit "coupling"; lit "coupling__bin" ++ dec b; coupName o c chan b]) as HL.
  { rewrite <- has_any. unfold coupFree. cbn [existsb]. now rewrite orb_false_r, !orb_assoc. }
  rewrite EN in HL. split; [intros L; apply HL in L; now rewrite L|]. split.
  { intros L. destruct (coupFree rel o c chan b); [exfalso; apply L; now apply HL|reflexivity]. }
  pose proof (nth_error_In _ _ Hj) as HIn. destruct (coupCell_ok f nm mc nw nch nmass WF i k b HIn) as (o' & c' & ms' & chan' & E1 & E2 & E3 & E4 & E5).
  assert (chan' = chan) as -> by congruence. split.
  - intros A HA. apply (isAnchor_iff f nm mc nw nch nmass WF i k b o c ms chan A HIn Ho Hc Hk Hch E5) in HA. now rewrite HA.
  - intros A HA. destruct (isAnchor f b (waveIdx chan b) i) eqn:EA; [exfalso; apply HA; now apply (isAnchor_iff f nm mc nw nch nmass WF i k b o c ms chan A HIn Ho Hc Hk Hch E5)|]. auto.
Qed.
(* Branchings that are not fixed to one *)
Theorem C91_branchings f nm mc nw nch nmass P rel vs : wfMin f nm mc nw nch nmass -> initParameters f P rel = Some vs ->
  forall j i k o c chan, nth_error (branchingCells (fmModel f)) j = Some (i, k, false) -> branChan f i k o c chan ->
  exists w d re im, cutAt (chName chan) w d /\
    let at_ := 2 * length (couplingCells (fmModel f)) + 2 * nFree (firstn j (branchingCells (fmModel f))) in
    let name := lit "branching__" ++ mcName c ++ lit "__" ++ w ++ lit "__" ++ d in let listed := listedIn rel [lit "*"; lit "branching"; name] in
    nth_error vs at_ = Some re /\ nth_error vs (at_ + 1) = Some im /\ vName re = name ++ lit "__real" /\ vName im = name ++ lit "__imag"
    /\ vStart re = fst (pBran P i k) /\ vStart im = snd (pBran P i k) /\ vSet im = vSet re /\ (listed -> vSet re = Free (1 / 10) None None) /\ (~ listed -> vSet re = Fixed).
Proof.
  intros WF HV j i k o c chan Hj (Ho & Hc & ms & Hk & Hch). rewrite (init_ok f nm mc nw nch nmass WF) in HV. injection HV as <-.
  pose proof (nth_bran f nm mc nw nch nmass WF P rel j i k 0 Hj ltac:(lia)) as N0. pose proof (nth_bran f nm mc nw nch nmass WF P rel j i k 1 Hj ltac:(lia)) as N1. rewrite Nat.add_0_r in N0.
  unfold branVars in N0, N1. rewrite Ho, Hc, Hk, Hch in N0, N1. cbn [nth_error] in N0, N1. eexists (beforeEq (chName chan)), (afterEq (chName chan)), _, _. split; [apply cut_ok|].
  cbv zeta. split; [exact N0|]. split; [exact N1|]. cbn [vName vStart vSet]. do 5 (split; [reflexivity|]).
  assert (branFree rel c chan = true <-> listedIn rel [lit "*"; lit "branching"; branName c chan]) as HL. { rewrite <- has_any. unfold branFree. cbn [existsb]. now rewrite orb_false_r, !orb_assoc. }
  split; [intros L; apply HL in L; now rewrite L|]. intros L. destruct (branFree rel c chan); [exfalso; apply L; now apply HL|reflexivity].
Qed.
(* Parameters of the components: free if the order names all parameters, the component, the parameter or both, and if the
   parameter is not fixed; with its step and limits *)
Theorem C91_parameters f nm mc nw nch nmass P rel vs : wfMin f nm mc nw nch nmass -> initParameters f P rel = Some vs ->
  forall j i k c p, nth_error (flat_map compPars (mComps (fmModel f))) j = Some (i, k) -> nth_error (fmComps f) i = Some c -> nth_error (mcPars c) k = Some p ->
  let name := mcName c ++ lit "__" ++ mpName p in let listed := listedIn rel [lit "*"; mcName c; mpName p; name] in
  exists v, nth_error vs (2 * length (couplingCells (fmModel f)) + 2 * nFree (branchingCells (fmModel f)) + j) = Some v
    /\ vName v = name /\ vStart v = pPar P i k /\ (mpFixed p = false /\ listed -> vSet v = Free (mpStep p) (mpLow p) (mpUp p)) /\ (mpFixed p = true \/ ~ listed -> vSet v = Fixed).
Proof.
  intros WF HV j i k c p Hj Hc Hp name listed. rewrite (init_ok f nm mc nw nch nmass WF) in HV. injection HV as <-. pose proof (nth_par f nm mc nw nch nmass WF P rel j i k Hj) as N.
  unfold parVars in N. rewrite Hc, Hp in N. cbn [nth_error] in N. eexists. split; [exact N|]. cbn [vName vStart vSet]. split; [reflexivity|]. split; [reflexivity|].
  assert (parFree rel c p = true <-> listed) as HL. { unfold listed. rewrite <- has_any. unfold parFree. cbn [existsb]. now rewrite orb_false_r, !orb_assoc. }
  split.
  - intros [F L]. apply HL in L. rewrite F, L. cbn [negb parSetting]. destruct (mpLow p), (mpUp p); reflexivity.
  - intros [F|L]; [now rewrite F|]. destruct (parFree rel c p); [exfalso; apply L; now apply HL|]. now destruct (mpFixed p).
Qed.
(* Parameters of the final-state mass dependence: free unless they are fixed *)
Theorem C91_fsmd f nm mc nw nch nmass P rel vs : wfMin f nm mc nw nch nmass -> initParameters f P rel = Some vs ->
  forall d b k p, mFsmd (fmModel f) = Some d -> b < (if fSame d then 1 else length (fFun d)) -> nth_error (nth b (fmFsmd f) []) k = Some p ->
  let n := list_sum (firstn b (fNPar d)) + k in
  exists v, nth_error vs (2 * length (couplingCells (fmModel f)) + 2 * nFree (branchingCells (fmModel f)) + length (flat_map compPars (mComps (fmModel f))) + n) = Some v
    /\ vName v = lit "fsmd__bin" ++ dec b ++ lit "__" ++ mpName p /\ vStart v = pPar P (length (mComps (fmModel f))) n
    /\ (mpFixed p = false -> vSet v = Free (mpStep p) (mpLow p) (mpUp p)) /\ (mpFixed p = true -> vSet v = Fixed).
Proof.
  intros WF HV d b k p D Hb Hp n. rewrite (init_ok f nm mc nw nch nmass WF) in HV. injection HV as <-. pose proof (nth_fsmd f nm mc nw nch nmass WF P rel n) as N. subst n. rewrite (fsmd_nth f nm mc nw nch nmass WF P d b k p D Hb Hp) in N.
  assert (nth b (fIndex d) 0 = list_sum (firstn b (fNPar d))) as EI.
  { destruct (wfFs _ _ _ _ _ _ (wmFit _ _ _ _ _ _ WF) d D) as [(fn & np & ->)|(fs & np & -> & L1 & L2 & _)].
    - cbn [fSame fsmdSame] in Hb. assert (b = 0) as -> by lia. cbn [fIndex fsmdSame firstn]. change (list_sum []) with 0. generalize (upTo (length nm)). intros [|]; reflexivity.
    - cbn [fSame fsmdPerBin fFun] in Hb. rewrite map_length in Hb. cbn [fIndex fsmdPerBin fNPar]. assert (b < length np) as Lb by lia.
      rewrite (nth_indep _ 0 (fold_left Nat.add (firstn 0 np) 0)) by (rewrite map_length; unfold upTo; rewrite seq_length; exact Lb). rewrite (map_nth (fun b => fold_left Nat.add (firstn b np) 0)). unfold upTo. rewrite seq_nth by exact Lb. cbn [Nat.add].
      pose proof (foldl_sum (fun x : nat => x) (firstn b np) 0) as G. rewrite map_id in G. exact G. }
  rewrite EI in N. eexists. split; [exact N|]. cbn [vName vStart vSet]. split; [reflexivity|]. split; [reflexivity|]. split; intros F; rewrite F; cbn [parSetting]; [destruct (mpLow p), (mpUp p); reflexivity|reflexivity].
Qed.
(* In each bin of an accepted model exactly one coupling is that of the anchor wave *)
Theorem C91_anchor f nm mc nw nch nmass b : wfMin f nm mc nw nch nmass -> accepted f -> sharing f -> b < length (mWaves (fmModel f)) ->
  exists i k, (exists o c chan, In (i, k, b) (couplingCells (fmModel f)) /\ coupChan f i k o c chan /\ isAnchorCoupling f b c chan)
    /\ forall i' k' o c chan, In (i', k', b) (couplingCells (fmModel f)) -> coupChan f i' k' o c chan -> isAnchorCoupling f b c chan -> i' = i /\ k' = k.
Proof.
  intros WF A Sh Lb. destruct (anchorOf f b) as [[[w i] ch]|] eqn:E; [|exfalso; exact (A b Lb E)]. pose proof (anchor_is f b w i ch E) as EM.
  assert (In (w, i, ch) (anchorMatches f b)) as HI by (rewrite EM; now left). apply match_in in HI as (Lw & o & c & chan & Ho & Hc & Hch & Nch & Anc).
  pose proof (wmFit _ _ _ _ _ _ WF) as W. assert (waveIdx chan b = Some w) as Hw.
  { rewrite (chan_read (fmModel f) nm mc nw nch nmass W i o ch chan b Ho Hch) by (now rewrite <- (wfBins _ _ _ _ _ _ W)). apply lastIndex_nodup; [|exact Lw|now symmetry].
    pose proof (wfWaves _ _ _ _ _ _ W) as F. rewrite Forall_forall in F. apply F. now apply nth_In. }
  assert (In b (getBins chan)) as Hb by (apply getBins_in; eauto).
  unfold anchorOf in E. rewrite EM, Ho in E. destruct (Nat.eqb_spec ch (firstChannel o b)) as [Ef|]; [|discriminate].
  destruct (comp_ok f nm mc nw nch nmass WF i o Ho) as (_ & LC & _). assert (ch < length (oChans o)) as Lch by (apply nth_error_Some; congruence).
  destruct (nth_error (oChCoup o) ch) as [k|] eqn:Ek; [|apply nth_error_None in Ek; lia].
  destruct (Sh i o Ho) as [Sh1 Sh2]. destruct (Sh1 ch k Ek) as (ms & chm & chc & Hm & Lm & Hcm & Hcc & EB). assert (chc = chan) as -> by congruence.
  assert (ms = ch) as ->.
  { unfold firstChannel in Ef. destruct (find _ (upTo (length (oChans o)))) as [x|] eqn:EF; [|rewrite Ef in *; lia]. subst x.
    destruct (Nat.eq_dec ms ch) as [|NE]; [assumption|exfalso]. assert (forall s n, find (fun ch0 => match nth_error (oChans o) ch0 with Some chan0 => existsb (Nat.eqb b) (getBins chan0) | None => false end) (List.seq s n) = Some ch -> s <= ms -> ms < ch -> False) as K.
    { intros s n. revert s. induction n as [|n IH]; intros s HF L1 L2; [discriminate|]. cbn [List.seq find] in HF. destruct (Nat.eq_dec s ms) as [->|].
      - rewrite Hcm in HF. assert (existsb (Nat.eqb b) (getBins chm) = true) as X by (apply existsb_exists; exists b; split; [rewrite EB; exact Hb|apply Nat.eqb_refl]). rewrite X in HF. injection HF as ->. lia.
      - destruct (match nth_error (oChans o) s with Some chan0 => _ | None => _ end); [injection HF as ->; lia|]. apply (IH (S s) HF); lia. }
    apply (K 0 (length (oChans o)) EF); lia. }
  assert (chm = chan) as -> by congruence. exists i, k. split.
  - exists o, c, chan. split; [|split; [split; [exact Ho|split; [exact Hc|eauto]]|]].
    + unfold couplingCells. apply in_flat_map. exists o. split; [eapply nth_error_In; eauto|]. unfold compCoup. apply in_flat_map. exists k. split; [apply in_upTo, nth_error_Some; congruence|]. rewrite Hm, Hch, (ids f nm mc nw nch nmass WF i o Ho). apply in_map_iff. eauto.
    + unfold isAnchorCoupling. rewrite Anc. congruence.
  - intros i' k' o' c' chan' HIn (Ho' & Hc' & ms' & Hk' & Hch') HA. destruct (coupCell_ok f nm mc nw nch nmass WF i' k' b HIn) as (o2 & c2 & ms2 & chan2 & E1 & E2 & E3 & E4 & E5).
    assert (chan2 = chan') as -> by congruence. destruct (chan_wave f nm mc nw nch nmass WF i' o' ms' chan' b Ho' Hch' E5) as [_ Ew]. pose proof (proj1 (getBins_in chan' b) E5) as (w' & Hw'). rewrite Hw' in Ew. symmetry in Ew. apply lastIndex_some in Ew as [Lw' Nw'].
    assert (In (w', i', ms') (anchorMatches f b)) as HI'. { apply match_in. split; [exact Lw'|]. exists o', c', chan'. rewrite Nw'. auto. }
    rewrite EM in HI'. destruct HI' as [HI'|[]]. injection HI' as -> -> <-. split; [reflexivity|]. assert (o' = o) as -> by congruence. pose proof (Sh2 k' _ Hk') as X. congruence.
Qed.
