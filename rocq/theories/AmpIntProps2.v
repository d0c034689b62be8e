(* C25 (text form), C26 (integration with weights), C27 (merging of metadata),
   and the positivity part of C22 for integrated matrices. *)
From Coq Require Import String Ascii List ZArith Bool Reals Lia Lra Sorting.Sorted.
From Coquelicot Require Import Complex.
From Verif Require Import PathModel StrModel ParticleModel ParticleProps AmpIntModel AmpIntProofs AmpIntProps.
Import ListNotations.
Open Scope list_scope.
Open Scope nat_scope.

(* ---------------- C26: specification ---------------- *)
(* an event with amplitudes for n waves, k > 0 sub-amplitudes each *)
Definition goodEvent (n : nat) (e : event) : Prop :=
  length e = n /\ exists k, 0 < k /\ forall a, In a e -> length a = k.
Definition subAmp (e : event) (i s : nat) : C := nth s (nth i e []) (RtoC 0).
Definition nSub (e : event) : nat := length (nth 0 e []).
(* incoherent sum over the sub-amplitudes of psi_i psi_j^* *)
Definition psiProd (e : event) (i j : nat) : C := csum (fun s => (subAmp e i s * Cconj (subAmp e j s))%C) (nSub e).
Definition accepted (evs : list (event * bool)) : list event := map fst (filter snd evs).
Definition rsum (l : list R) : R := fold_right Rplus 0%R l.
(* sum over (event, weight) pairs of psi_i psi_j^* / w *)
Definition weightedSum (ps : list (event * R)) (i j : nat) : C :=
  csumA (fun p => (psiProd (fst p) i j * RtoC (1 / snd p))%C) ps.

Lemma csumL_csum l : csumL l = csum (fun s => nth s l (RtoC 0)) (length l).
Proof.
  unfold csumL. induction l as [|x l IH] using rev_ind; [reflexivity|].
  rewrite fold_left_app, app_length. cbn [fold_left]. replace (length l + length [x]) with (S (length l)) by (cbn; lia).
  cbn [csum]. rewrite IH. f_equal.
  - apply csum_ext. intros i Hi. rewrite app_nth1; auto.
  - rewrite app_nth2, Nat.sub_diag by lia. reflexivity.
Qed.
Lemma eventProd_ok n e i j : goodEvent n e -> i < n -> j < n -> eventProd e i j = Some (psiProd e i j).
Proof.
  intros (L & k & Hk & H) Hi Hj. unfold eventProd.
  rewrite (nth_error_nth' e [] (n := i)) by lia. rewrite (nth_error_nth' e [] (n := j)) by lia. cbn [bindP].
  assert (Li : length (nth i e []) = k) by (apply H, nth_In; lia).
  assert (Lj : length (nth j e []) = k) by (apply H, nth_In; lia).
  assert (L0 : length (nth 0 e []) = k) by (apply H, nth_In; lia).
  rewrite Li, Lj, Nat.eqb_refl. cbn [negb]. f_equal. rewrite csumL_csum, map_length, combine_length, Li, Lj, Nat.min_id.
  unfold psiProd, nSub. rewrite L0. apply csum_ext. intros s Hs.
  set (f := fun p : C * C => (fst p * Cconj (snd p))%C).
  rewrite (nth_indep _ (RtoC 0) (f (RtoC 0, RtoC 0))) by (rewrite map_length, combine_length, Li, Lj; lia).
  rewrite map_nth, combine_nth by congruence. reflexivity.
Qed.

Lemma step_checks n e : goodEvent n e ->
  mapP (fun a : list C => match a with [] => None | _ => Some tt end) (firstn n e) = Some (map (fun _ => tt) (firstn n e)) /\
  mapP (fun i => mapP (eventProd e i) (seq 0 n)) (seq 0 n) = Some (map (fun i => map (psiProd e i) (seq 0 n)) (seq 0 n)).
Proof.
  intros G. split.
  - destruct G as (L & k & Hk & H). apply mapP_map. intros a Ha. assert (I : In a e) by (rewrite <- (firstn_skipn n e); apply in_or_app; auto).
    specialize (H a I). destruct a; [cbn in H; lia|auto].
  - apply mapP_map. intros i Hi. apply mapP_map. intros j Hj. apply in_seq in Hi, Hj. apply (eventProd_ok n); auto; lia.
Qed.

Lemma stopped n u s evs : isStop s = true -> intLoop n u s evs = Some s.
Proof. intros H. induction evs as [|e r IH]; cbn [intLoop]; auto. unfold intStep. rewrite H. cbn [bindP]. auto. Qed.

Lemma loop_weights n evs : (forall e, In e (accepted evs) -> goodEvent n e) -> forall c ws S A,
  exists s, intLoop n true (IS c ws S A true false) evs = Some s /\
    isCount s = (c + Z.of_nat (Nat.min (length (accepted evs)) (length ws)) + (if (length ws <? length (accepted evs))%nat then 1 else 0))%Z /\
    isOk s = (length (accepted evs) <=? length ws) /\
    isWSum s = (S + rsum (map (fun p => 1 / snd p) (combine (accepted evs) ws)))%R /\
    forall i j, i < n -> j < n -> isAcc s i j = (A i j + weightedSum (combine (accepted evs) ws) i j)%C.
Proof.
  induction evs as [|[e b] evs IH]; intros G c ws S A.
  - exists (IS c ws S A true false). cbn. split; [reflexivity|]. split; [lia|]. split; [reflexivity|]. split; [lra|]. intros; unfold weightedSum, csumA; cbn; ring.
  - cbn [intLoop]. unfold intStep. cbn [isStop isCount isWeights isWSum isAcc isOk]. cbv iota.
    destruct b; cbn [negb].
    2:{ cbn [bindP]. apply IH; auto. }
    unfold accepted in *. cbn [filter map fst snd] in *.
    destruct ws as [|w ws].
    + cbn [bindP]. eexists. split; [apply stopped; reflexivity|]. cbn. split; [lia|]. split; [reflexivity|]. split; [lra|].
      intros; unfold weightedSum, csumA; cbn; ring.
    + destruct (step_checks n e) as [X1 X2]; [apply G; left; auto|]. rewrite X1, X2. cbn [bindP].
      edestruct IH as (s & E & C1 & C2 & C3 & C4); [intros; apply G; right; auto|]. exists s. split; [exact E|].
      cbn [length combine map rsum fold_right]. split; [|split; [|split]].
      * rewrite C1. change (length ws <? length (map fst (filter snd evs))) with (Datatypes.S (length ws) <? Datatypes.S (length (map fst (filter snd evs)))).
        rewrite <- Nat.succ_min_distr. lia.
      * rewrite C2. reflexivity.
      * rewrite C3. unfold rsum. cbn [snd]. ring.
      * intros i j Hi Hj. rewrite C4 by auto. rewrite (eventProd_ok n) by (auto; apply G; left; auto).
        unfold weightedSum, csumA. cbn [fold_right fst snd]. ring.
Qed.
Lemma loop_plain n evs : (forall e, In e (accepted evs) -> goodEvent n e) -> forall c ws S A,
  exists s, intLoop n false (IS c ws S A true false) evs = Some s /\
    isCount s = (c + Z.of_nat (length (accepted evs)))%Z /\ isOk s = true /\
    forall i j, i < n -> j < n -> isAcc s i j = (A i j + csumA (fun e => psiProd e i j) (accepted evs))%C.
Proof.
  induction evs as [|[e b] evs IH]; intros G c ws S A.
  - exists (IS c ws S A true false). cbn. split; [reflexivity|]. split; [lia|]. split; [reflexivity|]. intros; unfold csumA; cbn; ring.
  - cbn [intLoop]. unfold intStep. cbn [isStop isCount isWeights isWSum isAcc isOk]. cbv iota.
    destruct b; cbn [negb].
    2:{ cbn [bindP]. apply IH; auto. }
    unfold accepted in *. cbn [filter map fst snd] in *.
    destruct (step_checks n e) as [X1 X2]; [apply G; left; auto|]. rewrite X1, X2. cbn [bindP].
    edestruct IH as (s & E & C1 & C2 & C4); [intros; apply G; right; auto|]. exists s. split; [exact E|].
    cbn [length]. split; [rewrite C1; lia|]. split; auto.
    intros i j Hi Hj. rewrite C4 by auto. rewrite (eventProd_ok n) by (auto; apply G; left; auto).
    unfold csumA. cbn [fold_right]. ring.
Qed.

(* without a weight file: the plain sum over the accepted events *)
Theorem C26_without_weights : forall names evs, (forall e, In e (accepted evs) -> goodEvent (length names) e) ->
  exists m, integrate names None evs = Some (m, true) /\ wf m /\ waveNames m = names /\
    nmbEvents m = Z.of_nat (length (accepted evs)) /\
    forall i j, i < length names -> j < length names ->
      mget (integrals m) i j = Some (csumA (fun e => psiProd e i j) (accepted evs)).
Proof.
  intros names evs G. unfold integrate. destruct (loop_plain (length names) evs G 0%Z [] 0%R (fun _ _ => RtoC 0)) as (s & E & C1 & C2 & C4).
  rewrite E. cbn [bindP]. eexists; split; [rewrite C2; reflexivity|]. cbn [waveNames nmbEvents integrals].
  split; [split; cbn [nmbWaves waveNames integrals]; [reflexivity|apply (square_build (length names) (isAcc s))]|].
  split; [reflexivity|]. split; [rewrite C1; lia|].
  intros i j Hi Hj. change (map (fun i => map _ _) _) with (build (length names) (fun i j => isAcc s i j)). rewrite mget_build, C4 by auto. f_equal. ring.
Qed.

(* with a weight file [ws]: the k-th accepted event is paired with the k-th number of the
   file; the result is normalised to the mean inverse weight; if the file runs out the
   function reports failure and has counted one event too many *)
Theorem C26_kth_accepted_event_takes_kth_weight : forall names ws evs,
  (forall e, In e (accepted evs) -> goodEvent (length names) e) ->
  exists m ok, integrate names (Some ws) evs = Some (m, ok) /\ wf m /\ waveNames m = names /\
    (ok = true <-> length (accepted evs) <= length ws) /\
    nmbEvents m = Z.of_nat (if ok then length (accepted evs) else length ws + 1) /\
    forall i j, i < length names -> j < length names ->
      mget (integrals m) i j = Some (
        weightedSum (combine (accepted evs) ws) i j *
        RtoC (1 / (rsum (map (fun p => 1 / snd p) (combine (accepted evs) ws)) / IZR (nmbEvents m)))%R)%C.
Proof.
  intros names ws evs G. unfold integrate. destruct (loop_weights (length names) evs G 0%Z ws 0%R (fun _ _ => RtoC 0)) as (s & E & C1 & C2 & C3 & C4).
  rewrite E. cbn [bindP]. eexists; exists (isOk s); split; [reflexivity|]. cbn [waveNames nmbEvents integrals].
  split; [split; cbn [nmbWaves waveNames integrals]; [reflexivity|apply (square_build (length names) (fun i j => isAcc s i j * RtoC (1 / (isWSum s / IZR (isCount s))))%C)]|].
  split; [reflexivity|]. split; [rewrite C2; apply Nat.leb_le|]. split.
  - rewrite C1, C2. destruct (Nat.leb_spec (length (accepted evs)) (length ws)), (Nat.ltb_spec (length ws) (length (accepted evs))); lia.
  - intros i j Hi Hj. change (map (fun i => map _ _) _) with (build (length names) (fun i j => isAcc s i j * RtoC (1 / (isWSum s / IZR (isCount s))))%C).
    rewrite mget_build, C4, C3 by auto. f_equal. rewrite Rplus_0_l. ring.
Qed.

(* the weights of the accepted events, when the file has one number per event *)
Definition ownWeights (evs : list (event * bool)) (ws : list R) : list R :=
  map snd (filter (fun p => snd (fst p)) (combine evs ws)).

Theorem C26_own_weights_without_rejection : forall evs ws, (forall p, In p evs -> snd p = true) -> length evs <= length ws ->
  combine (accepted evs) ws = combine (accepted evs) (ownWeights evs ws).
Proof.
  intros evs; induction evs as [|[e b] evs IH]; intros [|w ws] H L; cbn in L; try lia; auto.
  assert (b = true) by (apply (H (e, b)); left; auto). subst b.
  unfold accepted, ownWeights in *. cbn [filter combine map fst snd]. f_equal. apply IH; [|lia]. intros p Hp; apply H; right; auto.
Qed.

(* with a rejected event the result differs from the one with each event's own weight *)
Theorem C26_rejected_event_shifts_weights : exists names ws evs m m',
  (forall e, In e (accepted evs) -> goodEvent (length names) e) /\ length evs = length ws /\
  Forall (fun w => (0 < w)%R) ws /\
  integrate names (Some ws) evs = Some (m, true) /\
  integrate names (Some (ownWeights evs ws)) evs = Some (m', true) /\
  mget (integrals m) 0 0 <> mget (integrals m') 0 0.
Proof.
  set (evs := [([[RtoC 1]], false); ([[RtoC 1]], true); ([[RtoC 2]], true)] : list (event * bool)).
  set (ws := [1; 1; / 2]%R).
  assert (G : forall e, In e (accepted evs) -> goodEvent (length [lit "a"]) e).
  { intros e [<-|[<-|[]]]; split; auto; exists 1; split; auto; intros a [<-|[]]; auto. }
  destruct (C26_kth_accepted_event_takes_kth_weight [lit "a"] ws evs G) as (m & ok & E & _ & _ & O & N & M).
  destruct (C26_kth_accepted_event_takes_kth_weight [lit "a"] (ownWeights evs ws) evs G) as (m' & ok' & E' & _ & _ & O' & N' & M').
  assert (ok = true) by (apply O; cbn; lia). assert (ok' = true) by (apply O'; cbn; lia). subst ok ok'.
  exists [lit "a"], ws, evs, m, m'. split; [exact G|]. split; [reflexivity|]. split; [repeat constructor; lra|].
  split; [exact E|]. split; [exact E'|].
  rewrite M, M' by (cbn; lia). rewrite N, N'. clear. cbn [accepted evs filter map fst snd ownWeights combine length ws Z.of_nat Pos.of_succ_nat Pos.succ rsum fold_right].
  unfold weightedSum, csumA, psiProd, subAmp, nSub. cbn [fold_right fst snd nth length csum].
  intros H. inversion H as [[H1 H2]]. cbn in H1. lra.
Qed.

Lemma quad_psd n (ps : list (R * (nat -> C))) v : Forall (fun e => (0 <= fst e)%R) ps ->
  let M i j := csumA (fun e => (RtoC (fst e) * (snd e i * Cconj (snd e j)))%C) ps in
  Im (quadForm n M v) = 0%R /\ (0 <= Re (quadForm n M v))%R.
Proof.
  intros P M.
  assert (Q : quadForm n M v =
    csumA (fun e => (RtoC (fst e) * (csum (fun i => Cconj (v i) * snd e i) n *
                     Cconj (csum (fun i => Cconj (v i) * snd e i) n)))%C) ps).
  { unfold quadForm, M.
    transitivity (csum (fun i => csum (fun j => csumA (fun e => (Cconj (v i) * (RtoC (fst e) * (snd e i * Cconj (snd e j))) * v j)%C) ps) n) n).
    { apply csum_ext; intros i Hi. apply csum_ext; intros j Hj. rewrite csumA_mult_r, csumA_mult_l. auto. }
    transitivity (csum (fun i => csumA (fun e => csum (fun j => (Cconj (v i) * (RtoC (fst e) * (snd e i * Cconj (snd e j))) * v j)%C) n) ps) n).
    { apply csum_ext; intros i Hi. apply csum_csumA. }
    rewrite csum_csumA. apply csumA_ext. intros e _. rewrite csum_conj.
    rewrite <- csum_mult_r, <- csum_mult_l. apply csum_ext. intros i _.
    rewrite <- csum_mult_l, <- csum_mult_l. apply csum_ext. intros j _. rewrite Cconj_mult, Cconj_conj. ring. }
  rewrite Q. apply csumA_re. intros e He.
  destruct (RtoC_mult_re (fst e) (csum (fun i => Cconj (v i) * snd e i) n * Cconj (csum (fun i => Cconj (v i) * snd e i) n))%C) as [Q1 Q2].
  rewrite Q1, Q2. destruct (Cmult_conj_pos (csum (fun i => (Cconj (v i) * snd e i)%C) n)) as [D F].
  rewrite Forall_forall in P. specialize (P e He). split; [rewrite D; ring|apply Rmult_le_pos; auto].
Qed.

Lemma csum_as_csumA f n : csum f n = csumA f (seq 0 n).
Proof.
  induction n; auto. rewrite seq_S, csumA_app. cbn [csum]. rewrite IHn. f_equal. unfold csumA; cbn. ring.
Qed.
Lemma csumA_flat {A B} (f : B -> C) (g : A -> list B) l : csumA (fun x => csumA f (g x)) l = csumA f (flat_map g l).
Proof. induction l as [|x l IH]; [reflexivity|]. cbn [flat_map]. rewrite csumA_app, <- IH. reflexivity. Qed.
Lemma csumA_map {A B} (f : B -> C) (g : A -> B) l : csumA f (map g l) = csumA (fun x => f (g x)) l.
Proof. induction l as [|x l IH]; [reflexivity|]. unfold csumA in *. cbn [map fold_right]. rewrite IH. auto. Qed.
Lemma quad_ext n M M' v : (forall i j, i < n -> j < n -> M i j = M' i j) -> quadForm n M v = quadForm n M' v.
Proof. intros H. unfold quadForm. apply csum_ext; intros i Hi. apply csum_ext; intros j Hj. rewrite H; auto. Qed.

(* a matrix that integrate() returns with success is positive semi-definite, for
   positive weights *)
Theorem C22_integrated_matrix_positive_semidefinite : forall names weights evs m v,
  (forall e, In e (accepted evs) -> goodEvent (length names) e) ->
  match weights with Some ws => Forall (fun w => (0 < w)%R) ws | None => True end ->
  integrate names weights evs = Some (m, true) ->
  Im (quadForm (nmbWaves m) (ent m) v) = 0%R /\ (0 <= Re (quadForm (nmbWaves m) (ent m) v))%R.
Proof.
  intros names weights evs m v G P H.
  assert (X : exists ps, Forall (fun e : R * (nat -> C) => (0 <= fst e)%R) ps /\ nmbWaves m = length names /\
     forall i j, i < length names -> j < length names -> ent m i j = csumA (fun e => (RtoC (fst e) * (snd e i * Cconj (snd e j)))%C) ps).
  { destruct weights as [ws|].
    - destruct (C26_kth_accepted_event_takes_kth_weight names ws evs G) as (m' & ok & E & W & N & _ & _ & M).
      rewrite E in H. inversion H; subst m' ok. set (ps := combine (accepted evs) ws) in *.
      set (f := (1 / (rsum (map (fun p => 1 / snd p) ps) / IZR (nmbEvents m)))%R) in *.
      assert (Pw : forall p, In p ps -> (0 < snd p)%R).
      { intros [e w] I. apply in_combine_r in I. rewrite Forall_forall in P. exact (P w I). }
      assert (Ne : (0 <= nmbEvents m)%Z).
      { clear - E. unfold integrate in E. destruct (intLoop _ _ _ _) as [s|] eqn:L; cbn [bindP] in E; [|discriminate].
        inversion E; subst; cbn. revert L. assert (Z0 : (0 <= isCount (IS 0 ws 0 (fun _ _ => RtoC 0) true false))%Z) by (cbn; lia). revert Z0.
        generalize (IS 0 ws 0 (fun _ _ => RtoC 0) true false). clear. induction evs as [|[e b] evs IH]; intros t Z0 L; cbn [intLoop] in L; [inversion L; subst; auto|].
        destruct (intStep _ _ _ _) as [t'|] eqn:Q; cbn [bindP] in L; [|discriminate]. apply (IH t'); auto.
        unfold intStep in Q. destruct (isStop t); [inversion Q; subst; auto|]. destruct b; cbn [negb] in Q; [|inversion Q; subst; auto].
        destruct (isWeights t); [inversion Q; subst; cbn; lia|].
        destruct (mapP _ (firstn _ _)); cbn [bindP] in Q; [|discriminate]. destruct (mapP _ _); cbn [bindP] in Q; [|discriminate].
        inversion Q; subst; cbn; lia. }
      assert (F0 : (0 <= f)%R).
      { assert (S0 : (0 <= rsum (map (fun p => 1 / snd p) ps))%R).
        { clear - Pw. induction ps as [|p ps IH]; cbn; [lra|]. assert (Q1 : (0 < 1 / snd p)%R).
          { apply Rdiv_lt_0_compat; [lra|apply Pw; left; auto]. }
          assert (Q2 : (0 <= rsum (map (fun p => 1 / snd p) ps))%R) by (apply IH; intros; apply Pw; right; auto). unfold rsum in *. lra. }
        unfold f. apply IZR_le in Ne.
        assert (Q : forall x, (0 <= x)%R -> (0 <= / x)%R).
        { intros x [Hx|<-]; [left; apply Rinv_0_lt_compat; auto|rewrite Rinv_0; lra]. }
        unfold Rdiv. rewrite Rmult_1_l. apply Q. apply Rmult_le_pos; auto. }
      exists (flat_map (fun p => map (fun s => ((1 / snd p * f)%R, fun i => subAmp (fst p) i s)) (seq 0 (nSub (fst p)))) ps).
      split; [|split].
      + apply Forall_flat_map. apply Forall_forall. intros p I. apply Forall_forall. intros x Hx. apply in_map_iff in Hx as (s & <- & _). cbn [fst].
        apply Rmult_le_pos; auto. left. apply Rdiv_lt_0_compat; [lra|auto].
      + destruct W as [W _]. rewrite W, N. auto.
      + intros i j Hi Hj. unfold ent. rewrite M by auto. rewrite <- csumA_flat. unfold weightedSum. rewrite <- csumA_mult_r.
        apply csumA_ext. intros p _. rewrite csumA_map. cbn [fst snd]. rewrite csumA_mult_l. unfold psiProd. rewrite csum_as_csumA.
        rewrite RtoC_mult. ring.
    - destruct (C26_without_weights names evs G) as (m' & E & W & N & _ & M). rewrite E in H. inversion H; subst m'.
      exists (flat_map (fun e => map (fun s => (1%R, fun i => subAmp e i s)) (seq 0 (nSub e))) (accepted evs)).
      split; [|split].
      + apply Forall_flat_map. apply Forall_forall. intros p I. apply Forall_forall. intros x Hx. apply in_map_iff in Hx as (s & <- & _). cbn [fst]. lra.
      + destruct W as [W _]. rewrite W, N. auto.
      + intros i j Hi Hj. unfold ent. rewrite M by auto. rewrite <- csumA_flat. 
        apply csumA_ext. intros p _. rewrite csumA_map. cbn [fst snd]. rewrite csumA_mult_l. unfold psiProd. rewrite csum_as_csumA. ring. }
  destruct X as (ps & Pp & Nw & E). rewrite Nw.
  rewrite (quad_ext _ _ _ v E). apply quad_psd; auto.
Qed.

Example C22_integrated_ex : exists m, integrate [lit "a"; lit "b"] (Some [2%R; 3%R])
   [([[RtoC 1]; [Ci]], true); ([[RtoC 2]; [Ci]], true)] = Some (m, true) /\ nmbWaves m = 2.
Proof.
  destruct (C26_kth_accepted_event_takes_kth_weight [lit "a"; lit "b"] [2%R; 3%R] [([[RtoC 1]; [Ci]], true); ([[RtoC 2]; [Ci]], true)]) as (m & ok & E & W & N & O & _).
  { intros e [<-|[<-|[]]]; split; auto; exists 1; split; auto; intros a [<-|[<-|[]]]; auto. }
  exists m. assert (ok = true) by (apply O; cbn; lia). subst. split; auto. destruct W as [W _]. rewrite W, N. reflexivity.
Qed.

(* ---------------- C25 ---------------- *)
Lemma rdCplxs_app l ts : rdCplxs (length l) (map TCplx l ++ ts) = Some (l, ts).
Proof. induction l as [|c l IH]; cbn [length rdCplxs map app]; auto. rewrite IH. reflexivity. Qed.
Lemma rdRows_app rows n ts : (forall r, In r rows -> length r = n) ->
  rdRows (length rows) n (map TCplx (concat rows) ++ ts) = Some (rows, ts).
Proof.
  induction rows as [|r rows IH]; intros H; cbn [length rdRows concat map app]; auto.
  rewrite map_app, <- app_assoc. rewrite <- (H r) at 1 by (left; auto). rewrite rdCplxs_app. cbn [bindP].
  rewrite IH by (intros; apply H; right; auto). reflexivity.
Qed.
Lemma rows_all m : wf m ->
  mapP (fun i => mapP (fun j => mget (integrals m) i j) (seq 0 (nmbWaves m))) (seq 0 (nmbWaves m)) = Some (integrals m).
Proof.
  intros W. rewrite (wf_build m W). unfold build at 2. apply mapP_map. intros i Hi. apply mapP_map. intros j Hj.
  apply in_seq in Hi, Hj. apply mget_build; lia.
Qed.
Lemma rdNat_of n ts : rdNat (TNat (Z.of_nat n) :: ts) = Some (n, ts).
Proof. unfold rdNat. destruct (Z.leb_spec 0 (Z.of_nat n)); [rewrite Nat2Z.id; auto|lia]. Qed.
Lemma vresize_length l n : length (vresize l n) = n.
Proof. unfold vresize. rewrite app_length, firstn_length, repeat_length. lia. Qed.

Lemma read_matrix m this ts : wf m -> (0 <= nmbEvents m)%Z ->
  readAscii this (([TNat (Z.of_nat (nmbWaves m)); TNat (nmbEvents m); TNat (Z.of_nat (nmbWaves m)); TNat (Z.of_nat (nmbWaves m))]
        ++ map TCplx (concat (integrals m)) ++ [TNat (Z.of_nat (length (waveNames m)))]) ++ ts) =
  doP (names', ok) <- rdNames (nmbWaves m) (vresize (waveNames this) (nmbWaves m)) ts;
  Some (AIM (nmbWaves m) names' (nmbEvents m) (integrals m), ok).
Proof.
  intros W Hn. unfold readAscii. rewrite <- !app_assoc. cbn [app]. rewrite rdNat_of. cbn [bindP].
  replace (nmbEvents m) with (Z.of_nat (Z.to_nat (nmbEvents m))) at 1 by lia. rewrite rdNat_of. cbn [bindP].
  rewrite !rdNat_of. cbn [bindP]. rewrite rdNat_of. cbn [bindP].
  destruct (wf_sq m W) as [L R]. pose proof (fun ts => rdRows_app (integrals m) (nmbWaves m) ts R) as RR. rewrite L in RR. rewrite RR. cbn [bindP]. rewrite rdNat_of.
  rewrite <- (wf_n m W), Nat.eqb_refl. cbn [negb]. rewrite Z2Nat.id by auto. reflexivity.
Qed.

(* what was written is not read back: reading stops after the matrix, reports failure and
   leaves the wave names of the target object (empty for a fresh one) *)
Theorem C25_written_file_is_not_read_back : forall m this, wf m -> 0 < nmbWaves m -> (0 <= nmbEvents m)%Z ->
  exists out cout m', writeAscii m = Some (out, cout) /\ readAscii this out = Some (m', false) /\
    (waveNames this = [] -> waveNames m' = repeat [] (nmbWaves m)) /\ integrals m' = integrals m.
Proof.
  intros m this W Hw Hn. unfold writeAscii. rewrite rows_all, names_all by auto. cbn [bindP].
  do 2 eexists. exists (AIM (nmbWaves m) (vresize (waveNames this) (nmbWaves m)) (nmbEvents m) (integrals m)). split; [reflexivity|].
  pose proof (read_matrix m this [] W Hn) as E. rewrite app_nil_r in E. rewrite E.
  destruct (nmbWaves m) as [|k] eqn:K; [lia|]. cbn [rdNames rdStr bindP]. split; [reflexivity|]. cbn [waveNames integrals]. split; auto.
  intros ->. unfold vresize. reflexivity.
Qed.

Lemma setNth_app {A} (a b : list A) x y : setNth (a ++ x :: b) (length a) y = Some (a ++ y :: b).
Proof. induction a as [|z a IH]; cbn [app length setNth]; auto. rewrite IH. reflexivity. Qed.
Lemma rdNames_app l : forall pre rest, length rest = length l ->
  rdNames (length l) (pre ++ rest)
    (concat (map (fun p : nat * str => [TStr (snd p); TNat (Z.of_nat (fst p))]) (combine (seq (length pre) (length l)) l))) = Some (pre ++ l, true).
Proof.
  induction l as [|w l IH]; intros pre rest H; destruct rest as [|x rest]; try discriminate; cbn [length rdNames]; auto.
  cbn [seq combine map concat app fst snd rdStr bindP]. rewrite rdNat_of. cbn [bindP]. rewrite setNth_app. cbn [bindP].
  replace (pre ++ w :: rest) with ((pre ++ [w]) ++ rest) by (rewrite <- app_assoc; auto).
  replace (Datatypes.S (length pre)) with (length (pre ++ [w])) by (rewrite app_length; cbn; lia).
  rewrite IH by (cbn in H; lia). rewrite <- app_assoc. reflexivity.
Qed.

(* had the names gone to the same stream, the round trip would be exact, whatever the
   state of the reading object *)
Theorem C25_round_trip_with_names_in_stream : forall m this, wf m -> (0 <= nmbEvents m)%Z ->
  exists out cout, writeAscii m = Some (out, cout) /\ readAscii this (out ++ cout) = Some (m, true).
Proof.
  intros m this W Hn. unfold writeAscii. rewrite rows_all, names_all by auto. cbn [bindP].
  do 2 eexists. split; [reflexivity|]. rewrite read_matrix by auto.
  rewrite (wf_n m W).
  pose proof (rdNames_app (waveNames m) [] (vresize (waveNames this) (length (waveNames m))) (vresize_length _ _)) as E.
  cbn [length app] in E. rewrite E. cbn [bindP app]. rewrite <- (wf_n m W). destruct m; reflexivity.
Qed.
(* only the matrix without waves survives *)
Theorem C25_round_trip_without_waves : forall m this, wf m -> nmbWaves m = 0 -> (0 <= nmbEvents m)%Z ->
  exists out, writeAscii m = Some (out, []) /\ readAscii this out = Some (m, true).
Proof.
  intros m this W Hw Hn. destruct (C25_round_trip_with_names_in_stream m this W Hn) as (out & cout & E & R).
  assert (cout = []). { unfold writeAscii in E. rewrite rows_all, names_all in E by auto. cbn [bindP] in E. rewrite Hw in E. inversion E. reflexivity. }
  subst. exists out. rewrite app_nil_r in R. auto.
Qed.

(* ---------------- C27 ---------------- *)
Section C27.
  Context {E : Type} (eqE : E -> E -> bool) (hashOf : aim -> str).
  Implicit Types m s : meta E.

  (* c is the variable-wise hull of a and b, which have the same variables *)
  Definition isHull (a b c : smap (R * R)) : Prop := forall v,
    match m_find v a, m_find v b with
    | Some (l1, h1), Some (l2, h2) => m_find v c = Some (Rmin l1 l2, Rmax h1 h2)
    | None, None => m_find v c = None
    | _, _ => False
    end.

  Definition withHashes m hs := MD (mContentHash m) (mGitHash m) (mKeyFiles m) hs (mAllZero m) (mBounds m) (mEvtMetas m) (mMatrix m).
  Definition nonZero (z : str) (l : list str) := filter (fun h => negb (str_eqb h z)) l.

  Lemma addHash_loop l : forall m m', addLoop addAmplitudeHash l m = (m', true) ->
    m' = withHashes m (mAmpHashes m ++ nonZero (mAllZero m) l) /\ NoDup (nonZero (mAllZero m) l) /\
    forall h, In h (nonZero (mAllZero m) l) -> ~ In h (mAmpHashes m).
  Proof.
    induction l as [|h l IH]; intros m m' H; cbn [addLoop] in H.
    - inversion H; subst. cbn. rewrite app_nil_r. split; [destruct m'; reflexivity|]. split; [constructor|intros ? []].
    - unfold addAmplitudeHash in H. unfold nonZero; cbn [filter]. destruct (str_eqb h (mAllZero m)) eqn:Z; cbn [negb].
      + apply IH; auto.
      + destruct (existsb (str_eqb h) (mAmpHashes m)) eqn:X; [discriminate|].
        apply IH in H as (-> & N & D). cbn [mContentHash mGitHash mKeyFiles mAmpHashes mAllZero mBounds mEvtMetas mMatrix] in *.
        assert (NI : ~ In h (mAmpHashes m)).
        { intros I. assert (existsb (str_eqb h) (mAmpHashes m) = true); [|congruence]. apply existsb_exists. exists h; split; auto. apply str_eqb_refl. }
        unfold withHashes. cbn [mContentHash mGitHash mKeyFiles mAmpHashes mAllZero mBounds mEvtMetas mMatrix].
        split; [rewrite <- app_assoc; reflexivity|]. split.
        * constructor; auto. intros I. apply (D h I). apply in_or_app. right; left; auto.
        * intros h' [<-|I]; auto. intros I'. apply (D h' I). apply in_or_app; auto.
  Qed.
  Lemma addHash_loop_ok l : forall m, NoDup (nonZero (mAllZero m) l) ->
    (forall h, In h (nonZero (mAllZero m) l) -> ~ In h (mAmpHashes m)) -> exists m', addLoop addAmplitudeHash l m = (m', true).
  Proof.
    induction l as [|h l IH]; intros m N D; cbn [addLoop]; eauto. unfold addAmplitudeHash. unfold nonZero in N, D; cbn [filter] in N, D.
    destruct (str_eqb h (mAllZero m)) eqn:Z; cbn [negb] in *; [apply IH; auto|].
    destruct (existsb (str_eqb h) (mAmpHashes m)) eqn:X.
    - exfalso. apply existsb_exists in X as (x & I & Q). apply str_eqb_eq in Q; subst. apply (D x); auto. left; auto.
    - inversion N; subst. apply IH; cbn [mAllZero mAmpHashes]; auto. intros h' I I'. apply in_app_or in I' as [I'|[<-|[]]]; auto.
      apply (D h'); [right; auto|auto].
  Qed.
  Lemma addEvt_loop l : forall m m', addLoop (addEventMetadata eqE) l m = (m', true) ->
    m' = MD (mContentHash m) (mGitHash m) (mKeyFiles m) (mAmpHashes m) (mAllZero m) (mBounds m) (mEvtMetas m ++ l) (mMatrix m) /\
    forall x e, In x (mEvtMetas m) -> In e l -> eqE x e = false.
  Proof.
    induction l as [|e l IH]; intros m m' H; cbn [addLoop] in H.
    - inversion H; subst. rewrite app_nil_r. split; [destruct m'; reflexivity|]. intros x e _ [].
    - unfold addEventMetadata in H. destruct (existsb (fun x => eqE x e) (mEvtMetas m)) eqn:X; [discriminate|].
      apply IH in H as (-> & D). cbn [mContentHash mGitHash mKeyFiles mAmpHashes mAllZero mBounds mEvtMetas mMatrix] in *. split; [rewrite <- app_assoc; reflexivity|].
      intros x e' I [<-|I'].
      + destruct (eqE x e) eqn:Q; auto. rewrite <- X. symmetry. apply existsb_exists. eauto.
      + apply D; auto. apply in_or_app; auto.
  Qed.

  Lemma hullLoop_spec l mine : forall new r, StronglySorted key_lt l -> StronglySorted key_lt new ->
    hullLoop l mine new = Some r ->
    StronglySorted key_lt r /\ (forall v, In v (map fst l) -> In v (map fst mine)) /\
    forall v, m_find v r = match m_find v l, m_find v mine with
                           | Some (l1, h1), Some (l2, h2) => Some (Rmin l1 l2, Rmax h1 h2)
                           | _, _ => m_find v new end.
  Proof.
    induction l as [|[v [lo hi]] l IH]; intros new r Sl Sn H; cbn [hullLoop] in H.
    - inversion H; subst. split; auto. split; [intros v []|auto].
    - destruct (m_find v mine) as [[lo' hi']|] eqn:M; [|discriminate].
      inversion Sl as [|? ? Sl' F]; subst. apply IH in H as (Sr & I & V); [|auto|apply m_set_sorted; auto].
      split; auto. split.
      + intros w [<-|Hw]; auto. cbn [fst]. destruct (In_dec (list_eq_dec ascii_dec) v (map fst mine)) as [|X]; auto.
        apply m_find_none in X. congruence.
      + intros w. rewrite V. rewrite m_find_set by auto. cbn [m_find].
        destruct (str_eqb w v) eqn:Q.
        * apply str_eqb_eq in Q; subst w. rewrite M. assert (N : m_find v l = None).
          { apply m_find_none. intros X. apply in_map_iff in X as (p & <- & Hp). rewrite Forall_forall in F. specialize (F p Hp).
            unfold key_lt in F; cbn in F. rewrite str_ltb_irrefl in F; discriminate. }
          rewrite N. reflexivity.
        * reflexivity.
  Qed.
  Lemma sorted_keys_nodup {V} (l : smap V) : StronglySorted key_lt l -> NoDup (map fst l).
  Proof.
    induction 1 as [|[k v] l S IH F]; cbn [map]; constructor; auto. intros X. apply in_map_iff in X as (p & Q & Hp).
    rewrite Forall_forall in F. specialize (F p Hp). unfold key_lt in F. rewrite Q in F. cbn in F. rewrite str_ltb_irrefl in F; discriminate.
  Qed.

  (* success: everything is combined *)
  Theorem C27_merge_success : forall m s m',
    StronglySorted key_lt (mBounds m) -> StronglySorted key_lt (mBounds s) ->
    mergeIntegralMatrix eqE hashOf m s = Some (m', true) ->
    mGitHash s = mGitHash m /\ mGitHash m' = mGitHash m /\
    (forall k, In k (mKeyFiles s) -> In k (mKeyFiles m)) /\ mKeyFiles m' = mKeyFiles m /\
    isHull (mBounds m) (mBounds s) (mBounds m') /\
    mAmpHashes m' = mAmpHashes m ++ nonZero (mAllZero m) (mAmpHashes s) /\
    (NoDup (mAmpHashes m) -> NoDup (mAmpHashes m')) /\
    mEvtMetas m' = mEvtMetas m ++ mEvtMetas s /\
    addAssign (mMatrix m) (mMatrix s) = Some (mMatrix m') /\ mContentHash m' = hashOf (mMatrix m') /\ hashOf (mMatrix m') <> [].
  Proof.
    intros m s m' Sm Ss H. unfold mergeIntegralMatrix in H.
    destruct (nmbWaves (mMatrix s) =? nmbWaves (mMatrix m)); cbn [negb] in H; [|discriminate].
    destruct (str_eqb (mGitHash s) (mGitHash m)) eqn:G; cbn [negb] in H; [|discriminate]. apply str_eqb_eq in G.
    destruct (forallb _ _) eqn:K; cbn [negb] in H; [|discriminate].
    destruct (addLoop addAmplitudeHash (mAmpHashes s) m) as [m1 o1] eqn:L1. destruct o1; cbn [negb] in H; [|discriminate].
    destruct (mergeMultibinBoundaries (mBounds s) m1) as [m2 o2] eqn:L2. destruct o2; cbn [negb] in H; [|discriminate].
    destruct (addLoop (addEventMetadata eqE) (mEvtMetas s) m2) as [m3 o3] eqn:L3. destruct o3; cbn [negb] in H; [|discriminate].
    destruct (addAssign (mMatrix m3) (mMatrix s)) as [sum|] eqn:A; cbn [bindP] in H; [|discriminate].
    inversion H as [[Hm Hb]]. clear H. apply addHash_loop in L1 as (-> & ND & DJ). apply addEvt_loop in L3 as (-> & DE).
    unfold mergeMultibinBoundaries in L2. cbn [withHashes mBounds] in L2.
    destruct (length (mBounds s) =? length (mBounds m)) eqn:LL; cbn [negb] in L2; [|discriminate]. apply Nat.eqb_eq in LL.
    destruct (hullLoop (mBounds s) (mBounds m) []) as [new|] eqn:HL; [|discriminate]. inversion L2; subst m2. clear L2.
    cbn [withHashes mContentHash mGitHash mKeyFiles mAmpHashes mAllZero mBounds mEvtMetas mMatrix] in *.
    split; auto. split; auto. split.
    { intros k Hk. rewrite forallb_forall in K. specialize (K k Hk). apply existsb_exists in K as (x & I & Q). apply str_eqb_eq in Q; subst; auto. }
    split; auto. split.
    { apply hullLoop_spec in HL as (_ & I & V); [|auto|constructor]. intros v. specialize (V v). rewrite V.
      assert (I' : forall v, In v (map fst (mBounds m)) -> In v (map fst (mBounds s))).
      { apply NoDup_length_incl; [apply sorted_keys_nodup; auto| |exact I]. rewrite !map_length. lia. }
      destruct (m_find v (mBounds m)) as [[l1 h1]|] eqn:F1; destruct (m_find v (mBounds s)) as [[l2 h2]|] eqn:F2.
      - rewrite (Rmin_comm l2), (Rmax_comm h2). reflexivity.
      - apply m_find_none in F2. apply F2, I'. destruct (In_dec (list_eq_dec ascii_dec) v (map fst (mBounds m))) as [|X]; auto. apply m_find_none in X; congruence.
      - apply m_find_none in F1. apply F1, I. destruct (In_dec (list_eq_dec ascii_dec) v (map fst (mBounds s))) as [|X]; auto. apply m_find_none in X; congruence.
      - reflexivity. }
    split; auto. split.
    { intros N. clear - N ND DJ. induction (mAmpHashes m) as [|h l IH]; cbn [app]; auto. inversion N; subst. constructor.
      - intros X. apply in_app_or in X as [X|X]; auto. apply (DJ h X). left; auto.
      - apply IH; auto. intros x Hx Y. apply (DJ x Hx). right; auto. }
    split; auto. split; auto. split; auto.
    apply negb_true_iff, str_eqb_neq in Hb. exact Hb.
  Qed.

  (* the same amplitude file, or the same event file, is never merged in twice *)
  Theorem C27_no_double_counting : forall m s m',
    (exists h, In h (mAmpHashes m) /\ In h (mAmpHashes s) /\ h <> mAllZero m) \/
    (exists x e, In x (mEvtMetas m) /\ In e (mEvtMetas s) /\ eqE x e = true) ->
    mergeIntegralMatrix eqE hashOf m s <> Some (m', true).
  Proof.
    intros m s m' D H. unfold mergeIntegralMatrix in H.
    destruct (nmbWaves (mMatrix s) =? nmbWaves (mMatrix m)); cbn [negb] in H; [|discriminate].
    destruct (str_eqb (mGitHash s) (mGitHash m)) eqn:G; cbn [negb] in H; [|discriminate].
    destruct (forallb _ _) eqn:K; cbn [negb] in H; [|discriminate].
    destruct (addLoop addAmplitudeHash (mAmpHashes s) m) as [m1 o1] eqn:L1. destruct o1; cbn [negb] in H; [|discriminate].
    destruct (mergeMultibinBoundaries (mBounds s) m1) as [m2 o2] eqn:L2. destruct o2; cbn [negb] in H; [|discriminate].
    destruct (addLoop (addEventMetadata eqE) (mEvtMetas s) m2) as [m3 o3] eqn:L3. destruct o3; cbn [negb] in H; [|discriminate].
    apply addHash_loop in L1 as (-> & ND & DJ). apply addEvt_loop in L3 as (-> & DE).
    destruct D as [(h & I1 & I2 & N)|(x & e & I1 & I2 & Q)].
    - apply (DJ h); auto. apply filter_In. split; auto. apply negb_true_iff, str_eqb_neq; auto.
    - assert (EM : mEvtMetas m2 = mEvtMetas m).
      { unfold mergeMultibinBoundaries in L2. destruct (negb _); [discriminate|]. destruct (hullLoop _ _ _); [|discriminate]. inversion L2. reflexivity. }
      rewrite (DE x e) in Q; [discriminate|rewrite EM; auto|auto].
  Qed.
End C27.

(* failure is not atomic: the hashes of the first file stay although the boundaries could
   not be merged; a later, correct merge is then refused *)
Definition mdDemo (h : list str) (b : smap (R * R)) : meta unit :=
  MD (lit "c") (lit "g") [] h (lit "0") b [] aimEmpty.
Theorem C27_failure_may_modify : exists m s m' : meta unit, exists b : smap (R * R),
  mergeIntegralMatrix (fun _ _ => true) (fun _ => lit "h") m s = Some (m', false) /\
  mAmpHashes m' <> mAmpHashes m /\
  let s' := mdDemo (mAmpHashes s) b in
  (exists m2, mergeIntegralMatrix (fun _ _ => true) (fun _ => lit "h") m s' = Some (m2, true)) /\
  (exists m3, mergeIntegralMatrix (fun _ _ => true) (fun _ => lit "h") m' s' = Some (m3, false)).
Proof.
  exists (mdDemo [lit "x"] [(lit "mass", (0, 1)%R)]), (mdDemo [lit "y"] []).
  eexists. exists [(lit "mass", (1, 2)%R)]. split; [reflexivity|]. split; [cbv; congruence|].
  split; eexists; reflexivity.
Qed.
(* and with equal numbers of waves but different wave names the program aborts after the
   hashes and boundaries have been changed *)
Theorem C27_different_waves_abort : exists m s : meta unit,
  mergeIntegralMatrix (fun _ _ => true) (fun _ => lit "h") m s = None.
Proof.
  exists (MD (lit "c") (lit "g") [] [] (lit "0") [] [] (fst (setWaveNames aimEmpty [lit "a"]))),
         (MD (lit "c") (lit "g") [] [] (lit "0") [] [] (fst (setWaveNames aimEmpty [lit "b"]))).
  reflexivity.
Qed.
