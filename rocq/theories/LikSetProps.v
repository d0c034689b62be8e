(* C42: the protocol of the set-up calls of the likelihood *)
From Coq Require Import String Ascii List ZArith Reals Bool Lia Lra Sorted Permutation.
From Coquelicot Require Import Complex.
From Verif Require Import ArrayModel PathModel StrModel CGBoxModel ParticleModel AmpIntModel LikParModel LikParProofs LikModel LikSetModel LikSetProofs.
Import ListNotations.
Open Scope list_scope. Open Scope nat_scope.

(* C42: addNormIntegral succeeds exactly if a call of init has succeeded before *)
Theorem C42_norm_needs_init : forall h s tr m s' b, runs h = Some (s, tr) -> exec s (SNorm m) = Some (s', b) ->
  (b = true <-> exists ws r mass, In (SInit ws r mass, true) tr).
Proof.
  intros h s tr m s' b H E. destruct (flags_trace _ _ _ H) as (F & _). rewrite <- F. apply norm_keeps in E. decompose [and] E. subst. reflexivity.
Qed.
(* C42: addAccIntegral succeeds exactly if a call of addNormIntegral has succeeded before *)
Theorem C42_acc_needs_norm : forall h s tr m o s' b, runs h = Some (s, tr) -> exec s (SAcc m o) = Some (s', b) ->
  (b = true <-> exists k, In (SNorm k, true) tr).
Proof.
  intros h s tr m o s' b H E. destruct (flags_trace _ _ _ H) as (_ & F & _). rewrite <- F. apply exec_acc in E as [m' E]. apply acc_keeps in E. decompose [and] E. subst. reflexivity.
Qed.
(* C42: addAmplitude succeeds only if addAccIntegral, addNormIntegral and init have succeeded before,
   and only for a wave of the wave list *)
Theorem C42_amp_needs_acc : forall h s tr ms s', runs h = Some (s, tr) -> exec s (SAmp ms) = Some (s', true) ->
  (exists m o, In (SAcc m o, true) tr) /\ (exists m, In (SNorm m, true) tr) /\
  exists ws r mass x, In (SInit ws r mass, true) tr /\ In x ws /\ ampCallName ms = Some (wiName x).
Proof.
  intros h s tr ms s' H E. destruct (flags_trace _ _ _ H) as (F1 & F2 & F3). destruct (setup_inv _ _ _ H) as (I1 & I2 & I3).
  cbn [exec] in E. apply amp_success in E as (n & e & w & fx & Hn & Hf & Ha & _ & Hacc).
  split; [apply F3; exact Hacc|]. split; [apply F2; auto|]. destruct I3 as [(J1 & _)|(J1 & ws & r & m & J2 & J3 & J4 & J5 & J6 & J7)].
  - rewrite (I1 (I2 Hacc)) in J1. discriminate.
  - destruct J4 as (_ & W2 & W3 & _). destruct (W3 _ _ _ Hf) as (He & Hw & Hnm). destruct (W2 _ _ He Hw) as (x & Hx & Hxn & _).
    exists ws, r, m, x. split; [exact J2|]. split; [|congruence]. apply nth_error_In in Hx. now apply filter_In in Hx.
Qed.

(* ---- names of the waves by position ---- *)
Lemma NoDup_map_inj {A B} (f : A -> B) l : NoDup (map f l) -> forall x y, In x l -> In y l -> f x = f y -> x = y.
Proof.
  induction l as [|a l IH]; cbn; intros N x y Hx Hy E; [destruct Hx|]. apply NoDup_cons_iff in N as [N1 N2].
  destruct Hx as [->|Hx], Hy as [->|Hy]; auto.
  - exfalso. apply N1. rewrite E. now apply in_map.
  - exfalso. apply N1. rewrite <- E. now apply in_map.
Qed.
Lemma inj_NoDup_map {A B} (f : A -> B) l : NoDup l -> (forall x y, In x l -> In y l -> f x = f y -> x = y) -> NoDup (map f l).
Proof.
  induction l as [|a l IH]; cbn; intros N Hi; [constructor|]. apply NoDup_cons_iff in N as [N1 N2]. constructor; [|apply IH; auto].
  intros Hin. apply in_map_iff in Hin as (y & E & Hy). assert (a = y) by auto. subst. contradiction.
Qed.
Lemma map_seq_nth {A B} (f : nat -> B) (g : A -> B) (l : list A) : (forall i, i < length l -> exists x, nth_error l i = Some x /\ f i = g x) -> map f (List.seq 0 (length l)) = map g l.
Proof.
  intros H. apply nth_error_ext. intros i. rewrite !nth_error_map. destruct (Nat.lt_ge_cases i (length l)) as [Hi|Hi].
  - destruct (H i Hi) as (x & -> & E). rewrite (nth_error_nth' _ 0) by (rewrite seq_length; exact Hi). rewrite seq_nth by exact Hi. cbn. congruence.
  - rewrite !(proj2 (nth_error_None _ _)); [reflexivity|exact Hi|rewrite seq_length; exact Hi].
Qed.
Lemma ofRefl_perm ws : Permutation ws (ofRefl 0 ws ++ ofRefl 1 ws).
Proof.
  induction ws as [|x l IH]; [constructor|]. unfold ofRefl. cbn [filter Nat.eqb]. destruct (0 <? wiRefl x)%Z; cbn [Bool.eqb].
  - apply Permutation_cons_app. exact IH.
  - cbn [app]. constructor. exact IH.
Qed.
Lemma names_perm s ws : waveListOf s ws -> Permutation (map (fun '(e, w) => stName s e w) (loop2 (stWaves s))) (map wiName ws).
Proof.
  intros (W1 & W2 & _). rewrite (Permutation_map _ (ofRefl_perm ws)), map_app. unfold loop2. cbn [flat_map]. rewrite app_nil_r, map_app, !map_map, !W1.
  apply Permutation_app; match goal with |- Permutation ?a ?b => replace a with b; [reflexivity|symmetry] end; apply map_seq_nth; intros i Hi; rewrite <- W1 in Hi.
  - destruct (W2 0 i (ltac:(lia)) Hi) as (x & Hx & E & _); eauto.
  - destruct (W2 1 i (ltac:(lia)) Hi) as (x & Hx & E & _); eauto.
Qed.
Lemma added_all s ws tr : waveListOf s ws -> (forall e w, stAdded s e w = true <-> exists n, ampAdded tr n /\ m_find n (stParams s) = Some (e, w)) ->
  (forallb (fun '(e, w) => stAdded s e w) (loop2 (stWaves s)) = true <-> NoDup (map wiName ws) /\ forall x, In x ws -> ampAdded tr (wiName x)).
Proof.
  intros W HA. pose proof (names_perm s ws W) as P. destruct W as (W1 & W2 & W3 & W4).
  assert (Hin : forall n, In n (map wiName ws) <-> exists e w, e < 2 /\ w < stWaves s e /\ stName s e w = n).
  { intros n. split.
    - intros H. apply (Permutation_in _ (Permutation_sym P)) in H. apply in_map_iff in H as ([e w] & E & H). apply loop2_In in H. exists e, w. tauto.
    - intros (e & w & He & Hw & <-). apply (Permutation_in _ P). apply in_map_iff. exists (e, w). split; [reflexivity|]. apply loop2_In. auto. }
  rewrite forallb_forall. split.
  - intros H.
    assert (H' : forall e w, e < 2 -> w < stWaves s e -> ampAdded tr (stName s e w) /\ m_find (stName s e w) (stParams s) = Some (e, w)).
    { intros e w He Hw. specialize (H (e, w)). cbn in H. rewrite HA in H. destruct H as (n & Ha & Hf); [apply loop2_In; auto|]. destruct (W3 _ _ _ Hf) as (_ & _ & ->). auto. }
    split.
    + apply (Permutation_NoDup P). apply inj_NoDup_map; [apply loop2_NoDup|]. intros [e w] [e' w'] H1 H2 E. apply loop2_In in H1 as [? ?], H2 as [? ?]. destruct (H' e w) as [_ F1]; auto. destruct (H' e' w') as [_ F2]; auto. congruence.
    + intros x Hx. destruct (proj1 (Hin (wiName x))) as (e & w & He & Hw & E); [now apply in_map|]. rewrite <- E. now apply H'.
  - intros [N H] [e w] Hi. apply HA. apply loop2_In in Hi as [He Hw]. exists (stName s e w). split.
    + assert (K : In (stName s e w) (map wiName ws)) by (apply Hin; eauto); apply in_map_iff in K as (x & <- & Hx); auto.
    + destruct (m_find (stName s e w) (stParams s)) as [[e' w']|] eqn:F; [|destruct (W4 e w He Hw F)]. destruct (W3 _ _ _ F) as (He' & Hw' & En).
      apply (Permutation_NoDup (Permutation_sym P)) in N. f_equal.
      apply (NoDup_map_inj _ _ N); [apply loop2_In; auto|apply loop2_In; auto|exact En].
Qed.

(* C42: after a successful init with distinct wave names finishInit succeeds exactly if an
   amplitude has been added for every wave of the list; if a name occurs twice it never does *)
Theorem C42_finish_iff : forall h s tr ws r mass s' b, runs h = Some (s, tr) -> In (SInit ws r mass, true) tr -> exec s SFinish = Some (s', b) ->
  (b = true <-> NoDup (map wiName ws) /\ forall x, In x ws -> exists ms, In (SAmp ms, true) tr /\ ampCallName ms = Some (wiName x)).
Proof.
  intros h s tr ws r mass s' b H Hi E. destruct (flags_trace _ _ _ H) as (F1 & _). destruct (setup_inv _ _ _ H) as (I1 & I2 & I3).
  destruct I3 as [(J1 & _ & _ & J8)|(J1 & ws0 & r0 & m0 & J2 & J3 & J4 & J5 & J6 & J7)]; [destruct (J8 _ _ _ Hi)|].
  destruct (J3 _ _ _ Hi) as (<- & _). etransitivity; [|exact (added_all s ws tr J4 J7)]. cbn [exec] in E. unfold finishInit in E. destruct (forallb _ (loop2 (stWaves s))); cbn [negb] in E.
  - split; [reflexivity|]. intros _. repeat dcase E; inversion E; reflexivity.
  - inversion E; subst. split; discriminate.
Qed.

(* C42: a second init after a successful one reads the wave list out of range, whatever its arguments *)
Theorem C42_init_twice : forall h s tr ws r mass ws' r' mass', runs h = Some (s, tr) -> In (SInit ws r mass, true) tr ->
  exec s (SInit ws' r' mass') = None.
Proof.
  intros h s tr ws r mass ws' r' mass' H Hi. destruct (setup_inv _ _ _ H) as (I1 & I2 & I3).
  destruct I3 as [(J1 & _ & _ & J8)|(J1 & ws0 & r0 & m0 & J2 & J3 & J4 & J5 & J6 & J7)]; [destruct (J8 _ _ _ Hi)|].
  destruct (J3 _ _ _ Hi) as (<- & _). destruct ws as [|x l]; [congruence|]. destruct (ofRefl_all _ J5 x (or_introl eq_refl)) as (e & He & Hx).
  cbn [exec]. apply (init_after_waves s ws' r' mass' e He). rewrite (proj1 J4). destruct (ofRefl e (x :: l)); [destruct Hx|cbn; lia].
Qed.

(* ---- concrete set-up: one wave "A" of positive reflectivity with integral z and one event with amplitude c ---- *)
Definition wA : waveIn := (lit "A"%string, 1%Z, 0%R).
Definition mA (z : C) : aim := AIM 1 [lit "A"%string] 1 [[z]].
Definition aA (c : C) : ampMeta := AM (lit "A"%string) [] [[c]].
Definition hPre (z : C) : list scall := [SInit [wA] 1 1%R; SNorm (mA z); SAcc (mA z) 0].
Definition hA (z c : C) : list scall := hPre z ++ [SAmp [Some (aA c)]].
Definition okAll (h : list scall) : list (scall * bool) := map (fun c => (c, true)) h.
Lemma Czero_false z : z <> RtoC 0 -> Czero z = false.
Proof. intros H. unfold Czero, Ceqb, decR, RtoC. cbn [fst snd]. destruct (Req_EM_T (fst z) 0), (Req_EM_T (snd z) 0); cbn; try reflexivity. destruct H. destruct z; cbn in *; subst; reflexivity. Qed.
Lemma Czero_true z : z = RtoC 0 -> Czero z = true.
Proof. intros ->. unfold Czero, Ceqb, decR, RtoC. cbn [fst snd]. destruct (Req_EM_T 0 0); [reflexivity|congruence]. Qed.
Lemma div1 (z : C) : (z / RtoC 1 = z)%C. Proof. unfold Cdiv. rewrite <- RtoC_inv by lra. rewrite Rinv_1. apply Cmult_1_r. Qed.

Definition dA : parData := match buildParDataStruct (Shape 1 (fun e => length (ofRefl e [wA]))) (upd2 (fun _ _ => []) 1 0 (lit "A"%string)) (upd2 (fun _ _ => 0%R) 1 0 0%R) 1 with Some d => d | None => PD 0 [] 0 (fun _ => (0, 0)%Z) end.
Lemma dA_pars : pdPars dA = [FP (lit "A"%string) 0 0%R false true; FP (lit "flat"%string) 0 0%R false true].
Proof. unfold dA, buildParDataStruct. cbn -[Req_EM_T Rle_dec]. unfold parStep. cbn -[Req_EM_T Rle_dec]. destruct (Req_EM_T 0 0); [reflexivity|congruence]. Qed.
Lemma dA_fixed : pdFixed dA = 0.
Proof. unfold dA, buildParDataStruct. cbn -[Req_EM_T Rle_dec]. unfold parStep. cbn -[Req_EM_T Rle_dec]. destruct (Req_EM_T 0 0); [reflexivity|congruence]. Qed.
(* the state before the amplitude is added *)
Definition sPre (z : C) : state :=
  St (fun e => length (ofRefl e [wA])) (upd2 (fun _ _ => []) 1 0 (lit "A"%string)) (upd2 (fun _ _ => 0%R) 1 0 0%R) (upd2 (fun _ _ => false) 1 0 false)
     [(lit "A"%string, (1, 0))] 1 (pdPars dA) (pdFixed dA) (pdMap dA) true true true false 1 (upd4 (fun _ _ _ _ => RtoC 0) 1 0 1 0 (z / RtoC 1)%C)
     (upd4 (fun _ _ _ _ => RtoC 0) 1 0 1 0 (z / RtoC 1)%C) (odiv 1 1) true 0 (fun _ _ _ => RtoC 0) [] [] (fun _ _ => 0%R).
Lemma build_dA : buildParDataStruct (Shape 1 (fun e => length (ofRefl e [wA]))) (upd2 (fun _ _ => []) 1 0 (lit "A"%string)) (upd2 (fun _ _ => 0%R) 1 0 0%R) 1 = Some dA.
Proof. unfold dA. destruct (build_spec (upd2 (fun _ _ => []) 1 0 (lit "A"%string)) (upd2 (fun _ _ => 0%R) 1 0 0%R) 1 (Shape 1 (fun e => length (ofRefl e [wA])))) as (d & -> & _). reflexivity. Qed.
Lemma runs_hPre z : runs (hPre z) = Some (sPre z, okAll (hPre z)).
Proof.
  unfold hPre, runs. cbn [foldO exec]. unfold init.
  assert (E : readWaveList fresh [wA] = Some (St (fun e => length (ofRefl e [wA])) (upd2 (fun _ _ => []) 1 0 (lit "A"%string)) (upd2 (fun _ _ => 0%R) 1 0 0%R) (upd2 (fun _ _ => false) 1 0 false) [(lit "A"%string, (1, 0))]
     1 [] 0 (fun _ => (0, 0)%Z) false false false false 0 (fun _ _ _ _ => RtoC 0) (fun _ _ _ _ => RtoC 0) None true 0 (fun _ _ _ => RtoC 0) [] [] (fun _ _ => 0%R))) by reflexivity.
  rewrite E. cbn [bnd stWaves]. change (length (ofRefl 0 [wA]) + length (ofRefl 1 [wA]) =? 0) with false. cbn iota.
  cbn [stName stThr]. rewrite build_dA. reflexivity.
Qed.
Lemma runs_hA z c : (0 < Re z)%R \/ z = RtoC 0 /\ c = RtoC 0 ->
  exists s, runs (hA z c) = Some (s, okAll (hA z c)) /\ exec (sPre z) (SAmp [Some (aA c)]) = Some (s, true) /\
    stDec s 1 0 0 = (if Czero z then c else c / RtoC (sqrt (Re z)))%C /\
    stPars s = (if Czero z && Czero c then fixWave (lit "A"%string) (pdPars dA) else pdPars dA) /\ stAdded s 1 0 = true.
Proof.
  intros H. unfold hA.
  assert (E : exists s, exec (sPre z) (SAmp [Some (aA c)]) = Some (s, true) /\
    stDec s 1 0 0 = (if Czero z then c else c / RtoC (sqrt (Re z)))%C /\
    stPars s = (if Czero z && Czero c then fixWave (lit "A"%string) (pdPars dA) else pdPars dA) /\ stAdded s 1 0 = true).
  { cbn [exec]. unfold addAmplitude. change (stAcc (sPre z)) with true. cbn [negb].
    change (mapOpt (fun m : option ampMeta => m) [Some (aA c)]) with (Some [aA c]). cbn [forallb negb andb].
    rewrite str_eqb_refl. cbn [negb andb]. change (m_find (amName (aA c)) (stParams (sPre z))) with (Some (1, 0)). cbn iota.
    change (stFiles (sPre z)) with (@nil (str * (nat * list nat))). cbn iota.
    change (countEvents false [] [aA c]) with (@nil (str * (nat * list nat)), 1). cbv zeta beta iota.
    change (checkOrder _ _) with true. change (readAmps false [] [aA c]) with (Some [c]). cbn [bnd negb].
    change (1 =? 0) with false. cbv beta iota. change (stEvts (sPre z)) with 0. cbn [Nat.eqb negb].
    change (stNormM (sPre z) 1 0 1 0) with (z / RtoC 1)%C. change (stAccM (sPre z) 1 0 1 0) with (z / RtoC 1)%C. rewrite div1. change (stUse (sPre z)) with true.
    cbn [copyAmps andb]. destruct H as [H|[-> ->]].
    - rewrite (Czero_false z) by (intros ->; cbn in H; lra). cbn [andb negb]. destruct (Rlt_dec 0 (Re z)); [|contradiction]. cbn [bnd negb]. eexists. split; [reflexivity|]. cbn. split; [reflexivity|]. split; [|reflexivity]. now destruct (Czero _).
    - rewrite !Czero_true by reflexivity. cbn [andb negb bnd]. rewrite !Czero_true by reflexivity. eexists. split; [reflexivity|]. cbn. repeat split; reflexivity. }
  destruct E as (s & E & R). exists s. split; [|split; [exact E|exact R]].
  rewrite runs_snoc, runs_hPre. cbn [bnd fst snd]. rewrite E. cbn [bnd fst snd]. unfold okAll. now rewrite map_app.
Qed.
