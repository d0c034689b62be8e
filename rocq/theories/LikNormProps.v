(* C43: the rescaling of the integrals in finishInit *)
From Coq Require Import String Ascii List ZArith Reals Bool Lia Lra.
From Coquelicot Require Import Complex.
From Verif Require Import ArrayModel PathModel StrModel CGBoxModel ParticleModel AmpIntModel FitErrModel FitErrProps LikParModel LikParProofs LikModel LikSetModel LikSetProofs LikSetProps.
Import ListNotations.
Open Scope list_scope. Open Scope nat_scope.

(* ---- specification ---- *)
(* the norm of a wave: root of its diagonal element, 1 if that is 0 *)
Definition waveNorm (m : mat4) (e i : nat) : R := if Req_EM_T (sqrt (Re (m e i e i))) 0 then 1%R else sqrt (Re (m e i e i)).
(* a wave of the likelihood: reflectivity and index *)
Definition isWave (s : state) (e i : nat) : Prop := e < 2 /\ i < stWaves s e.
Definition hermitian4 (s : state) (m : mat4) : Prop := forall e i f j, isWave s e i -> isWave s f j -> m f j e i = Cconj (m e i f j).
(* diagonal elements are integrals of |amplitude|^2 *)
Definition nonNegDiag (s : state) (m : mat4) : Prop := forall e i, isWave s e i -> Im (m e i e i) = 0%R /\ (0 <= Re (m e i e i))%R.

(* ---- proofs ---- *)
Definition peq (a b c d : nat) : bool := (a =? c) && (b =? d).
Lemma peq_spec a b c d : reflect ((a, b) = (c, d)) (peq a b c d).
Proof. unfold peq. destruct (Nat.eqb_spec a c), (Nat.eqb_spec b d); cbn; constructor; congruence. Qed.
Definition mem (c d : nat) (l : list (nat * nat)) : bool := existsb (fun '(f, j) => peq c d f j) l.
Lemma mem_spec c d l : reflect (In (c, d) l) (mem c d l).
Proof.
  unfold mem. destruct (existsb _ l) eqn:E; constructor.
  - apply existsb_exists in E as ([f j] & H & E). destruct (peq_spec c d f j) as [K|]; [rewrite K; exact H|discriminate].
  - intros H. enough (existsb (fun '(f, j) => peq c d f j) l = true) by congruence. apply existsb_exists. exists (c, d). split; [exact H|]. destruct (peq_spec c d c d); congruence.
Qed.
Lemma upd4_cases m e i f j v a b c d : upd4 m e i f j v a b c d = if peq a b e i && peq c d f j then v else m a b c d.
Proof. unfold upd4, peq. now rewrite <- !andb_assoc. Qed.
Lemma waveNorm_nz m e i : waveNorm m e i <> 0%R.
Proof. unfold waveNorm. destruct (Req_EM_T _ 0); lra. Qed.
Lemma normOf_some m m0 e i : m e i e i = m0 e i e i -> (0 <= Re (m0 e i e i))%R -> normOf m e i = Some (waveNorm m0 e i).
Proof. intros E H. unfold normOf, osqrt, waveNorm. rewrite E. destruct (Rle_dec 0 (Re (m0 e i e i))); [reflexivity|contradiction]. Qed.
Lemma normOf_inv m e i x : normOf m e i = Some x -> (0 <= Re (m e i e i))%R.
Proof. unfold normOf, osqrt. destruct (Rle_dec 0 (Re (m e i e i))); [auto|discriminate]. Qed.

Section Scale.
  Context (m0 : mat4).
  Lemma inner_fold e i l : NoDup l -> (forall f j, In (f, j) l -> (0 <= Re (m0 f j f j))%R) -> forall (m a : mat4), (forall f j, m f j f j = m0 f j f j) ->
    exists m' a', foldO (scaleInner e i (waveNorm m0 e i)) l (m, a) = Some (m', a') /\
      (forall x y c d, m' x y c d = if peq x y e i && mem c d l && negb (peq x y c d) then (m x y c d / RtoC (waveNorm m0 e i * waveNorm m0 c d))%C else m x y c d) /\
      (forall x y c d, a' x y c d = if peq x y e i && mem c d l then (a x y c d / RtoC (waveNorm m0 e i * waveNorm m0 c d))%C else a x y c d).
  Proof.
    induction l as [|[f j] l IH]; intros N P m a Hd.
    - exists m, a. cbn. split; [reflexivity|]. split; intros; now rewrite andb_false_r.
    - apply NoDup_cons_iff in N as [N1 N2]. cbn [foldO]. unfold scaleInner at 1. rewrite (normOf_some m m0 f j) by (auto; apply P; now left). cbn [bnd].
      
      set (m1 := if negb (e =? f) || negb (i =? j) then upd4 m e i f j (m e i f j / RtoC (waveNorm m0 e i * waveNorm m0 f j))%C else m).
      set (a1 := upd4 a e i f j (a e i f j / RtoC (waveNorm m0 e i * waveNorm m0 f j))%C).
      assert (E1 : forall x y c d, m1 x y c d = if peq x y e i && peq c d f j && negb (peq x y c d) then (m x y c d / RtoC (waveNorm m0 e i * waveNorm m0 c d))%C else m x y c d).
      { intros x y c d. unfold m1. destruct (negb (e =? f) || negb (i =? j)) eqn:B.
        - rewrite upd4_cases. destruct (peq_spec x y e i) as [X|], (peq_spec c d f j) as [Y|]; cbn [andb]; try reflexivity. inversion X; inversion Y; subst.
          replace (peq e i f j) with false; [reflexivity|]. unfold peq. destruct (e =? f), (i =? j); cbn in *; congruence.
        - destruct (peq_spec x y e i) as [X|], (peq_spec c d f j) as [Y|]; cbn [andb]; try reflexivity. inversion X; inversion Y; subst.
          unfold peq. destruct (e =? f), (i =? j); cbn in *; congruence. }
      assert (E2 : forall x y c d, a1 x y c d = if peq x y e i && peq c d f j then (a x y c d / RtoC (waveNorm m0 e i * waveNorm m0 c d))%C else a x y c d).
      { intros x y c d. unfold a1. rewrite upd4_cases. destruct (peq_spec x y e i) as [X|], (peq_spec c d f j) as [Y|]; cbn [andb]; try reflexivity. inversion X; inversion Y; subst. reflexivity. }
      clearbody m1 a1. destruct (IH N2 (fun f j H => P f j (or_intror H)) m1 a1) as (m' & a' & F & M & A).
      { intros x y. rewrite E1, <- Hd. destruct (peq_spec x y x y); [|congruence]. now rewrite andb_false_r. }
      exists m', a'. split; [exact F|]. split; intros x y c d; [rewrite M, E1|rewrite A, E2]; cbn [mem existsb];
      destruct (peq_spec x y e i) as [X|]; cbn [andb]; try reflexivity; destruct (peq_spec c d f j) as [Y|]; cbn [orb andb]; try reflexivity;
      (replace (mem c d l) with false; [try (destruct (negb (peq x y c d))); reflexivity|destruct (mem_spec c d l); congruence]).
  Qed.

  Context (n : nat -> nat).
  Lemma outer_fold l : NoDup l -> (forall f j, In (f, j) l -> (0 <= Re (m0 f j f j))%R) -> (forall f j, In (f, j) (loop2 n) -> (0 <= Re (m0 f j f j))%R) ->
    forall (m a : mat4), (forall f j, m f j f j = m0 f j f j) ->
    exists m' a', foldO (scaleOuter n) l (m, a) = Some (m', a') /\
      (forall x y c d, m' x y c d = if mem x y l && mem c d (loop2 n) && negb (peq x y c d) then (m x y c d / RtoC (waveNorm m0 x y * waveNorm m0 c d))%C else m x y c d) /\
      (forall x y c d, a' x y c d = if mem x y l && mem c d (loop2 n) then (a x y c d / RtoC (waveNorm m0 x y * waveNorm m0 c d))%C else a x y c d).
  Proof.
    induction l as [|[e i] l IH]; intros N P PL m a Hd.
    - exists m, a. cbn. split; [reflexivity|]. split; reflexivity.
    - apply NoDup_cons_iff in N as [N1 N2]. cbn [foldO]. unfold scaleOuter at 1. cbn [fst]. rewrite (normOf_some m m0 e i) by (auto; apply P; now left). cbn [bnd].
      destruct (inner_fold e i (loop2 n) (loop2_NoDup n) PL m a Hd) as (m1 & a1 & F1 & M1 & A1). rewrite F1. cbn [bnd].
      destruct (IH N2 (fun f j H => P f j (or_intror H)) PL m1 a1) as (m' & a' & F & M & A).
      { intros x y. rewrite M1, <- Hd. destruct (peq_spec x y x y); [|congruence]. now rewrite andb_false_r. }
      exists m', a'. split; [exact F|]. split; intros x y c d; [rewrite M, M1|rewrite A, A1]; cbn [mem existsb];
      (destruct (peq_spec x y e i) as [X|]; cbn [orb andb]; [|now rewrite ?andb_false_l]; inversion X; subst;
       replace (mem e i l) with false; [reflexivity|destruct (mem_spec e i l); congruence]).
  Qed.
End Scale.

Lemma diag_fold l m : NoDup l -> forall x y c d, fold_left (fun m ei => setDiag ei m) l m x y c d = if peq x y c d && mem x y l && negb (Czero (m x y x y)) then RtoC 1 else m x y c d.
Proof.
  revert m. induction l as [|[e i] l IH]; intros m N x y c d; [cbn; now rewrite andb_false_r|].
  apply NoDup_cons_iff in N as [N1 N2]. cbn [fold_left]. rewrite IH by exact N2. cbn [mem existsb].
  assert (E : forall x y c d, setDiag (e, i) m x y c d = if peq x y c d && peq x y e i && negb (Czero (m x y x y)) then RtoC 1 else m x y c d).
  { clear. intros x y c d. unfold setDiag. destruct (Czero (m e i e i)) eqn:Z.
    - destruct (peq_spec x y e i) as [X|]; [|now rewrite andb_false_r]. inversion X; subst. rewrite Z. now rewrite andb_false_r.
    - rewrite upd4_cases. destruct (peq_spec x y e i) as [X|], (peq_spec x y c d) as [Y|], (peq_spec c d e i) as [W|]; cbn [andb]; try reflexivity; try congruence. inversion X; subst. now rewrite Z. }
  rewrite !E. destruct (peq_spec x y x y); [|congruence]. cbn [andb]. destruct (peq_spec x y c d) as [Y|]; cbn [andb]; [|reflexivity].
  destruct (peq_spec x y e i) as [X|]; cbn [andb orb]; [|reflexivity]. inversion X; subst. replace (mem e i l) with false; [reflexivity|destruct (mem_spec e i l); congruence].
Qed.
Lemma phase_fold l m ph : (forall e i, In (e, i) l -> (0 <= Re (m e i e i : C))%R) ->
  exists ph', foldO (fun '(e, w) ph => do x <- osqrt (Re (m e w e w)); Some (upd2 ph e w x)) l ph = Some ph' /\
    forall e i, ph' e i = if mem e i l then sqrt (Re (m e i e i)) else ph e i.
Proof.
  revert ph. induction l as [|[e i] l IH]; intros ph P; [exists ph; split; reflexivity|]. cbn [foldO]. unfold osqrt at 1.
  destruct (Rle_dec 0 (Re (m e i e i))) as [|Hn]; [|destruct Hn; apply P; now left]. cbn [bnd].
  destruct (IH (upd2 ph e i (sqrt (Re (m e i e i)))) (fun a b H => P a b (or_intror H))) as (ph' & F & E). exists ph'. split; [exact F|].
  intros a b. rewrite E. cbn [mem existsb]. fold (mem a b l). destruct (peq_spec a b e i) as [X|X]; cbn [orb].
  - inversion X; subst. rewrite upd2_same. now destruct (mem e i l).
  - destruct (upd2_cases ph e i (sqrt (Re (m e i e i))) a b) as [[_ K]|[-> _]]; [contradiction|reflexivity].
Qed.
Lemma foldO_all {A B} (f : B -> A -> option A) (Q : B -> Prop) : (forall x a a', f x a = Some a' -> Q x) -> forall l a a', foldO f l a = Some a' -> forall x, In x l -> Q x.
Proof.
  intros H. induction l as [|y l IH]; intros a a' F x Hx; [destruct Hx|]. cbn [foldO] in F. destruct (f y a) as [a1|] eqn:E; [|discriminate]. cbn [bnd] in F.
  destruct Hx as [->|Hx]; [eapply H; eauto|eapply IH; eauto].
Qed.
Lemma finish_nonneg s s' : finishInit s = Some (s', true) -> forall e i, isWave s e i -> (0 <= Re (stNormM s e i e i))%R.
Proof.
  unfold finishInit. destruct (negb _); [discriminate|]. intros H e i Hw.
  match type of H with bnd (foldO ?f ?l ?a) _ = _ => destruct (foldO f l a) as [ph|] eqn:E; [|discriminate] end.
  eapply (foldO_all _ (fun '(e, i) => (0 <= Re (stNormM s e i e i))%R)) with (x := (e, i)) in E; [exact E| |apply loop2_In; exact Hw].
  intros [a b] p p' K. unfold osqrt in K. destruct (Rle_dec 0 _); [assumption|discriminate].
Qed.
Lemma mem_wave s e i : isWave s e i -> mem e i (loop2 (stWaves s)) = true.
Proof. intros H. destruct (mem_spec e i (loop2 (stWaves s))) as [|K]; [reflexivity|]. destruct K. apply loop2_In. exact H. Qed.

(* finishInit in closed form *)
Lemma finish_spec s : (forall e i, isWave s e i -> stAdded s e i = true) -> (forall e i, isWave s e i -> (0 <= Re (stNormM s e i e i))%R) ->
  exists s', finishInit s = Some (s', true) /\
    (forall e i, isWave s e i -> stPhase s' e i = sqrt (Re (stNormM s e i e i))) /\
    (stUse s = false -> stNormM s' = stNormM s /\ stAccM s' = stAccM s) /\
    (stUse s = true -> forall e i f j, isWave s e i -> isWave s f j ->
       stAccM s' e i f j = (stAccM s e i f j / RtoC (waveNorm (stNormM s) e i * waveNorm (stNormM s) f j))%C /\
       stNormM s' e i f j = (if peq e i f j then if Czero (stNormM s e i e i) then RtoC 0 else RtoC 1
                            else stNormM s e i f j / RtoC (waveNorm (stNormM s) e i * waveNorm (stNormM s) f j))%C).
Proof.
  intros Ha Hp. unfold finishInit.
  replace (forallb _ (loop2 (stWaves s))) with true.
  2:{ symmetry. apply forallb_forall. intros [e i] H. apply loop2_In in H. now apply Ha. }
  cbn [negb]. destruct (phase_fold (loop2 (stWaves s)) (stNormM s) (stPhase s)) as (ph & F & E); [intros e i H; apply loop2_In in H; now apply Hp|]. rewrite F. cbn [bnd].
  destruct (outer_fold (stNormM s) (stWaves s) (loop2 (stWaves s)) (loop2_NoDup _)) with (m := stNormM s) (a := stAccM s) as (m' & a' & FO & M & A).
  1-2: intros e i H; apply loop2_In in H; now apply Hp. { reflexivity. }
  destruct (stUse s).
  - change (foldO (scaleOuter (stWaves s)) (loop2 (stWaves s)) (stNormM s, stAccM s)) with (foldO (scaleOuter (stWaves s)) (loop2 (stWaves s)) ((stNormM s : mat4), (stAccM s : mat4))). rewrite FO. cbn [bnd fst snd]. eexists. split; [reflexivity|]. cbn. split; [intros e i Hw; rewrite E, (mem_wave s) by exact Hw; reflexivity|]. split; [discriminate|].
    intros _ e i f j W1 W2. split.
    + rewrite A, !(mem_wave s) by assumption. reflexivity.
    + rewrite diag_fold by apply loop2_NoDup. rewrite !M, !(mem_wave s) by assumption. destruct (peq_spec e i e i); [|congruence]. cbn [andb negb]. rewrite andb_true_r.
      destruct (peq_spec e i f j) as [X|]; cbn [andb negb]; [|reflexivity]. inversion X; subst. destruct (Czero (stNormM s f j f j)) eqn:Z; cbn [negb]; [|reflexivity].
      unfold Czero, Ceqb, decR in Z. cbn in Z. destruct (Req_EM_T (fst _) 0) as [Z1|]; [|discriminate]. destruct (Req_EM_T (snd _) 0) as [Z2|]; [|discriminate].
      destruct (stNormM s f j f j). cbn in *. subst. reflexivity.
  - eexists. split; [reflexivity|]. cbn. split; [intros e i Hw; rewrite E, (mem_wave s) by exact Hw; reflexivity|]. split; [split; reflexivity|discriminate].
Qed.

Lemma finish_inv s s' : finishInit s = Some (s', true) -> (forall e i, isWave s e i -> stAdded s e i = true) /\ (forall e i, isWave s e i -> (0 <= Re (stNormM s e i e i))%R).
Proof.
  intros H. split; [|eapply finish_nonneg; eauto]. unfold finishInit in H. destruct (forallb _ _) eqn:E; [|discriminate].
  rewrite forallb_forall in E. intros e i W. apply (E (e, i)). apply loop2_In. exact W.
Qed.
Lemma finish_closed s s' : finishInit s = Some (s', true) ->
    (forall e i, isWave s e i -> stPhase s' e i = sqrt (Re (stNormM s e i e i))) /\
    (stUse s = false -> stNormM s' = stNormM s /\ stAccM s' = stAccM s) /\
    (stUse s = true -> forall e i f j, isWave s e i -> isWave s f j ->
       stAccM s' e i f j = (stAccM s e i f j / RtoC (waveNorm (stNormM s) e i * waveNorm (stNormM s) f j))%C /\
       stNormM s' e i f j = (if peq e i f j then if Czero (stNormM s e i e i) then RtoC 0 else RtoC 1
                            else stNormM s e i f j / RtoC (waveNorm (stNormM s) e i * waveNorm (stNormM s) f j))%C).
Proof.
  intros H. destruct (finish_inv _ _ H) as [A P]. destruct (finish_spec s A P) as (s1 & E & R). rewrite H in E. inversion E; subst. exact R.
Qed.
Lemma waveNorm_pos m e i : (0 < waveNorm m e i)%R.
Proof. unfold waveNorm. destruct (Req_EM_T _ 0); [lra|]. pose proof (sqrt_pos (Re (m e i e i))). lra. Qed.
Lemma waveNorm_sq m e i : (0 <= Re (m e i e i))%R -> (Re (m e i e i) <> 0)%R -> (waveNorm m e i * waveNorm m e i = Re (m e i e i))%R.
Proof.
  intros H H0. unfold waveNorm. destruct (Req_EM_T (sqrt (Re (m e i e i))) 0) as [E|]; [|now apply sqrt_def].
  destruct H0. now apply sqrt_eq_0.
Qed.
Lemma waveNorm_zero m e i : Re (m e i e i) = 0%R -> waveNorm m e i = 1%R.
Proof. intros H. unfold waveNorm. rewrite H, sqrt_0. destruct (Req_EM_T 0 0); [reflexivity|congruence]. Qed.

(* C43: finishInit divides both matrices by the product of the norms of the two waves, where
   the norm of a wave is the root of its diagonal element and 1 for a vanishing wave; the
   diagonal of the normalisation matrix becomes 1, or stays 0 *)
Theorem C43_congruence : forall s s', exec s SFinish = Some (s', true) -> stUse s = true -> nonNegDiag s (stNormM s) ->
  exists n : nat -> nat -> R,
    (forall e i, isWave s e i -> (0 < n e i)%R /\
       (stNormM s e i e i = RtoC 0 -> n e i = 1%R) /\ (stNormM s e i e i <> RtoC 0 -> stNormM s e i e i = RtoC (n e i * n e i))) /\
    (forall e i f j, isWave s e i -> isWave s f j ->
       stNormM s' e i f j = (stNormM s e i f j / RtoC (n e i * n f j))%C /\ stAccM s' e i f j = (stAccM s e i f j / RtoC (n e i * n f j))%C) /\
    (forall e i, isWave s e i -> stNormM s' e i e i = if Czero (stNormM s e i e i) then RtoC 0 else RtoC 1).
Proof.
  intros s s' H Hu Hd. cbn [exec] in H. destruct (finish_closed _ _ H) as (_ & _ & C). specialize (C Hu).
  assert (D : forall e i, isWave s e i -> stNormM s e i e i = RtoC (Re (stNormM s e i e i))).
  { intros e i W. destruct (Hd e i W) as [I _]. destruct (stNormM s e i e i). cbn in *. subst. reflexivity. }
  assert (Q : forall e i, isWave s e i -> (0 < waveNorm (stNormM s) e i)%R /\
       (stNormM s e i e i = RtoC 0 -> waveNorm (stNormM s) e i = 1%R) /\ (stNormM s e i e i <> RtoC 0 -> stNormM s e i e i = RtoC (waveNorm (stNormM s) e i * waveNorm (stNormM s) e i))).
  { intros e i W. split; [apply waveNorm_pos|]. destruct (Hd e i W) as [I P]. split.
    - intros E. apply waveNorm_zero. rewrite E. reflexivity.
    - intros E. rewrite (D e i W) at 1. f_equal. symmetry. apply waveNorm_sq; [exact P|]. intros Z. apply E. rewrite (D e i W), Z. reflexivity. }
  exists (waveNorm (stNormM s)). split; [exact Q|]. split.
  - intros e i f j W1 W2. destruct (C e i f j W1 W2) as [A N]. split; [|exact A]. rewrite N. destruct (peq_spec e i f j) as [X|]; [|reflexivity]. inversion X; subst.
    destruct (Q f j W1) as (Qp & Q0 & Q1). destruct (Czero (stNormM s f j f j)) eqn:Z.
    + assert (E : stNormM s f j f j = RtoC 0). { unfold Czero, Ceqb, decR in Z. cbn in Z. destruct (Req_EM_T (fst _) 0); [|discriminate]. destruct (Req_EM_T (snd _) 0); [|discriminate]. destruct (stNormM s f j f j). cbn in *. subst. reflexivity. }
      rewrite E. unfold Cdiv. now rewrite Cmult_0_l.
    + assert (E : stNormM s f j f j <> RtoC 0) by (intros E; rewrite (Czero_true _ E) in Z; discriminate). rewrite (Q1 E) at 1. unfold Cdiv. rewrite Cinv_r; [reflexivity|].
      intros K. apply (f_equal fst) in K. cbn in K. assert (waveNorm (stNormM s) f j = 0)%R by nra. lra.
  - intros e i W. destruct (C e i e i W W) as [_ ->]. destruct (peq_spec e i e i); [reflexivity|congruence].
Qed.

(* C43: Hermitian matrices stay Hermitian *)
Theorem C43_hermitian : forall s s', exec s SFinish = Some (s', true) -> hermitian4 s (stNormM s) -> hermitian4 s (stAccM s) ->
  hermitian4 s' (stNormM s') /\ hermitian4 s' (stAccM s').
Proof.
  intros s s' H Hn Ha. cbn [exec] in H. destruct (finish_closed _ _ H) as (_ & C0 & C1). pose proof (finish_keeps _ _ _ H) as (Kw & _).
  assert (S : forall (x : C) (r : R), Cconj (x / RtoC r)%C = (Cconj x / RtoC r)%C).
  { intros x r. unfold Cdiv, Cconj, Cmult, Cinv, RtoC. cbn [fst snd]. f_equal; unfold Rdiv; ring. }
  assert (I : forall e i, isWave s' e i <-> isWave s e i) by (intros; unfold isWave; rewrite Kw; reflexivity).
  destruct (stUse s) eqn:U.
  - specialize (C1 eq_refl). split; intros e i f j W1 W2; apply I in W1, W2; destruct (C1 e i f j W1 W2) as [A N]; destruct (C1 f j e i W2 W1) as [A' N'].
    + rewrite N, N'. destruct (peq_spec e i f j) as [X|X].
      * inversion X; subst. destruct (peq_spec f j f j); [|congruence]. destruct (Czero _); unfold Cconj, RtoC; cbn; f_equal; ring.
      * destruct (peq_spec f j e i) as [Y|]; [congruence|]. rewrite (Hn e i f j W1 W2), S. now rewrite Rmult_comm.
    + rewrite A, A', (Ha e i f j W1 W2), S. now rewrite Rmult_comm.
  - destruct (C0 eq_refl) as [-> ->]. split; intros e i f j W1 W2; apply I in W1, W2; auto.
Qed.

(* C43: without normalised amplitudes the matrices stay as they are; the phase-space integrals are
   the roots of the diagonal in both cases *)
Theorem C43_phase_space : forall s s', exec s SFinish = Some (s', true) ->
  (forall e i, isWave s e i -> stPhase s' e i = sqrt (Re (stNormM s e i e i))) /\ (stUse s = false -> stNormM s' = stNormM s /\ stAccM s' = stAccM s).
Proof. intros s s' H. cbn [exec] in H. destruct (finish_closed _ _ H) as (A & B & _). auto. Qed.
