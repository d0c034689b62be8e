(* C22 (Hermitian, positive semi-definite), C23 (addEvent all-or-nothing), C24 (sums by
   wave name), C60 (renormalisation), C61 (equality) of integral matrices *)
From Coq Require Import String Ascii List ZArith Bool Reals Lia Lra.
From Coquelicot Require Import Complex.
From Verif Require Import PathModel StrModel ParticleModel ParticleProps AmpIntModel AmpIntProofs.
Import ListNotations.
Open Scope list_scope.
Open Scope nat_scope.

(* ---------------- specification ---------------- *)
(* matrices that come into being through the public interface *)
Inductive built : aim -> Prop :=
| b_new names m : setWaveNames aimEmpty names = (m, true) -> built m
| b_names m names m' b : built m -> setWaveNames m names = (m', b) -> built m'
| b_event m amps m' b : built m -> addEvent m amps = Some (m', b) -> built m'
| b_sum m k s : built m -> built k -> addAssign m k = Some s -> built s
| b_scale m f s : built m -> (0 <= f)%R -> mulAssign f m = Some s -> built s.

(* the quadratic form v^dagger M v *)
Definition quadForm (n : nat) (M : nat -> nat -> C) (v : nat -> C) : C :=
  csum (fun i => csum (fun j => (Cconj (v i) * M i j * v j)%C) n) n.
(* matrix element that belongs to a pair of wave names *)
Definition byName (m : aim) (a b : str) : option C :=
  doP i <- waveIndex m a; doP j <- waveIndex m b; mget (integrals m) i j.

(* ---------------- C22 ---------------- *)
(* every such matrix is a sum of outer products of amplitude vectors *)
Definition outerSum (evs : list (R * (str -> C))) (a b : str) : C :=
  csumA (fun e => (RtoC (fst e) * (snd e a * Cconj (snd e b)))%C) evs.

Lemma mulAssign_spec f m : wf m -> exists s, mulAssign f m = Some s /\ wf s /\ waveNames s = waveNames m /\
  nmbWaves s = nmbWaves m /\ nmbEvents s = Int_part (IZR (nmbEvents m) * f) /\
  forall i j, i < nmbWaves m -> j < nmbWaves m -> ent s i j = (ent m i j * RtoC f)%C.
Proof.
  intros W. unfold mulAssign.
  rewrite (updAll_ok (nmbWaves m) _ (fun i j => (ent m i j * RtoC f)%C)); [|apply W|].
  - cbn [bindP]. eexists; split; [reflexivity|]. cbn. split; [split; cbn; [apply W|apply square_build]|].
    repeat (split; [auto|]). intros i j Hi Hj. unfold ent at 1; cbn [integrals]. rewrite mget_build; auto.
  - intros i j x Hi Hj Hx. rewrite mget_ent in Hx by auto. inversion Hx; subst; auto.
Qed.

Lemma wf_new_names m names m' b : wf m -> setWaveNames m names = (m', b) ->
  wf m' /\ (nmbWaves m = 0 \/ m' = m).
Proof.
  intros W H. unfold setWaveNames in H. destruct (Nat.ltb_spec 0 (nmbWaves m)) as [L|L].
  - destruct (length names =? nmbWaves m); inversion H; subst; auto.
  - inversion H; subst. split; [|left; lia]. split; cbn; auto.
    apply (square_build (length names) (fun i j => match mget (integrals m) i j with Some x => x | None => RtoC 0 end)).
Qed.

Theorem C22_sum_of_outer_products : forall m, built m ->
  wf m /\ exists evs, Forall (fun e => (0 <= fst e)%R) evs /\
    forall i j wi wj, waveName m i = Some wi -> waveName m j = Some wj -> ent m i j = outerSum evs wi wj.
Proof.
  intros m B. induction B as [names m H|m names m' b B [W (evs & P & E)] H|m amps m' b B [W (evs & P & E)] H|m k s B1 [W1 (e1 & P1 & E1)] B2 [W2 (e2 & P2 & E2)] H|m f s B [W (evs & P & E)] Hf H].
  - pose proof (setWaveNames_wf names) as (W & Z & _). rewrite H in *. cbn [fst] in *. split; auto.
    exists []. split; [constructor|]. intros i j wi wj _ _. rewrite Z. reflexivity.
  - destruct (wf_new_names _ _ _ _ W H) as [W' [N| ->]]; [|split; eauto].
    split; auto. exists []. split; [constructor|]. intros i j wi wj Hi Hj.
    unfold setWaveNames in H. rewrite N in H. change (0 <? 0) with false in H. cbv iota in H. inversion H; subst.
    unfold ent; cbn [integrals]. unfold mresize.
    change (map (fun i0 => map _ _) _) with
      (build (length names) (fun i j => match mget (integrals m) i j with Some x => x | None => RtoC 0 end)).
    destruct (mget_square _ _ i j (square_build (length names) (fun i j => match mget (integrals m) i j with Some x => x | None => RtoC 0 end))) as [x X].
    + unfold waveName in Hi; cbn in Hi. apply nth_error_Some. congruence.
    + unfold waveName in Hj; cbn in Hj. apply nth_error_Some. congruence.
    + rewrite X. rewrite mget_build in X.
      2:{ unfold waveName in Hi; cbn in Hi. apply nth_error_Some. congruence. }
      2:{ unfold waveName in Hj; cbn in Hj. apply nth_error_Some. congruence. }
      inversion X; subst. rewrite (mget_out _ _ _ _ (wf_sq m W)) by lia. reflexivity.
  - destruct (addEvent_spec m amps W) as [S F].
    assert (D : (forall w, In w (waveNames m) -> amps w <> None) \/ exists w, In w (waveNames m) /\ amps w = None).
    { clear. induction (waveNames m) as [|w l IH]; [left; intros w []|].
      destruct (amps w) eqn:A; [|right; exists w; split; [left; auto|auto]].
      destruct IH as [IH|(w' & I & N)]; [left|right; exists w'; split; [right; auto|auto]].
      intros w' [<-|I]; [congruence|auto]. }
    destruct D as [D|D].
    2:{ rewrite (F D) in H. inversion H; subst. split; eauto. }
    destruct (S D) as (s & Es & Ws & Nn & Nw & _ & En). rewrite Es in H. inversion H; subst m' b. split; auto.
    set (a := fun w => match amps w with Some x => x | None => RtoC 0 end).
    exists (evs ++ [(1%R, a)]). split.
    { apply Forall_app. split; auto. constructor; [cbn; lra|constructor]. }
    intros i j wi wj Hi Hj. unfold waveName in Hi, Hj. rewrite Nn in Hi, Hj.
    destruct (En i j wi wj Hi Hj) as (x & y & Ax & Ay & ->). rewrite (E i j wi wj Hi Hj).
    unfold outerSum. rewrite csumA_app. unfold csumA at 3. cbn [fold_right fst snd]. unfold a. rewrite Ax, Ay. ring.
  - destruct (addSub_spec Cplus Z.add m k W1 W2) as [S F].
    assert (D : sameWaves m k).
    { destruct (identical_spec m k W1 W2) as (b & Eb & Hb). destruct b; [apply Hb; auto|].
      unfold addAssign, addSub in H. rewrite Eb in H. cbn in H. discriminate. }
    destruct (S D) as (s' & Es & Ws & Nn & Nw & _ & En). unfold addAssign in H. rewrite Es in H. inversion H; subst s'.
    split; auto. exists (e1 ++ e2). split; [apply Forall_app; auto|].
    intros i j wi wj Hi Hj. unfold waveName in Hi, Hj. rewrite Nn in Hi, Hj.
    destruct (En i j wi wj Hi Hj) as (ki & kj & A & B & A' & B' & ->).
    rewrite (E1 i j wi wj Hi Hj). destruct (findIdx_some _ _ _ A) as [A1 _]. destruct (findIdx_some _ _ _ B) as [A2 _].
    rewrite (E2 ki kj wi wj A1 A2). unfold outerSum. rewrite csumA_app. auto.
  - destruct (mulAssign_spec f m W) as (s' & Es & Ws & Nn & Nw & _ & En). rewrite Es in H. inversion H; subst s'.
    split; auto. exists (map (fun e => ((fst e * f)%R, snd e)) evs). split.
    { clear - P Hf. induction P as [|e l He P IH]; cbn [map]; constructor; auto. cbn [fst]. apply Rmult_le_pos; auto. }
    intros i j wi wj Hi Hj. unfold waveName in Hi, Hj. rewrite Nn in Hi, Hj.
    assert (i < nmbWaves m) by (rewrite (wf_n m W); apply nth_error_Some; congruence).
    assert (j < nmbWaves m) by (rewrite (wf_n m W); apply nth_error_Some; congruence).
    rewrite En, (E i j wi wj Hi Hj) by auto. unfold outerSum. clear.
    induction evs as [|e l IH]; unfold csumA in *; cbn [map fold_right fst snd]; [ring|].
    rewrite <- IH, RtoC_mult. ring.
Qed.

Theorem C22_hermitian : forall m, built m -> forall i j, i < nmbWaves m -> j < nmbWaves m ->
  exists x, mget (integrals m) i j = Some x /\ mget (integrals m) j i = Some (Cconj x).
Proof.
  intros m B i j Hi Hj. destruct (C22_sum_of_outer_products m B) as (W & evs & P & E).
  rewrite !mget_ent by auto. exists (ent m i j). split; auto. f_equal.
  destruct (waveName_lt m i W Hi) as [wi Ei]. destruct (waveName_lt m j W Hj) as [wj Ej].
  rewrite (E j i wj wi Ej Ei), (E i j wi wj Ei Ej). unfold outerSum. rewrite csumA_conj. apply csumA_ext.
  intros e _. rewrite !Cconj_mult, Cconj_R, Cconj_conj. ring.
Qed.

Lemma Cmult_conj_pos z : Im (z * Cconj z)%C = 0%R /\ (0 <= Re (z * Cconj z)%C)%R.
Proof. destruct z as [x y]. unfold Cmult, Cconj, Re, Im; cbn. split; [ring|nra]. Qed.
Lemma RtoC_mult_re r z : Re (RtoC r * z)%C = (r * Re z)%R /\ Im (RtoC r * z)%C = (r * Im z)%R.
Proof. destruct z; unfold RtoC, Cmult, Re, Im; cbn. split; ring. Qed.
Lemma csumA_re {A} (f : A -> C) l : (forall x, In x l -> Im (f x) = 0%R /\ (0 <= Re (f x))%R) ->
  Im (csumA f l) = 0%R /\ (0 <= Re (csumA f l))%R.
Proof.
  induction l as [|x l IH]; intros H; unfold csumA; cbn [fold_right]; [unfold RtoC, Im, Re; cbn; split; lra|].
  destruct (H x) as [Q1 Q2]; [left; auto|]. destruct IH as [Q3 Q4]; [intros; apply H; right; auto|].
  unfold csumA in *. destruct (f x), (fold_right (fun x0 s => (f x0 + s)%C) (RtoC 0) l). unfold Cplus, Re, Im in *; cbn in *. split; lra.
Qed.

Theorem C22_positive_semidefinite : forall m v, built m ->
  Im (quadForm (nmbWaves m) (ent m) v) = 0%R /\ (0 <= Re (quadForm (nmbWaves m) (ent m) v))%R.
Proof.
  intros m v B. destruct (C22_sum_of_outer_products m B) as (W & evs & P & E).
  set (nm := fun i => match waveName m i with Some w => w | None => [] end).
  assert (Q : quadForm (nmbWaves m) (ent m) v =
    csumA (fun e => (RtoC (fst e) * (csum (fun i => Cconj (v i) * snd e (nm i)) (nmbWaves m) *
                     Cconj (csum (fun i => Cconj (v i) * snd e (nm i)) (nmbWaves m))))%C) evs).
  { unfold quadForm.
    transitivity (csum (fun i => csum (fun j => csumA (fun e => (Cconj (v i) * (RtoC (fst e) * (snd e (nm i) * Cconj (snd e (nm j)))) * v j)%C) evs) (nmbWaves m)) (nmbWaves m)).
    { apply csum_ext; intros i Hi. apply csum_ext; intros j Hj.
      destruct (waveName_lt m i W Hi) as [wi Ei]. destruct (waveName_lt m j W Hj) as [wj Ej].
      rewrite (E i j wi wj Ei Ej). unfold outerSum. rewrite csumA_mult_r, csumA_mult_l. unfold nm. rewrite Ei, Ej. auto. }
    transitivity (csum (fun i => csumA (fun e => csum (fun j => (Cconj (v i) * (RtoC (fst e) * (snd e (nm i) * Cconj (snd e (nm j)))) * v j)%C) (nmbWaves m)) evs) (nmbWaves m)).
    { apply csum_ext; intros i Hi. apply csum_csumA. }
    rewrite csum_csumA. apply csumA_ext. intros e _. rewrite csum_conj.
    rewrite <- csum_mult_r, <- csum_mult_l. apply csum_ext. intros i _.
    rewrite <- csum_mult_l, <- csum_mult_l. apply csum_ext. intros j _. rewrite Cconj_mult, Cconj_conj. ring. }
  rewrite Q. apply csumA_re. intros e He.
  destruct (RtoC_mult_re (fst e) (csum (fun i => Cconj (v i) * snd e (nm i)) (nmbWaves m) *
                     Cconj (csum (fun i => Cconj (v i) * snd e (nm i)) (nmbWaves m)))%C) as [Q1 Q2].
  rewrite Q1, Q2. destruct (Cmult_conj_pos (csum (fun i => (Cconj (v i) * snd e (nm i))%C) (nmbWaves m))) as [D F].
  rewrite Forall_forall in P. specialize (P e He). split; [rewrite D; ring|apply Rmult_le_pos; auto].
Qed.

(* the diagonal in particular *)
Theorem C22_diagonal_real_nonnegative : forall m i, built m -> i < nmbWaves m ->
  exists r, (0 <= r)%R /\ mget (integrals m) i i = Some (RtoC r).
Proof.
  intros m i B Hi. destruct (C22_hermitian m B i i Hi Hi) as (x & E1 & E2). rewrite E1 in E2. inversion E2 as [E3].
  destruct (C22_positive_semidefinite m (fun j => if j =? i then RtoC 1 else RtoC 0) B) as [_ P].
  exists (fst x). split.
  - assert (Q : quadForm (nmbWaves m) (ent m) (fun j => if j =? i then RtoC 1 else RtoC 0) = ent m i i).
    { assert (K : forall (f : nat -> C) n, i < n -> csum (fun j => if j =? i then f j else RtoC 0) n = f i).
      { intros f n; induction n as [|n IH]; intros H; [lia|]. cbn [csum]. destruct (Nat.eqb_spec n i) as [->|].
        - replace (csum (fun j => if j =? i then f j else RtoC 0) i) with (RtoC 0); [ring|].
          clear. transitivity (csum (fun _ => RtoC 0) i); [symmetry; apply csum_zero|]. apply csum_ext. intros j Hj. destruct (Nat.eqb_spec j i); [lia|auto].
        - rewrite IH by lia. ring. }
      unfold quadForm. transitivity (csum (fun k => if k =? i then ent m k i else RtoC 0) (nmbWaves m)); [|apply (K (fun k => ent m k i)); auto].
      apply csum_ext. intros k Hk. transitivity (csum (fun j => if j =? i then (if k =? i then ent m k j else RtoC 0) else RtoC 0) (nmbWaves m)); [|apply (K (fun j => if k =? i then ent m k j else RtoC 0)); auto].
      apply csum_ext. intros j Hj. destruct (k =? i), (j =? i); rewrite ?Cconj_R; ring. }
    rewrite Q in P. unfold ent in P. rewrite E1 in P. exact P.
  - rewrite E1. f_equal. destruct x as [a b]. unfold Cconj in E3; cbn in *. inversion E3. unfold RtoC. f_equal. lra.
Qed.

Definition demo : aim := fst (setWaveNames aimEmpty [lit "a"; lit "b"]).
Example C22_ex : exists m, addEvent demo (fun w => Some (if str_eqb w (lit "a") then (1, 2)%R else (0, 1)%R)) = Some (m, true)
  /\ built m /\ nmbWaves m = 2.
Proof.
  set (f := fun w => Some (if str_eqb w (lit "a") then (1, 2)%R else (0, 1)%R)).
  assert (E : exists m, addEvent demo f = Some (m, true)) by (eexists; reflexivity).
  destruct E as [m E]. exists m. split; [exact E|]. split.
  - eapply b_event with (amps := f); [eapply (b_new [lit "a"; lit "b"]); reflexivity|exact E].
  - unfold f in E. cbv in E. inversion E. reflexivity.
Qed.

(* ---------------- C23 ---------------- *)
Theorem C23_failure_changes_nothing : forall m amps m', built m -> addEvent m amps = Some (m', false) ->
  m' = m /\ exists w, In w (waveNames m) /\ amps w = None.
Proof.
  intros m amps m' B H. destruct (C22_sum_of_outer_products m B) as (W & _). destruct (addEvent_spec m amps W) as [S F].
  assert (D : (forall w, In w (waveNames m) -> amps w <> None) \/ exists w, In w (waveNames m) /\ amps w = None).
  { clear. induction (waveNames m) as [|w l IH]; [left; intros w []|].
    destruct (amps w) eqn:A; [|right; exists w; split; [left; auto|auto]].
    destruct IH as [IH|(w' & I & N)]; [left|right; exists w'; split; [right; auto|auto]].
    intros w' [<-|I]; [congruence|auto]. }
  destruct D as [D|D]; [destruct (S D) as (s & E & _); congruence|]. rewrite (F D) in H. inversion H; subst; auto.
Qed.

Theorem C23_success_counts_one_event : forall m amps, built m ->
  (forall w, In w (waveNames m) -> amps w <> None) ->
  exists m', addEvent m amps = Some (m', true) /\ nmbEvents m' = u64 (nmbEvents m + 1) /\
    waveNames m' = waveNames m /\ nmbWaves m' = nmbWaves m /\
    forall i j wi wj a b x, waveName m i = Some wi -> waveName m j = Some wj -> amps wi = Some a -> amps wj = Some b ->
      mget (integrals m) i j = Some x -> mget (integrals m') i j = Some (x + a * Cconj b)%C.
Proof.
  intros m amps B D. destruct (C22_sum_of_outer_products m B) as (W & _). destruct (addEvent_spec m amps W) as [S _].
  destruct (S D) as (s & E & Ws & Nn & Nw & Ne & En). exists s. repeat (split; [auto|]).
  intros i j wi wj a b x Hi Hj Ha Hb Hx. destruct (En i j wi wj Hi Hj) as (a' & b' & A & B' & E').
  rewrite mget_ent; auto.
  - rewrite E'. unfold ent. rewrite Hx. congruence.
  - rewrite Nw, (wf_n m W). apply nth_error_Some. unfold waveName in Hi; congruence.
  - rewrite Nw, (wf_n m W). apply nth_error_Some. unfold waveName in Hj; congruence.
Qed.

(* the interface never reaches a state in which addEvent reads outside its vectors *)
Theorem C23_addEvent_always_defined : forall m amps, built m -> addEvent m amps <> None.
Proof.
  intros m amps B. destruct (C22_sum_of_outer_products m B) as (W & _). destruct (addEvent_spec m amps W) as [S F].
  intros N. unfold addEvent in *. rewrite (names_all m W) in *. cbn [bindP] in *.
  destruct (forallb (fun w => match amps w with Some _ => true | None => false end) (waveNames m)) eqn:E; [|discriminate].
  rewrite forallb_forall in E. destruct S as (s & X & _); [|congruence].
  intros w Hw. specialize (E w Hw). destruct (amps w); congruence.
Qed.

(* ---------------- C24 ---------------- *)
Lemma byName_ent m a b i j : wf m -> waveIndex m a = Some i -> waveIndex m b = Some j ->
  byName m a b = Some (ent m i j) /\ i < nmbWaves m /\ j < nmbWaves m.
Proof.
  intros W A B. unfold byName. rewrite A, B. cbn [bindP].
  destruct (findIdx_some _ _ _ A) as [A1 _]. destruct (findIdx_some _ _ _ B) as [B1 _].
  assert (i < nmbWaves m) by (rewrite (wf_n m W); apply nth_error_Some; congruence).
  assert (j < nmbWaves m) by (rewrite (wf_n m W); apply nth_error_Some; congruence).
  rewrite mget_ent; auto.
Qed.

Theorem C24_sum_is_by_wave_name : forall m k, wf m -> wf k ->
  (sameWaves m k -> exists s, addAssign m k = Some s /\ waveNames s = waveNames m /\
     nmbEvents s = u64 (nmbEvents m + nmbEvents k) /\
     forall a b, In a (waveNames m) -> In b (waveNames m) ->
       exists x y, byName m a b = Some x /\ byName k a b = Some y /\ byName s a b = Some (x + y)%C) /\
  (~ sameWaves m k -> addAssign m k = None).
Proof.
  intros m k Wm Wk. destruct (addSub_spec Cplus Z.add m k Wm Wk) as [S F]. split; [|exact F].
  intros D. destruct (S D) as (s & E & Ws & Nn & Nw & Ne & En). exists s. repeat (split; [auto|]).
  intros a b Ia Ib. destruct (findIdx_in _ _ Ia) as [i Ei]. destruct (findIdx_in _ _ Ib) as [j Ej].
  destruct (byName_ent m a b i j Wm Ei Ej) as (X & _).
  destruct (findIdx_some _ _ _ Ei) as [Hi _]. destruct (findIdx_some _ _ _ Ej) as [Hj _].
  destruct (En i j a b Hi Hj) as (ki & kj & A & B & _ & _ & EE).
  destruct (byName_ent k a b ki kj Wk A B) as (Y & _).
  assert (Si : waveIndex s a = Some i) by (unfold waveIndex; rewrite Nn; auto).
  assert (Sj : waveIndex s b = Some j) by (unfold waveIndex; rewrite Nn; auto).
  destruct (byName_ent s a b i j Ws Si Sj) as (Z & _).
  exists (ent m i j), (ent k ki kj). repeat (split; [auto|]). rewrite Z, EE; auto.
Qed.

(* sums do not depend on the order of the waves of the right-hand side *)
Theorem C24_order_of_right_hand_side_irrelevant : forall m k k' s s', wf m -> wf k -> wf k' ->
  (forall a b, byName k a b = byName k' a b) -> nmbEvents k = nmbEvents k' ->
  addAssign m k = Some s -> addAssign m k' = Some s' -> s = s'.
Proof.
  intros m k k' s s' Wm Wk Wk' H He E E'.
  assert (D : sameWaves m k).
  { destruct (identical_spec m k Wm Wk) as (b & Eb & Hb). destruct b; [apply Hb; auto|].
    unfold addAssign, addSub in E. rewrite Eb in E. discriminate. }
  assert (D' : sameWaves m k').
  { destruct (identical_spec m k' Wm Wk') as (b & Eb & Hb). destruct b; [apply Hb; auto|].
    unfold addAssign, addSub in E'. rewrite Eb in E'. discriminate. }
  destruct (proj1 (addSub_spec Cplus Z.add m k Wm Wk) D) as (t & Et & Wt & Nt & Nwt & Net & Ent).
  destruct (proj1 (addSub_spec Cplus Z.add m k' Wm Wk') D') as (t' & Et' & Wt' & Nt' & Nwt' & Net' & Ent').
  unfold addAssign in *. rewrite Et in E. rewrite Et' in E'. inversion E; inversion E'; subst t t'.
  assert (I : integrals s = integrals s').
  { rewrite (wf_build s Wt), (wf_build s' Wt'). rewrite Nwt, Nwt'.
    apply (square_ext (nmbWaves m)); try apply square_build. intros i j Hi Hj. rewrite !mget_build by auto. f_equal.
    destruct (waveName_lt m i Wm Hi) as [wi Ei]. destruct (waveName_lt m j Wm Hj) as [wj Ej].
    destruct (Ent i j wi wj Ei Ej) as (ki & kj & A & B & _ & _ & ->).
    destruct (Ent' i j wi wj Ei Ej) as (ki' & kj' & A' & B' & _ & _ & ->). f_equal.
    pose proof (byName_ent k wi wj _ _ Wk A B) as [Y _]. pose proof (byName_ent k' wi wj _ _ Wk' A' B') as [Y' _].
    rewrite H in Y. congruence. }
  destruct s, s'; cbn in *; subst. congruence.
Qed.

(* subtraction undoes addition *)
Theorem C24_subtraction_undoes_addition : forall m k s, wf m -> wf k -> (0 <= nmbEvents m < 2 ^ 64)%Z ->
  addAssign m k = Some s -> subAssign s k = Some m.
Proof.
  intros m k s Wm Wk Hn E.
  assert (D : sameWaves m k).
  { destruct (identical_spec m k Wm Wk) as (b & Eb & Hb). destruct b; [apply Hb; auto|].
    unfold addAssign, addSub in E. rewrite Eb in E. discriminate. }
  destruct (proj1 (addSub_spec Cplus Z.add m k Wm Wk) D) as (t & Et & Wt & Nt & Nwt & Net & Ent).
  unfold addAssign in E. rewrite Et in E. inversion E; subst t.
  assert (D' : sameWaves s k) by (unfold sameWaves in *; rewrite Nt; auto).
  destruct (proj1 (addSub_spec Cminus Z.sub s k Wt Wk) D') as (t & Et2 & Wt2 & Nt2 & Nwt2 & Net2 & Ent2).
  unfold subAssign. rewrite Et2. f_equal.
  assert (I : integrals t = integrals m).
  { rewrite (wf_build t Wt2), (wf_build m Wm). rewrite Nwt2, Nwt.
    apply (square_ext (nmbWaves m)); try apply square_build. intros i j Hi Hj. rewrite !mget_build by auto. f_equal.
    destruct (waveName_lt m i Wm Hi) as [wi Ei]. destruct (waveName_lt m j Wm Hj) as [wj Ej].
    destruct (Ent i j wi wj Ei Ej) as (ki & kj & A & B & _ & _ & X).
    assert (Si : waveName s i = Some wi) by (unfold waveName; rewrite Nt; auto).
    assert (Sj : waveName s j = Some wj) by (unfold waveName; rewrite Nt; auto).
    destruct (Ent2 i j wi wj Si Sj) as (ki' & kj' & A' & B' & _ & _ & Y).
    rewrite A in A'. rewrite B in B'. inversion A'; inversion B'; subst. rewrite Y, X. ring. }
  assert (EV : nmbEvents t = nmbEvents m).
  { rewrite Net2, Net. unfold u64. rewrite Zminus_mod_idemp_l. replace (nmbEvents m + nmbEvents k - nmbEvents k)%Z with (nmbEvents m) by lia.
    apply Z.mod_small; auto. }
  destruct t, m; cbn in *. congruence.
Qed.

Example C24_ex : exists m k, wf m /\ wf k /\ waveNames m <> waveNames k /\ sameWaves m k.
Proof.
  exists demo, (fst (setWaveNames aimEmpty [lit "b"; lit "a"])).
  split; [apply setWaveNames_wf|]. split; [apply setWaveNames_wf|]. split; [vm_compute; congruence|].
  split; [reflexivity|]. intros w; cbn; tauto.
Qed.

(* ---------------- C60 ---------------- *)
(* renormalize(n) changes the number of events but not the normalised matrix elements *)
Theorem C60_renormalisation_keeps_elements : forall m n i j, wf m -> (0 < nmbEvents m)%Z -> (0 < n)%Z ->
  exists m', renormalize n m = Some m' /\ nmbEvents m' = n /\ waveNames m' = waveNames m /\ element m' i j = element m i j.
Proof.
  intros m n i j W He Hn. unfold renormalize.
  destruct (mulAssign_spec (IZR n / IZR (nmbEvents m)) m W) as (s & Es & Ws & Nn & Nw & _ & En). rewrite Es. cbn [bindP].
  eexists; split; [reflexivity|]. cbn [nmbEvents waveNames]. repeat (split; [auto|]).
  unfold element. cbn [nmbWaves integrals nmbEvents]. rewrite Nw.
  destruct (Nat.leb_spec (nmbWaves m) i) as [|Hi]; auto. destruct (Nat.leb_spec (nmbWaves m) j) as [|Hj]; auto.
  rewrite (mget_ent m i j W Hi Hj). rewrite (mget_ent s i j) by (auto; lia). cbn [bindP]. rewrite En by auto. f_equal.
  assert (A : IZR n <> 0%R) by (apply not_0_IZR; lia). assert (B : IZR (nmbEvents m) <> 0%R) by (apply not_0_IZR; lia).
  rewrite RtoC_div by auto. field. split; intros X; apply RtoC_inj in X; auto.
Qed.

(* ---------------- C61 ---------------- *)
Lemma Ceqb_eq x y : Ceqb x y = true <-> x = y.
Proof.
  unfold Ceqb, decR. destruct x as [a b], y as [c d]; cbn. destruct (Req_EM_T a c), (Req_EM_T b d); cbn; split; intros H; try discriminate; subst; auto; inversion H; congruence.
Qed.
Theorem C61_equality_is_by_wave_name : forall m k, wf m -> wf k -> NoDup (waveNames m) ->
  exists b, aimEq m k = Some b /\
  (b = true <-> sameWaves m k /\ nmbEvents m = nmbEvents k /\ forall a c, byName m a c = byName k a c).
Proof.
  intros m k Wm Wk ND. destruct (identical_spec m k Wm Wk) as (b & Eb & Hb). unfold aimEq. rewrite Eb. cbn [bindP].
  destruct b; cbn [negb orb].
  2:{ exists false. split; auto. split; [discriminate|]. intros [H _]. apply Hb in H; discriminate. }
  assert (D : sameWaves m k) by (apply Hb; auto).
  destruct (Z.eqb_spec (nmbEvents m) (nmbEvents k)) as [Ee|Ee]; cbn [negb].
  2:{ exists false. split; auto. split; [discriminate|]. intros (_ & H & _). congruence. }
  set (g := fun i j => match waveName m i, waveName m j with
      | Some wi, Some wj => match waveIndex k wi, waveIndex k wj with
                            | Some ki, Some kj => Ceqb (ent m i j) (ent k ki kj) | _, _ => false end
      | _, _ => false end).
  assert (LK : forall i, i < nmbWaves m -> exists w ki, waveName m i = Some w /\ waveIndex k w = Some ki /\ ki < nmbWaves k /\ waveIndex m w = Some i).
  { intros i Hi. destruct (waveName_lt m i Wm Hi) as [w Ew]. exists w.
    destruct D as [_ D]. pose proof Ew as Ew'. apply nth_error_In in Ew. apply D in Ew. destruct (findIdx_in _ _ Ew) as [ki E].
    exists ki. split; [exact Ew'|]. split; [exact E|]. split.
    - destruct (findIdx_some _ _ _ E) as [A _]. rewrite (wf_n k Wk). apply nth_error_Some. congruence.
    - apply findIdx_nodup; auto. }
  rewrite (mapP_map _ (fun i => map (g i) (seq 0 (nmbWaves m)))).
  2:{ intros i Hi. apply mapP_map. intros j Hj. apply in_seq in Hi, Hj.
      destruct (LK i ltac:(lia)) as (wi & ki & A1 & A2 & A3 & _). destruct (LK j ltac:(lia)) as (wj & kj & B1 & B2 & B3 & _).
      unfold g. rewrite A1, B1. cbn [bindP]. rewrite (mget_ent m i j) by (auto; lia). cbn [bindP]. rewrite A2, B2. cbn [bindP].
      rewrite (mget_ent k ki kj) by auto. reflexivity. }
  cbn [bindP]. eexists; split; [reflexivity|]. rewrite forallb_forall. split.
  - intros H. split; auto. split; auto. intros a c. unfold byName.
    destruct (waveIndex m a) as [i|] eqn:Ei.
    2:{ cbn [bindP]. apply findIdx_none in Ei. destruct (waveIndex k a) as [ka|] eqn:Ek; auto.
        exfalso. apply Ei, D. destruct (findIdx_some _ _ _ Ek) as [X _]. eapply nth_error_In; eauto. }
    destruct (findIdx_some _ _ _ Ei) as [Hi _].
    assert (Li : i < nmbWaves m) by (rewrite (wf_n m Wm); apply nth_error_Some; congruence).
    destruct (LK i Li) as (wi & ki & A1 & A2 & A3 & A4).
    assert (wi = a) by (unfold waveName in A1; congruence). subst wi. rewrite A2. cbn [bindP].
    destruct (waveIndex m c) as [j|] eqn:Ej.
    2:{ cbn [bindP]. apply findIdx_none in Ej. destruct (waveIndex k c) as [ka|] eqn:Ek; auto.
        exfalso. apply Ej, D. destruct (findIdx_some _ _ _ Ek) as [X _]. eapply nth_error_In; eauto. }
    destruct (findIdx_some _ _ _ Ej) as [Hj _].
    assert (Lj : j < nmbWaves m) by (rewrite (wf_n m Wm); apply nth_error_Some; congruence).
    destruct (LK j Lj) as (wj & kj & B1 & B2 & B3 & B4).
    assert (wj = c) by (unfold waveName in B1; congruence). subst wj. rewrite B2. cbn [bindP].
    rewrite (mget_ent m i j), (mget_ent k ki kj) by auto. f_equal.
    assert (G : g i j = true).
    { assert (R : forallb (fun b => b) (map (g i) (seq 0 (nmbWaves m))) = true).
      { apply H. apply in_map_iff. exists i. split; auto. apply in_seq; lia. }
      rewrite forallb_forall in R. apply R. apply in_map. apply in_seq; lia. }
    unfold g in G. rewrite A1, B1, A2, B2 in G. apply Ceqb_eq; auto.
  - intros (_ & _ & H) r Hr. apply in_map_iff in Hr as (i & <- & Hi). apply in_seq in Hi.
    rewrite forallb_forall. intros x Hx. apply in_map_iff in Hx as (j & <- & Hj). apply in_seq in Hj.
    destruct (LK i ltac:(lia)) as (wi & ki & A1 & A2 & A3 & A4). destruct (LK j ltac:(lia)) as (wj & kj & B1 & B2 & B3 & B4).
    unfold g. rewrite A1, B1, A2, B2. apply Ceqb_eq.
    specialize (H wi wj). unfold byName in H. rewrite A2, B2, A4, B4 in H. cbn [bindP] in H.
    rewrite (mget_ent m i j), (mget_ent k ki kj) in H by (auto; lia). inversion H; auto.
Qed.

(* with duplicate wave names a matrix need not be equal to itself *)
Theorem C61_not_reflexive_with_duplicate_names : exists m, wf m /\ aimEq m m = Some false.
Proof.
  exists (AIM 2 [lit "a"; lit "a"] 1 [[RtoC 0; RtoC 1]; [RtoC 1; RtoC 2]]). split.
  - split; [reflexivity|]. split; [reflexivity|]. intros r [<-|[<-|[]]]; reflexivity.
  - unfold aimEq. cbn -[Ceqb]. unfold Ceqb, decR; cbn.
    repeat match goal with |- context [Req_EM_T ?x ?y] => destruct (Req_EM_T x y); cbn; try reflexivity; try lra end.
Qed.
