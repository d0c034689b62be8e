(* Lemmas about the integral-matrix model *)
From Coq Require Import String Ascii List ZArith Bool Reals Lia Lra.
From Coquelicot Require Import Complex.
From Verif Require Import PathModel StrModel ParticleModel ParticleProps AmpIntModel.
Import ListNotations.
Open Scope list_scope.
Open Scope nat_scope.

(* ---- finite complex sums ---- *)
Fixpoint csum (f : nat -> C) (n : nat) : C :=
  match n with O => RtoC 0 | S k => (csum f k + f k)%C end.
Definition csumA {A} (f : A -> C) (l : list A) : C := fold_right (fun x s => (f x + s)%C) (RtoC 0) l.

Lemma csum_ext f g n : (forall i, i < n -> f i = g i) -> csum f n = csum g n.
Proof. induction n; cbn [csum]; intros H; auto. rewrite IHn, (H n) by auto. auto. Qed.
Lemma csum_zero n : csum (fun _ => RtoC 0) n = RtoC 0.
Proof. induction n; cbn [csum]; auto. rewrite IHn. ring. Qed.
Lemma csum_plus f g n : csum (fun i => (f i + g i)%C) n = (csum f n + csum g n)%C.
Proof. induction n; cbn [csum]; [ring|]. rewrite IHn. ring. Qed.
Lemma csum_mult_l c f n : csum (fun i => (c * f i)%C) n = (c * csum f n)%C.
Proof. induction n; cbn [csum]; [ring|]. rewrite IHn. ring. Qed.
Lemma csum_mult_r c f n : csum (fun i => (f i * c)%C) n = (csum f n * c)%C.
Proof. induction n; cbn [csum]; [ring|]. rewrite IHn. ring. Qed.
Lemma Cconj_0 : Cconj (RtoC 0) = RtoC 0.
Proof. unfold Cconj, RtoC; cbn. f_equal; lra. Qed.
Lemma Cconj_plus a b : Cconj (a + b)%C = (Cconj a + Cconj b)%C.
Proof. unfold Cconj, Cplus; cbn. f_equal; lra. Qed.
Lemma Cconj_mult a b : Cconj (a * b)%C = (Cconj a * Cconj b)%C.
Proof. unfold Cconj, Cmult; cbn. f_equal; lra. Qed.
Lemma Cconj_conj a : Cconj (Cconj a) = a.
Proof. destruct a; unfold Cconj; cbn. f_equal; lra. Qed.
Lemma Cconj_R r : Cconj (RtoC r) = RtoC r.
Proof. unfold Cconj, RtoC; cbn. f_equal; lra. Qed.
Lemma csum_conj f n : Cconj (csum f n) = csum (fun i => Cconj (f i)) n.
Proof. induction n; cbn [csum]; [apply Cconj_0|]. rewrite Cconj_plus, IHn. auto. Qed.
Lemma csumA_app {A} (f : A -> C) l k : csumA f (l ++ k) = (csumA f l + csumA f k)%C.
Proof. induction l; cbn [csumA app fold_right]; [unfold csumA; ring|]. fold (csumA f (l ++ k)). rewrite IHl. unfold csumA; cbn; ring. Qed.
Lemma csumA_ext {A} (f g : A -> C) l : (forall x, In x l -> f x = g x) -> csumA f l = csumA g l.
Proof.
  induction l; intros H; auto. unfold csumA in *; cbn [fold_right]. rewrite (H a) by (left; auto).
  rewrite IHl; auto. intros; apply H; right; auto.
Qed.
Lemma csumA_mult_r {A} (f : A -> C) c l : csumA (fun x => (f x * c)%C) l = (csumA f l * c)%C.
Proof. induction l; unfold csumA in *; cbn [fold_right]; [ring|]. rewrite IHl. ring. Qed.
Lemma csumA_mult_l {A} (f : A -> C) c l : csumA (fun x => (c * f x)%C) l = (c * csumA f l)%C.
Proof. induction l; unfold csumA in *; cbn [fold_right]; [ring|]. rewrite IHl. ring. Qed.
Lemma csum_csumA {A} (f : nat -> A -> C) l n : csum (fun i => csumA (f i) l) n = csumA (fun x => csum (fun i => f i x) n) l.
Proof.
  induction l; unfold csumA in *; cbn [fold_right]; [apply csum_zero|]. rewrite csum_plus, IHl. auto.
Qed.
Lemma csumA_conj {A} (f : A -> C) l : Cconj (csumA f l) = csumA (fun x => Cconj (f x)) l.
Proof. induction l; unfold csumA in *; cbn [fold_right]; [apply Cconj_0|]. rewrite Cconj_plus, IHl; auto. Qed.

(* ---- mapP ---- *)
Lemma mapP_map {A B} (f : A -> option B) (g : A -> B) l :
  (forall x, In x l -> f x = Some (g x)) -> mapP f l = Some (map g l).
Proof.
  induction l as [|x l IH]; cbn [mapP map]; intros H; auto.
  rewrite (H x) by (left; auto). cbn [bindP]. rewrite IH by (intros; apply H; right; auto). auto.
Qed.
Lemma mapP_None {A B} (f : A -> option B) l x : In x l -> f x = None -> mapP f l = None.
Proof.
  induction l as [|y l IH]; cbn [mapP]; intros H E; [destruct H|].
  destruct H as [->|H]; [rewrite E; auto|]. destruct (f y); auto. cbn [bindP]. rewrite IH; auto.
Qed.
Lemma mapP_length {A B} (f : A -> option B) l ys : mapP f l = Some ys -> length ys = length l.
Proof. intros H. apply mapP_in in H. induction H; cbn; auto. Qed.
Lemma mapP_nth {A B} (f : A -> option B) l ys i x : mapP f l = Some ys -> nth_error l i = Some x ->
  exists y, nth_error ys i = Some y /\ f x = Some y.
Proof.
  intros H; apply mapP_in in H. revert i x; induction H; intros [|i] z; cbn; intros E; try discriminate.
  - inversion E; subst; eauto.
  - eauto.
Qed.
Lemma nth_error_seq n i : i < n -> nth_error (seq 0 n) i = Some i.
Proof.
  intros H. rewrite (nth_error_nth' _ 0) by (rewrite seq_length; auto). rewrite seq_nth by auto. auto.
Qed.
Lemma nth_error_map_seq {A} (g : nat -> A) n i : i < n -> nth_error (map g (seq 0 n)) i = Some (g i).
Proof. intros H. apply map_nth_error. apply nth_error_seq; auto. Qed.

(* ---- well-formed matrices ---- *)
Definition square (n : nat) (m : list (list C)) : Prop := length m = n /\ forall r, In r m -> length r = n.
Record wf (m : aim) : Prop := { wf_n : nmbWaves m = length (waveNames m); wf_sq : square (nmbWaves m) (integrals m) }.
Definition build (n : nat) (g : nat -> nat -> C) : list (list C) := map (fun i => map (g i) (seq 0 n)) (seq 0 n).
Definition ent (m : aim) (i j : nat) : C := match mget (integrals m) i j with Some x => x | None => RtoC 0 end.

Lemma square_build n g : square n (build n g).
Proof.
  unfold build; split; [rewrite map_length, seq_length; auto|].
  intros r H. apply in_map_iff in H as (i & <- & _). rewrite map_length, seq_length; auto.
Qed.
Lemma mget_build n g i j : i < n -> j < n -> mget (build n g) i j = Some (g i j).
Proof. intros Hi Hj. unfold mget, build. rewrite nth_error_map_seq by auto. rewrite nth_error_map_seq; auto. Qed.
Lemma mget_square n m i j : square n m -> i < n -> j < n -> exists x, mget m i j = Some x.
Proof.
  intros [L R] Hi Hj. unfold mget. destruct (nth_error m i) as [r|] eqn:E.
  - destruct (nth_error r j) eqn:E2; eauto. apply nth_error_None in E2. rewrite (R r) in E2; [lia|].
    eapply nth_error_In; eauto.
  - apply nth_error_None in E. lia.
Qed.
Lemma mget_out n m i j : square n m -> n <= i \/ n <= j -> mget m i j = None.
Proof.
  intros [L R] H. unfold mget. destruct (nth_error m i) as [r|] eqn:E; auto.
  assert (i < n) by (rewrite <- L; apply nth_error_Some; congruence).
  apply nth_error_None. rewrite (R r); [lia|]. eapply nth_error_In; eauto.
Qed.
Lemma square_ext n m k : square n m -> square n k -> (forall i j, i < n -> j < n -> mget m i j = mget k i j) -> m = k.
Proof.
  intros [L1 R1] [L2 R2] H.
  apply (nth_ext m k [] []); [congruence|]. intros i Hi.
  assert (A : nth_error m i = Some (nth i m [])) by (apply nth_error_nth'; lia).
  assert (B : nth_error k i = Some (nth i k [])) by (apply nth_error_nth'; lia).
  assert (La : length (nth i m []) = n) by (apply R1, nth_In; lia).
  assert (Lb : length (nth i k []) = n) by (apply R2, nth_In; lia).
  apply (nth_ext _ _ (RtoC 0) (RtoC 0)); [congruence|]. intros j Hj.
  specialize (H i j ltac:(lia) ltac:(lia)). unfold mget in H. rewrite A, B in H.
  rewrite (nth_error_nth' (nth i m []) (RtoC 0)) in H by lia. rewrite (nth_error_nth' (nth i k []) (RtoC 0)) in H by lia.
  inversion H; auto.
Qed.
Lemma mget_ent m i j : wf m -> i < nmbWaves m -> j < nmbWaves m -> mget (integrals m) i j = Some (ent m i j).
Proof. intros W Hi Hj. unfold ent. destruct (mget_square _ _ i j (wf_sq m W) Hi Hj) as [x ->]. auto. Qed.
Lemma wf_build m : wf m -> integrals m = build (nmbWaves m) (ent m).
Proof.
  intros W. apply (square_ext (nmbWaves m)); [apply W|apply square_build|].
  intros i j Hi Hj. rewrite mget_build, mget_ent; auto.
Qed.

Lemma updAll_ok n f g m : square n m ->
  (forall i j x, i < n -> j < n -> mget m i j = Some x -> f i j x = Some (g i j)) ->
  updAll n f m = Some (build n g).
Proof.
  intros S H. unfold updAll, build. apply mapP_map. intros i Hi. apply in_seq in Hi.
  destruct S as [L R]. destruct (nth_error m i) as [row|] eqn:E.
  2:{ apply nth_error_None in E. lia. }
  apply mapP_map. intros j Hj. apply in_seq in Hj.
  destruct (nth_error row j) as [x|] eqn:E2.
  - apply H; [lia|lia|]. unfold mget; rewrite E; auto.
  - apply nth_error_None in E2. rewrite (R row) in E2; [lia|]. eapply nth_error_In; eauto.
Qed.
Lemma updAll_inv n f m ints i j : updAll n f m = Some ints -> i < n -> j < n ->
  exists x y, mget m i j = Some x /\ f i j x = Some y /\ mget ints i j = Some y.
Proof.
  unfold updAll. intros H Hi Hj.
  destruct (mapP_nth _ _ _ i i H (nth_error_seq n i Hi)) as (r & E1 & E2).
  destruct (nth_error m i) as [row|] eqn:E; [|discriminate].
  destruct (mapP_nth _ _ _ j j E2 (nth_error_seq n j Hj)) as (y & E3 & E4).
  destruct (nth_error row j) as [x|] eqn:E5; [|discriminate].
  exists x, y. unfold mget. rewrite E, E1. auto.
Qed.
Lemma updAll_square n f m ints : updAll n f m = Some ints -> square n ints.
Proof.
  unfold updAll. intros H. pose proof (mapP_length _ _ _ H) as L. rewrite seq_length in L. split; auto.
  apply mapP_in in H. clear L.
  match type of H with Forall2 ?R _ _ => assert (G : forall l rs, Forall2 R l rs -> forall r, In r rs -> length r = n) end.
  { intros l rs F. induction F as [|i r l rs Hr F IH]; intros q Hq; [destruct Hq|].
    destruct Hq as [<-|Hq]; [|auto]. destruct (nth_error m i); [|discriminate].
    apply mapP_length in Hr. rewrite seq_length in Hr; auto. }
  eapply G; eauto.
Qed.

Lemma waveName_lt m i : wf m -> i < nmbWaves m -> exists w, waveName m i = Some w.
Proof.
  intros W H. unfold waveName. rewrite (wf_n m W) in H.
  destruct (nth_error (waveNames m) i) eqn:E; eauto. apply nth_error_None in E; lia.
Qed.
Lemma names_all m : wf m -> mapP (waveName m) (seq 0 (nmbWaves m)) = Some (waveNames m).
Proof.
  intros W. rewrite (wf_n m W). unfold waveName. generalize (waveNames m) as l. intros l.
  rewrite (mapP_map _ (fun i => nth i l [])).
  - f_equal. apply (nth_ext _ _ [] []); [rewrite map_length, seq_length; auto|].
    intros i Hi. rewrite map_length, seq_length in Hi.
    apply nth_error_nth. exact (map_nth_error (fun i => nth i l []) i (seq 0 (length l)) (nth_error_seq _ _ Hi)).
  - intros i Hi. apply in_seq in Hi. apply nth_error_nth'. lia.
Qed.

Lemma findIdx_some w l i : findIdx w l = Some i -> nth_error l i = Some w /\ forall j, j < i -> nth_error l j <> Some w.
Proof.
  revert i; induction l as [|x l IH]; cbn [findIdx]; intros i H; [discriminate|].
  destruct (str_eqb x w) eqn:E.
  - inversion H; subst. apply str_eqb_eq in E; subst. split; auto. intros; lia.
  - destruct (findIdx w l) as [k|] eqn:F; [|discriminate]. inversion H; subst.
    destruct (IH k eq_refl) as [A B]. split; auto. intros [|j] Hj; cbn.
    + apply str_eqb_neq in E. congruence.
    + apply B; lia.
Qed.
Lemma findIdx_in w l : In w l -> exists i, findIdx w l = Some i.
Proof.
  induction l as [|x l IH]; intros H; [destruct H|]. cbn [findIdx].
  destruct (str_eqb x w) eqn:E; eauto. destruct H as [->|H]; [rewrite str_eqb_refl in E; discriminate|].
  destruct (IH H) as [i ->]. eauto.
Qed.
Lemma findIdx_none w l : findIdx w l = None -> ~ In w l.
Proof. intros H I. destruct (findIdx_in _ _ I); congruence. Qed.
Lemma findIdx_nodup w l i : NoDup l -> nth_error l i = Some w -> findIdx w l = Some i.
Proof.
  intros N H. destruct (findIdx_in w l) as [k E]; [eapply nth_error_In; eauto|].
  destruct (findIdx_some _ _ _ E) as [A _].
  assert (k = i); [|congruence]. apply (proj1 (NoDup_nth_error l) N); [|congruence].
  apply nth_error_Some; congruence.
Qed.
Lemma contains_in m w : containsWave m w = true <-> In w (waveNames m).
Proof.
  unfold containsWave. rewrite existsb_exists. split.
  - intros (x & I & E). apply str_eqb_eq in E; subst; auto.
  - intros I; exists w; split; auto. apply str_eqb_refl.
Qed.

(* "the two matrices have the same wave set" *)
Definition sameWaves (m k : aim) : Prop :=
  length (waveNames m) = length (waveNames k) /\ (forall w, In w (waveNames m) <-> In w (waveNames k)).

Lemma identical_spec m k : wf m -> wf k ->
  exists b, hasIdenticalWaveSet m k = Some b /\ (b = true <-> sameWaves m k).
Proof.
  intros Wm Wk. unfold hasIdenticalWaveSet, sameWaves.
  rewrite (names_all m Wm), (names_all k Wk). cbn [bindP]. rewrite (wf_n m Wm), (wf_n k Wk).
  destruct (Nat.eqb_spec (length (waveNames m)) (length (waveNames k))) as [E|E]; cbn [negb].
  2:{ exists false. split; auto. intuition congruence. }
  assert (A : forallb (containsWave k) (waveNames m) = true <-> incl (waveNames m) (waveNames k)).
  { rewrite forallb_forall. unfold incl. split; intros H w Hw; [apply contains_in|apply contains_in]; auto. }
  assert (B : forallb (containsWave m) (waveNames k) = true <-> incl (waveNames k) (waveNames m)).
  { rewrite forallb_forall. unfold incl. split; intros H w Hw; [apply contains_in|apply contains_in]; auto. }
  destruct (forallb (containsWave k) (waveNames m)); cbn [negb].
  - eexists; split; [reflexivity|]. rewrite B. unfold incl in *. destruct A as [A _]. specialize (A eq_refl).
    split; [intros H; split; auto; intros w; split; auto|]. intros [_ H] w Hw. apply H; auto.
  - exists false; split; auto. split; [discriminate|]. intros [_ H]. exfalso.
    discriminate (proj2 A (fun w Hw => proj1 (H w) Hw)).
Qed.

Lemma addSub_spec op evop m k : wf m -> wf k ->
  (sameWaves m k -> exists s, addSub op evop m k = Some s /\ wf s /\ waveNames s = waveNames m /\ nmbWaves s = nmbWaves m /\
     nmbEvents s = u64 (evop (nmbEvents m) (nmbEvents k)) /\
     forall i j wi wj, waveName m i = Some wi -> waveName m j = Some wj ->
       exists ki kj, waveIndex k wi = Some ki /\ waveIndex k wj = Some kj /\ ki < nmbWaves k /\ kj < nmbWaves k /\
       ent s i j = op (ent m i j) (ent k ki kj)) /\
  (~ sameWaves m k -> addSub op evop m k = None).
Proof.
  intros Wm Wk. destruct (identical_spec m k Wm Wk) as (b & Eb & Hb). unfold addSub. rewrite Eb. cbn [bindP].
  split.
  2:{ intros H. destruct b; [exfalso; apply H, Hb; auto|auto]. }
  intros H. rewrite (proj2 Hb H). cbn [negb].
  assert (LK : forall i w, waveName m i = Some w -> exists ki, waveIndex k w = Some ki /\ waveName k ki = Some w /\ ki < nmbWaves k).
  { intros i w Hw. destruct H as [_ H]. apply nth_error_In in Hw. apply H in Hw.
    destruct (findIdx_in _ _ Hw) as [ki E]. exists ki. destruct (findIdx_some _ _ _ E) as [A _]. split; auto. split; auto.
    rewrite (wf_n k Wk). apply nth_error_Some. congruence. }
  set (g := fun i j => match waveName m i, waveName m j with
      | Some wi, Some wj => match waveIndex k wi, waveIndex k wj with
                            | Some ki, Some kj => op (ent m i j) (ent k ki kj) | _, _ => RtoC 0 end
      | _, _ => RtoC 0 end).
  rewrite (updAll_ok (nmbWaves m) _ g); [|apply Wm|].
  - cbn [bindP]. eexists; split; [reflexivity|]. cbn [waveNames nmbWaves nmbEvents].
    split; [split; cbn; [apply Wm|apply square_build]|]. repeat (split; [auto|]).
    intros i j wi wj Hi Hj. destruct (LK _ _ Hi) as (ki & A1 & A2 & A3). destruct (LK _ _ Hj) as (kj & B1 & B2 & B3).
    exists ki, kj. repeat (split; [auto|]). unfold ent at 1. cbn [integrals].
    rewrite mget_build.
    + unfold g. rewrite Hi, Hj, A1, B1. auto.
    + rewrite (wf_n m Wm). apply nth_error_Some. unfold waveName in Hi. congruence.
    + rewrite (wf_n m Wm). apply nth_error_Some. unfold waveName in Hj. congruence.
  - intros i j x Hi Hj Hx. destruct (waveName_lt m i Wm Hi) as [wi Ei]. destruct (waveName_lt m j Wm Hj) as [wj Ej].
    destruct (LK _ _ Ei) as (ki & A1 & A2 & A3). destruct (LK _ _ Ej) as (kj & B1 & B2 & B3).
    unfold g. rewrite Ei, Ej. cbn [bindP]. rewrite A1, B1. cbn [bindP].
    rewrite (mget_ent k ki kj) by auto. cbn [bindP].
    rewrite mget_ent in Hx by auto. inversion Hx; subst. auto.
Qed.

(* ---- addEvent ---- *)
Lemma addEvent_spec m amps : wf m ->
  ((forall w, In w (waveNames m) -> amps w <> None) ->
     exists s, addEvent m amps = Some (s, true) /\ wf s /\ waveNames s = waveNames m /\ nmbWaves s = nmbWaves m /\
       nmbEvents s = u64 (nmbEvents m + 1) /\
       forall i j wi wj, waveName m i = Some wi -> waveName m j = Some wj ->
         exists a b, amps wi = Some a /\ amps wj = Some b /\ ent s i j = (ent m i j + a * Cconj b)%C) /\
  ((exists w, In w (waveNames m) /\ amps w = None) -> addEvent m amps = Some (m, false)).
Proof.
  intros W. unfold addEvent. rewrite (names_all m W). cbn [bindP].
  assert (F : forallb (fun w => match amps w with Some _ => true | None => false end) (waveNames m) = true <->
              forall w, In w (waveNames m) -> amps w <> None).
  { rewrite forallb_forall. split; intros H w Hw; specialize (H w Hw); destruct (amps w); congruence. }
  split.
  - intros H. rewrite (proj2 F H). cbn [negb].
    set (g := fun i j => match waveName m i, waveName m j with
      | Some wi, Some wj => match amps wi, amps wj with
                            | Some a, Some b => (ent m i j + a * Cconj b)%C | _, _ => RtoC 0 end
      | _, _ => RtoC 0 end).
    rewrite (updAll_ok (nmbWaves m) _ g); [|apply W|].
    + cbn [bindP]. eexists; split; [reflexivity|]. cbn [waveNames nmbWaves nmbEvents].
      split; [split; cbn; [apply W|apply square_build]|]. repeat (split; [auto|]).
      intros i j wi wj Hi Hj.
      destruct (amps wi) as [a|] eqn:A; [|exfalso; eapply H; [eapply nth_error_In; exact Hi|auto]].
      destruct (amps wj) as [b|] eqn:B; [|exfalso; eapply H; [eapply nth_error_In; exact Hj|auto]].
      exists a, b. repeat (split; [auto|]). unfold ent at 1. cbn [integrals]. rewrite mget_build.
      * unfold g. rewrite Hi, Hj, A, B. auto.
      * rewrite (wf_n m W). apply nth_error_Some. unfold waveName in Hi. congruence.
      * rewrite (wf_n m W). apply nth_error_Some. unfold waveName in Hj. congruence.
    + intros i j x Hi Hj Hx. destruct (waveName_lt m i W Hi) as [wi Ei]. destruct (waveName_lt m j W Hj) as [wj Ej].
      destruct (amps wi) as [a|] eqn:A; [|exfalso; eapply H; [eapply nth_error_In; exact Ei|auto]].
      destruct (amps wj) as [b|] eqn:B; [|exfalso; eapply H; [eapply nth_error_In; exact Ej|auto]].
      unfold g. rewrite Ei, Ej. cbn [bindP]. rewrite A, B. cbn [bindP].
      rewrite mget_ent in Hx by auto. inversion Hx; subst. auto.
  - intros (w & Hw & E). destruct (forallb _ (waveNames m)); auto. exfalso. exact (proj1 F eq_refl w Hw E).
Qed.

Lemma setWaveNames_wf names : wf (fst (setWaveNames aimEmpty names)) /\
  (forall i j, ent (fst (setWaveNames aimEmpty names)) i j = RtoC 0) /\
  waveNames (fst (setWaveNames aimEmpty names)) = names.
Proof.
  unfold setWaveNames; cbn [aimEmpty nmbWaves]. change (0 <? 0) with false. cbv iota. cbn [fst waveNames].
  assert (S : square (length names) (mresize (integrals aimEmpty) (length names) (length names))).
  { unfold mresize. apply (square_build (length names) (fun i j => match mget (integrals aimEmpty) i j with Some x => x | None => RtoC 0 end)). }
  split; [split; cbn; auto|]. split; auto.
  intros i j. unfold ent; cbn [integrals].
  destruct (lt_dec i (length names)) as [Hi|Hi]; [destruct (lt_dec j (length names)) as [Hj|Hj]|].
  - unfold mresize. change (map _ (seq 0 (length names))) with
      (build (length names) (fun i j => match mget (integrals aimEmpty) i j with Some x => x | None => RtoC 0 end)).
    rewrite mget_build by auto. unfold mget; cbn. destruct i; auto.
  - rewrite (mget_out _ _ _ _ S) by lia. auto.
  - rewrite (mget_out _ _ _ _ S) by lia. auto.
Qed.
