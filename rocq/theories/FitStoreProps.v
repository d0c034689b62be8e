(* C30: filling, refilling, resetting and copying fit results *)
From Coq Require Import String Ascii List ZArith Bool Reals Lia.
From Coquelicot Require Import Complex.
From Verif Require Import PathModel StrModel DecModel ParticleModel RegexModel FitResultModel FitNameProps.
Import ListNotations.
Open Scope list_scope.
Open Scope nat_scope.

(* ---- specification: distinct elements in the order of their first appearance ---- *)
Fixpoint distinct (l : list str) : list str :=
  match l with
  | [] => []
  | x :: r => x :: filter (fun y => negb (str_eqb y x)) (distinct r)
  end.
Definition wavesOf (ampNames : list str) : list str := map waveNameForProdAmp ampNames.

Lemma distinct_in l x : In x (distinct l) <-> In x l.
Proof.
  induction l as [|y l IH]; cbn [distinct In]; [tauto|]. rewrite filter_In, IH. split; [tauto|].
  intros [E|E]; [now left|]. destruct (str_eqb x y) eqn:F; [apply str_eqb_eq in F; left; congruence|]. right. auto.
Qed.
Lemma distinct_nodup l : NoDup (distinct l).
Proof.
  induction l as [|y l IH]; cbn [distinct]; constructor.
  - rewrite filter_In. intros [_ H]. rewrite str_eqb_refl in H. discriminate.
  - now apply NoDup_filter.
Qed.
Lemma filter_and {A} (f g : A -> bool) l : filter f (filter g l) = filter (fun x => g x && f x) l.
Proof. induction l as [|x l IH]; cbn; [reflexivity|]. destruct (g x); cbn; [destruct (f x)|]; now rewrite ?IH. Qed.

Definition notin (w : list str) (x : str) : bool := negb (existsb (str_eqb x) w).
Lemma notin_spec w x : notin w x = true <-> ~ In x w.
Proof.
  unfold notin. rewrite negb_true_iff. split.
  - intros H Hin. assert (existsb (str_eqb x) w = true); [|congruence]. apply existsb_exists. exists x. split; auto. apply str_eqb_refl.
  - intros H. destruct (existsb (str_eqb x) w) eqn:E; [|reflexivity]. apply existsb_exists in E.
    destruct E as (y & Hy & E). apply str_eqb_eq in E. subst. contradiction.
Qed.
Lemma distinct_app a b : distinct (a ++ b) = distinct a ++ filter (notin a) (distinct b).
Proof.
  induction a as [|x a IH]; cbn [app distinct].
  - cbn. induction (distinct b) as [|y l IHl]; cbn; [reflexivity|]. now rewrite <- IHl.
  - f_equal. rewrite IH, filter_app. f_equal. rewrite filter_and. apply filter_ext. intros y.
    unfold notin. cbn [existsb]. rewrite negb_orb. apply andb_comm.
Qed.
Lemma filter_all {A} (f : A -> bool) l : (forall x, In x l -> f x = true) -> filter f l = l.
Proof. induction l as [|x l IH]; cbn; intros H; [reflexivity|]. rewrite (H x) by now left. f_equal. apply IH. intros y Hy. apply H. now right. Qed.
Lemma distinct_id l : NoDup l -> distinct l = l.
Proof.
  induction l as [|x l IH]; intros H; cbn [distinct]; [reflexivity|]. inversion H as [|? ? Hx Hl]; subst. rewrite IH by auto. f_equal.
  apply filter_all. intros y Hy. apply negb_true_iff, str_eqb_neq. intros ->. contradiction.
Qed.
Lemma distinct_distinct l : distinct (distinct l) = distinct l.
Proof. apply distinct_id, distinct_nodup. Qed.

Lemma findStr_some w l k : findStr w l = Some k -> nth_error l k = Some w.
Proof.
  revert k. induction l as [|x l IH]; intros k; cbn [findStr]; [discriminate|].
  destruct (str_eqb x w) eqn:E; [apply str_eqb_eq in E; intros [= <-]; now subst|].
  destruct (findStr w l) as [j|]; [|discriminate]. intros [= <-]. now apply IH.
Qed.
Lemma findStr_none w l : findStr w l = None -> ~ In w l.
Proof.
  induction l as [|x l IH]; cbn [findStr In]; [auto|]. destruct (str_eqb x w) eqn:E; [discriminate|]. apply str_eqb_neq in E.
  destruct (findStr w l); [discriminate|]. intros _ [H|H]; [auto|now apply IH].
Qed.
Lemma findStr_in w l : In w l -> exists k, findStr w l = Some k.
Proof. intros H. destruct (findStr w l) as [k|] eqn:E; [now exists k|]. apply findStr_none in E. contradiction. Qed.

Lemma filter_notin_snoc W w l : filter (notin (W ++ [w])) l = filter (fun y => negb (str_eqb y w)) (filter (notin W) l).
Proof.
  rewrite filter_and. apply filter_ext. intros x. unfold notin. rewrite existsb_app. cbn. now rewrite orb_false_r, negb_orb.
Qed.
Lemma fillWaves_waves names : forall i W m,
  fst (fillWaves i names W m) = W ++ filter (notin W) (distinct (wavesOf names)).
Proof.
  unfold wavesOf. induction names as [|n names IH]; intros i W m; cbn [fillWaves map distinct]; [now rewrite app_nil_r|].
  destruct (findStr (waveNameForProdAmp n) W) as [k|] eqn:E; rewrite IH.
  - apply findStr_some, nth_error_In in E. cbn [filter].
    assert (N : notin W (waveNameForProdAmp n) = false).
    { destruct (notin W (waveNameForProdAmp n)) eqn:F; [|reflexivity]. apply notin_spec in F. contradiction. }
    rewrite N. f_equal. rewrite filter_and. apply filter_ext. intros x. destruct (str_eqb x (waveNameForProdAmp n)) eqn:F; cbn; [|reflexivity].
    apply str_eqb_eq in F. now subst x.
  - apply findStr_none in E. cbn [filter]. apply notin_spec in E. rewrite E. rewrite <- app_assoc. cbn [app].
    do 2 f_equal. rewrite filter_notin_snoc, !filter_and. apply filter_ext. intros x. apply andb_comm.
Qed.
Lemma fillWaves_prefix names : forall i W m k x, nth_error W k = Some x -> nth_error (fst (fillWaves i names W m)) k = Some x.
Proof.
  intros i W m k x H. rewrite fillWaves_waves. rewrite nth_error_app1; [exact H|]. apply nth_error_Some. congruence.
Qed.
Lemma fillWaves_map_before names : forall i W m k, k < i -> snd (fillWaves i names W m) k = m k.
Proof.
  induction names as [|n names IH]; intros i W m k H; cbn [fillWaves]; [reflexivity|].
  destruct (findStr (waveNameForProdAmp n) W); rewrite IH by lia; destruct (Nat.eqb_spec k i); auto; lia.
Qed.
Lemma fillWaves_map_after names : forall i W m k, i + length names <= k -> snd (fillWaves i names W m) k = m k.
Proof.
  induction names as [|n names IH]; intros i W m k H; cbn [fillWaves]; [reflexivity|]. cbn [length] in H.
  destruct (findStr (waveNameForProdAmp n) W); rewrite IH by lia; destruct (Nat.eqb_spec k i); auto; lia.
Qed.
Lemma fillWaves_map names : forall i W m k n, nth_error names k = Some n ->
  exists w, snd (fillWaves i names W m) (i + k) = Some w /\
    nth_error (fst (fillWaves i names W m)) w = Some (waveNameForProdAmp n).
Proof.
  induction names as [|n0 names IH]; intros i W m k n H; [destruct k; discriminate|].
  destruct k as [|k]; cbn [nth_error] in H.
  - injection H as <-. cbn [fillWaves]. replace (i + 0) with i by lia.
    destruct (findStr (waveNameForProdAmp n0) W) as [j|] eqn:E; rewrite fillWaves_map_before by lia; rewrite Nat.eqb_refl;
      eexists; (split; [reflexivity|]); apply fillWaves_prefix.
    + now apply findStr_some.
    + rewrite nth_error_app2 by lia. now rewrite Nat.sub_diag.
  - cbn [fillWaves]. replace (i + S k) with (S i + k) by lia.
    destruct (findStr (waveNameForProdAmp n0) W); now apply IH.
Qed.

Lemma fill_waves this a : frWaveNames (fill this a) =
  frWaveNames this ++ filter (notin (frWaveNames this)) (distinct (wavesOf (faAmpNames a))).
Proof.
  unfold fill. pose proof (fillWaves_waves (faAmpNames a) 0 (frWaveNames this) (frIdxMap this)) as E.
  destruct (fillWaves _ _ _ _). cbn in *. exact E.
Qed.
Lemma fill_map this a : frIdxMap (fill this a) =
  match faNorm a, faAcc a with None, None => fun _ => None | _, _ => snd (fillWaves 0 (faAmpNames a) (frWaveNames this) (frIdxMap this)) end.
Proof. unfold fill. destruct (fillWaves _ _ _ _). reflexivity. Qed.

Definition hasIntegrals (a : fillArgs) : Prop := faNorm a <> None \/ faAcc a <> None.
Definition covGiven (a : fillArgs) : Prop := exists c, faCov a = Some c /\ rows c <> 0 /\ cols c <> 0.

(* C30: a fresh object stores exactly what it is given; the waves are the distinct wave
   names in the order of their first appearance, and the index of the normalisation
   integral of every production amplitude is the index of its wave *)
Theorem C30_fresh_fill_stores_exactly : forall a, let r := fill frNew a in
  frNmbEvents r = faNmbEvents a /\ frNormNmbEvents r = faNormNmbEvents a /\ frBounds r = faBounds a /\
  frLogL r = faLogL a /\ frRank r = faRank a /\ frAmps r = faAmps a /\ frAmpNames r = faAmpNames a /\
  frCovIdx r = faCovIdx a /\ frConverged r = faConverged a /\
  (forall c, faCov a = Some c -> frCov r = c) /\ (faCov a = None -> frCov r = emptyR) /\
  (frCovValid r = true <-> covGiven a) /\
  (frHasHessian r = true <-> covGiven a \/ (faCov a <> None /\ faHasHessian a = true)) /\
  (forall m, faNorm a = Some m -> frNorm r = m) /\ (forall m, faAcc a = Some m -> frAcc r = m) /\
  (forall l, faPhaseSpace a = Some l -> frPhaseSpace r = l) /\
  frWaveNames r = distinct (wavesOf (faAmpNames a)) /\
  (forall i, frIdxMap r i <> None <-> hasIntegrals a /\ i < length (faAmpNames a)) /\
  (forall i k, frIdxMap r i = Some k -> exists n, nth_error (faAmpNames a) i = Some n /\ nth_error (frWaveNames r) k = Some (waveNameForProdAmp n)).
Proof.
  intros a r.
  assert (W : frWaveNames r = distinct (wavesOf (faAmpNames a))).
  { unfold r. rewrite fill_waves. cbn [frWaveNames frNew app]. set (l := distinct _). clearbody l.
    induction l as [|x l IH]; cbn; [reflexivity|]. now rewrite IH. }
  assert (M : forall i k, frIdxMap r i = Some k -> exists n, nth_error (faAmpNames a) i = Some n /\ nth_error (frWaveNames r) k = Some (waveNameForProdAmp n)).
  { intros i k. unfold r. rewrite fill_map.
    assert (K : snd (fillWaves 0 (faAmpNames a) (frWaveNames frNew) (frIdxMap frNew)) i = Some k ->
      exists n, nth_error (faAmpNames a) i = Some n /\ nth_error (frWaveNames (fill frNew a)) k = Some (waveNameForProdAmp n)).
    { intros H. destruct (nth_error (faAmpNames a) i) as [n|] eqn:E.
      - exists n. split; [reflexivity|]. destruct (fillWaves_map (faAmpNames a) 0 (frWaveNames frNew) (frIdxMap frNew) i n E) as (w & H1 & H2).
        cbn [Nat.add] in H1. rewrite H1 in H. injection H as <-. rewrite fill_waves, <- (fillWaves_waves (faAmpNames a) 0 (frWaveNames frNew) (frIdxMap frNew)). exact H2.
      - apply nth_error_None in E. rewrite fillWaves_map_after in H by lia. discriminate. }
    destruct (faNorm a), (faAcc a); auto; discriminate. }
  assert (D : forall i, frIdxMap r i <> None <-> hasIntegrals a /\ i < length (faAmpNames a)).
  { intros i. split.
    - intros H. destruct (frIdxMap r i) as [k|] eqn:E; [|congruence]. destruct (M i k E) as (n & Hn & _).
      split; [|apply nth_error_Some; congruence]. unfold r in E. rewrite fill_map in E. unfold hasIntegrals.
      destruct (faNorm a); [left; discriminate|]. destruct (faAcc a); [right; discriminate|discriminate].
    - intros [Hi Hl]. apply nth_error_Some in Hl. destruct (nth_error (faAmpNames a) i) as [n|] eqn:E; [|congruence].
      destruct (fillWaves_map (faAmpNames a) 0 (frWaveNames frNew) (frIdxMap frNew) i n E) as (w & H1 & _). cbn [Nat.add] in H1.
      unfold r. rewrite fill_map. destruct Hi as [Hi|Hi]; destruct (faNorm a), (faAcc a); try congruence. }
  unfold r in *. clear r. unfold fill in *. destruct (fillWaves 0 (faAmpNames a) (frWaveNames frNew) (frIdxMap frNew)) as [ws m]. cbn in *.
  assert (CV : (match faCov a with Some c => negb (rows c =? 0) && negb (cols c =? 0) | None => false end) = true <-> covGiven a).
  { unfold covGiven. destruct (faCov a) as [c|].
    - rewrite andb_true_iff, !negb_true_iff, !Nat.eqb_neq. split; [intros [? ?]; exists c; auto|intros (c' & [= <-] & ? & ?); auto].
    - split; [discriminate|intros (c & H & _); discriminate]. }
  do 9 (split; [reflexivity|]).
  split; [intros c ->; reflexivity|]. split; [intros ->; reflexivity|]. split; [exact CV|]. split.
  { rewrite <- CV. destruct (faCov a) as [c|]; [|split; [discriminate|intros [?|[? ?]]; congruence]].
    destruct (negb (rows c =? 0) && negb (cols c =? 0)); split; auto; [|intros [?|[? ?]]; congruence]. intros H. right. split; [discriminate|exact H]. }
  split; [intros x ->; reflexivity|]. split; [intros x ->; reflexivity|]. split; [intros x ->; reflexivity|].
  split; [exact W|]. split; [exact D|exact M].
Qed.

(* C30: after any sequence of fills of the same object the list of waves contains the
   waves of all fills ever made (in order of first appearance), not just those of the
   last one *)
Theorem C30_waves_of_all_fills_survive : forall fills,
  frWaveNames (fold_left fill fills frNew) = distinct (flat_map (fun a => wavesOf (faAmpNames a)) fills).
Proof.
  assert (G : forall fills this l, frWaveNames this = distinct l ->
    frWaveNames (fold_left fill fills this) = distinct (l ++ flat_map (fun a => wavesOf (faAmpNames a)) fills)).
  { induction fills as [|a fills IH]; intros this l H; cbn [fold_left flat_map]; [now rewrite app_nil_r|].
    rewrite app_assoc. apply IH. rewrite fill_waves, H, distinct_app. f_equal. apply filter_ext. intros x.
    destruct (notin (distinct l) x) eqn:E; destruct (notin l x) eqn:F; auto.
    - apply notin_spec in E. assert (~ In x l) by (intros K; apply E; apply distinct_in; exact K). apply notin_spec in H0. congruence.
    - apply notin_spec in F. assert (~ In x (distinct l)) by (intros K; apply F; apply distinct_in; exact K). apply notin_spec in H0. congruence. }
  intros fills. apply (G fills frNew []). reflexivity.
Qed.
(* entries of the index map that belong to production amplitudes of an earlier, longer
   fill survive as long as integrals are given *)
Theorem C30_old_index_entries_survive : forall this a k, hasIntegrals a -> length (faAmpNames a) <= k ->
  frIdxMap (fill this a) k = frIdxMap this k.
Proof.
  intros this a k Hi Hk. rewrite fill_map.
  assert (E : snd (fillWaves 0 (faAmpNames a) (frWaveNames this) (frIdxMap this)) k = frIdxMap this k)
    by (apply fillWaves_map_after; lia).
  destruct Hi as [Hi|Hi]; destruct (faNorm a), (faAcc a); try exact E; congruence.
Qed.
(* reset makes the object fresh again *)
Theorem C30_reset_then_fill_is_fresh_fill : forall this a, fill (frReset this) a = fill frNew a.
Proof. reflexivity. Qed.

(* C30: the copy of a freshly filled object is identical to it, provided no empty matrix
   was given explicitly *)
Definition noEmptyMatrices (a : fillArgs) : Prop :=
  (forall c, faCov a = Some c -> rows c <> 0 /\ cols c <> 0) /\
  (forall m, faNorm a = Some m -> rows m <> 0 \/ cols m <> 0) /\
  (forall m, faAcc a = Some m -> rows m <> 0 \/ cols m <> 0).
Lemma nonEmpty_some (o : option (mat C)) : (forall m, o = Some m -> rows m <> 0 \/ cols m <> 0) ->
  (if nonEmpty (match o with Some c => c | None => emptyC end) then Some (match o with Some c => c | None => emptyC end) else None) = o.
Proof.
  intros H. destruct o as [m|]; [|reflexivity]. unfold nonEmpty. specialize (H m eq_refl).
  destruct (Nat.eqb_spec (rows m) 0), (Nat.eqb_spec (cols m) 0); cbn; auto; lia.
Qed.
Theorem C30_copy_identical : forall a, noEmptyMatrices a -> frCopy (fill frNew a) = fill frNew a.
Proof.
  intros a (Hc & Hn & Ha). unfold frCopy, fillFromResult.
  assert (E : forall b, faNmbEvents b = faNmbEvents a -> faNormNmbEvents b = faNormNmbEvents a -> faBounds b = faBounds a -> faLogL b = faLogL a ->
    faRank b = faRank a -> faAmps b = faAmps a -> faAmpNames b = faAmpNames a -> faCov b = faCov a -> faCovIdx b = faCovIdx a ->
    faNorm b = faNorm a -> faAcc b = faAcc a -> match faPhaseSpace b with Some l => l | None => [] end = match faPhaseSpace a with Some l => l | None => [] end ->
    faConverged b = faConverged a -> (forall c, faCov a = Some c -> rows c <> 0 /\ cols c <> 0) -> fill frNew b = fill frNew a).
  { intros b E1 E2 E3 E4 E5 E6 E7 E8 E9 E10 E11 Hp E12 Hcov. unfold fill. rewrite E1, E2, E3, E4, E5, E6, E7, E8, E9, E10, E11, Hp, E12.
    destruct (fillWaves _ _ _ _) as [ws m].
    f_equal. destruct (faCov a) as [c|]; [|reflexivity]. destruct (Hcov c eq_refl) as [Hr Hk].
    apply Nat.eqb_neq in Hr, Hk. now rewrite Hr, Hk. }
  destruct (C30_fresh_fill_stores_exactly a) as (F1 & F2 & F3 & F4 & F5 & F6 & F7 & F8 & F9 & _).
  apply E; auto.
  - cbn [faCov]. unfold fill. destruct (fillWaves _ _ _ _). cbn. destruct (faCov a) as [c|] eqn:Ec; [|reflexivity].
    destruct (Hc c eq_refl) as [Hr Hk]. apply Nat.eqb_neq in Hr, Hk. now rewrite Hr, Hk.
  - cbn [faNorm]. unfold fill. destruct (fillWaves _ _ _ _). cbn [frNorm andb]. now apply nonEmpty_some.
  - cbn [faAcc]. unfold fill. destruct (fillWaves _ _ _ _). cbn [frAcc andb]. now apply nonEmpty_some.
  - cbn [faPhaseSpace]. unfold fill. destruct (fillWaves _ _ _ _). cbn. destruct (faPhaseSpace a) as [[|x l0]|]; reflexivity.
Qed.
(* the Hessian flag is lost by copying exactly if the covariance matrix is not valid *)
Theorem C30_copy_hessian_flag : forall r, frHasHessian (frCopy r) = true <->
  frCovValid r = true /\ ((rows (frCov r) <> 0 /\ cols (frCov r) <> 0) \/ frHasHessian r = true).
Proof.
  intros r. unfold frCopy, fillFromResult, fill. cbn. destruct (fillWaves _ _ _ _). cbn.
  destruct (frCovValid r); cbn.
  - destruct (Nat.eqb_spec (rows (frCov r)) 0), (Nat.eqb_spec (cols (frCov r)) 0); cbn; split; intros H; auto;
    (destruct H as [_ [H|H]]; [lia|exact H]).
  - split; [discriminate|intros [? _]; congruence].
Qed.
Definition argsOf (names : list str) (cov : option (mat R)) (norm : option (mat C)) (hess : bool) : fillArgs :=
  FA 10 1 [] 0 1 (map (fun _ => RtoC 1) names) names cov [] norm None None true hess.
Theorem C30_copy_loses_hessian_flag : exists a, frHasHessian (fill frNew a) = true /\ frHasHessian (frCopy (fill frNew a)) = false.
Proof. exists (argsOf [ampName 0 (lit "w")] (Some emptyR) None true). split; reflexivity. Qed.

(* copying always rebuilds the wave list from the production amplitudes, so the copy of a
   refilled object has other waves than the original *)
Theorem C30_copy_rebuilds_waves : forall r, frWaveNames (frCopy r) = distinct (wavesOf (frAmpNames r)).
Proof.
  intros r. unfold frCopy, fillFromResult. rewrite fill_waves. cbn [frWaveNames frNew app faAmpNames].
  set (l := distinct _). clearbody l. induction l as [|x l IH]; cbn; [reflexivity|]. now rewrite IH.
Qed.
(* a refilled object attributes another matrix row to the wave than a fresh one *)
Theorem C30_refill_shifts_wave_indices : exists a b,
  let fresh := fill frNew b in let refilled := fill (fill frNew a) b in
  waveNameAt fresh 0 = Some (lit "x") /\ waveNameAt refilled 0 = Some (lit "y") /\
  waveNameAt refilled 1 = Some (lit "x") /\ rows (frNorm refilled) = 1 /\
  frWaveNames (frCopy refilled) <> frWaveNames refilled.
Proof.
  exists (argsOf [ampName 0 (lit "y")] None (Some (Mat 1 1 (fun _ _ => RtoC 1))) false),
    (argsOf [ampName 0 (lit "x")] None (Some (Mat 1 1 (fun _ _ => RtoC 1))) false).
  cbn zeta. split; [reflexivity|]. split; [reflexivity|]. split; [reflexivity|]. split; [reflexivity|].
  rewrite C30_copy_rebuilds_waves. vm_compute. discriminate.
Qed.
Example C30_ex : let names := [ampName 0 (lit "w1"); ampName 0 (lit "w2"); ampName 1 (lit "w2"); flatName] in
  frWaveNames (fill frNew (argsOf names None (Some (Mat 3 3 (fun _ _ => RtoC 1))) false)) = [lit "w1"; lit "w2"; lit "flat"] /\
  noEmptyMatrices (argsOf names None (Some (Mat 3 3 (fun _ _ => RtoC 1))) false).
Proof.
  split; [reflexivity|]. split; [discriminate|]. split; [|discriminate]. intros m [= <-]. left. discriminate.
Qed.
