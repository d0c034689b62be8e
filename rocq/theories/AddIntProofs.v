(* C93: proofs. *)
From Coq Require Import String Ascii List ZArith Bool Reals Lia Lra.
From Coquelicot Require Import Complex.
From Verif Require Import PathModel StrModel CGBoxModel ParticleModel AmpIntModel AmpIntProofs LikSetModel LikIntProps FitResultModel FitStoreProps AddIntModel AddIntSpec.
Import ListNotations.
Open Scope list_scope. Open Scope nat_scope.

Lemma loop_fold {S} l (f : nat -> S -> run S) (g : S -> nat -> S) : forall s, (forall i s, In i l -> f i s = Done (g s i)) -> loop l f s = Done (fold_left g l s).
Proof. induction l as [|i l IH]; intros s H; [reflexivity|]. cbn [loop fold_left]. rewrite H by (left; reflexivity). cbn [andThen]. apply IH. intros; apply H. now right. Qed.
Lemma loop_bad {S} l (f : nat -> S -> run S) i : In i l -> (forall s s', f i s <> Done s') -> forall s s', loop l f s <> Done s'.
Proof.
  intros Hi Hf. induction l as [|x l IH]; intros s s' H; [destruct Hi|]. cbn [loop] in H. destruct (f x s) as [| |s1] eqn:E; try discriminate. cbn [andThen] in H.
  destruct Hi as [->|Hi]; [eapply Hf; eauto|eapply IH; eauto].
Qed.
(* folds that set every element once *)
Lemma el_set (m : mat C) i j z a b : el (matSet m i j z) a b = if (a =? i) && (b =? j) then z else el m a b.
Proof. reflexivity. Qed.
Definition row1 (h : nat -> nat -> C -> C) i l (M : mat C) := fold_left (fun M j => matSet M i j (h i j (el M i j))) l M.
Definition mat1 (h : nat -> nat -> C -> C) l2 l (M : mat C) := fold_left (fun M i => row1 h i l2 M) l M.
Lemma row1_dims h i l : forall M, rows (row1 h i l M) = rows M /\ cols (row1 h i l M) = cols M.
Proof. induction l as [|j l IH]; intros M; [now split|]. unfold row1 in *. cbn [fold_left]. destruct (IH (matSet M i j (h i j (el M i j)))) as [-> ->]. now split. Qed.
Lemma mat1_dims h l2 l : forall M, rows (mat1 h l2 l M) = rows M /\ cols (mat1 h l2 l M) = cols M.
Proof. induction l as [|j l IH]; intros M; [now split|]. unfold mat1 in *. cbn [fold_left]. destruct (IH (row1 h j l2 M)) as [-> ->]. apply row1_dims. Qed.
Lemma row1_el h i l a b : NoDup l -> forall M, el (row1 h i l M) a b = if (a =? i) && existsb (Nat.eqb b) l then h i b (el M a b) else el M a b.
Proof.
  induction l as [|j l IH]; intros D M; [cbn; now rewrite andb_false_r|]. apply NoDup_cons_iff in D as [Dj D]. unfold row1 in *. cbn [fold_left existsb]. rewrite IH by exact D. rewrite el_set.
  destruct (Nat.eqb_spec a i) as [->|Ha]; cbn [andb]; [|reflexivity]. destruct (Nat.eqb_spec b j) as [->|Hb]; cbn [orb andb]; [|reflexivity].
  destruct (existsb (Nat.eqb j) l) eqn:E; [|reflexivity]. apply existsb_exists in E as (x & Hx & Ex). apply Nat.eqb_eq in Ex. subst. contradiction.
Qed.
Lemma mat1_el h l2 l a b : NoDup l2 -> NoDup l -> forall M, el (mat1 h l2 l M) a b = if existsb (Nat.eqb a) l && existsb (Nat.eqb b) l2 then h a b (el M a b) else el M a b.
Proof.
  intros D2. induction l as [|i l IH]; intros D M; [reflexivity|]. apply NoDup_cons_iff in D as [Di D]. unfold mat1 in *. cbn [fold_left existsb]. rewrite IH by exact D. rewrite row1_el by exact D2.
  destruct (Nat.eqb_spec a i) as [->|Ha]; cbn [orb andb]; [|reflexivity].
  destruct (existsb (Nat.eqb i) l) eqn:E; [|cbn [andb]; reflexivity]. apply existsb_exists in E as (x & Hx & Ex). apply Nat.eqb_eq in Ex. subst. contradiction.
Qed.
Lemma in_seq0 a m : existsb (Nat.eqb a) (List.seq 0 m) = (a <? m).
Proof.
  destruct (Nat.ltb_spec a m) as [H|H].
  - apply existsb_exists. exists a. split; [apply in_seq; lia|apply Nat.eqb_refl].
  - destruct (existsb _ _) eqn:E; [|reflexivity]. apply existsb_exists in E as (x & Hx & Ex). apply Nat.eqb_eq in Ex. apply in_seq in Hx. lia.
Qed.
Lemma square_el h m a b M : el (mat1 h (List.seq 0 m) (List.seq 0 m) M) a b = if (a <? m) && (b <? m) then h a b (el M a b) else el M a b.
Proof. rewrite mat1_el by apply seq_NoDup. now rewrite !in_seq0. Qed.
(* pairs of matrices *)
Lemma row1_pair (h k : nat -> nat -> C -> C) i l : forall s, fold_left (fun (s : mat C * mat C) j => (matSet (fst s) i j (h i j (el (fst s) i j)), matSet (snd s) i j (k i j (el (snd s) i j)))) l s = (row1 h i l (fst s), row1 k i l (snd s)).
Proof. induction l as [|j l IH]; intros [M K]; [reflexivity|]. cbn [fold_left]. rewrite IH. reflexivity. Qed.
Lemma mat1_pair (h k : nat -> nat -> C -> C) l2 l : forall s, fold_left (fun (s : mat C * mat C) i => (row1 h i l2 (fst s), row1 k i l2 (snd s))) l s = (mat1 h l2 l (fst s), mat1 k l2 l (snd s)).
Proof. induction l as [|j l IH]; intros [M K]; [reflexivity|]. cbn [fold_left]. rewrite IH. reflexivity. Qed.
Lemma fold_ext {A B} (f g : A -> B -> A) l : (forall a x, f a x = g a x) -> forall a, fold_left f l a = fold_left g l a.
Proof. intros H. induction l as [|x l IH]; intros a; [reflexivity|]. cbn. now rewrite H, IH. Qed.

(* ---- integrals by name ---- *)
Lemma first_unique (l : list str) a i i' : nth_error l i = Some a -> nth_error l i' = Some a -> (forall k, k < i -> nth_error l k <> Some a) -> (forall k, k < i' -> nth_error l k <> Some a) -> i = i'.
Proof. intros H H' F F'. destruct (Nat.lt_trichotomy i i') as [L|[L|L]]; [|exact L|]; exfalso; [eapply F'|eapply F]; eauto. Qed.
Lemma integralOf_fun m e a b v v' : integralOf m e a b v -> integralOf m e a b v' -> v = v'.
Proof.
  intros (i & j & x & A1 & A2 & A3 & A4 & A5 & ->) (i' & j' & x' & B1 & B2 & B3 & B4 & B5 & ->).
  rewrite (first_unique _ _ _ _ A1 B1 A3 B3) in A5. rewrite (first_unique _ _ _ _ A2 B2 A4 B4) in A5. congruence.
Qed.
Lemma byName_some m e a b v : nmbWaves m = length (waveNames m) -> integralOf m e a b v -> exists w, elementByName m a b = Some w.
Proof.
  intros L (i & j & x & A1 & A2 & A3 & A4 & A5 & _). unfold elementByName, waveIndex.
  destruct (findIdx_in a (waveNames m)) as [i' Ei]; [eapply nth_error_In; eauto|]. destruct (findIdx_in b (waveNames m)) as [j' Ej]; [eapply nth_error_In; eauto|].
  rewrite Ei, Ej. cbn [bnd]. destruct (findIdx_spec _ _ _ Ei) as [B1 B3]. destruct (findIdx_spec _ _ _ Ej) as [B2 B4].
  rewrite <- (first_unique _ _ _ _ A1 B1 A3 B3). rewrite <- (first_unique _ _ _ _ A2 B2 A4 B4). unfold element. rewrite L.
  assert (i < length (waveNames m)) by (apply nth_error_Some; congruence). assert (j < length (waveNames m)) by (apply nth_error_Some; congruence).
  destruct (Nat.leb_spec (length (waveNames m)) i); [lia|]. destruct (Nat.leb_spec (length (waveNames m)) j); [lia|]. rewrite A5. cbn [bindP]. eauto.
Qed.
Lemma integral_any m e e' a b v : integralOf m e a b v -> exists v', integralOf m e' a b v'.
Proof. intros (i & j & x & A1 & A2 & A3 & A4 & A5 & _). exists (x / RtoC (IZR e'))%C, i, j, x. auto 10. Qed.

(* ---- one entry ---- *)
Definition val (M : aim) (ws : list str) (a b : nat) : C :=
  match nth_error ws a, nth_error ws b with
  | Some wa, Some wb => match getReflectivity wa, getReflectivity wb with
                        | Some ra, Some rb => if (ra =? rb)%Z then match elementByName M wa wb with Some v => v | None => RtoC 0 end else RtoC 0
                        | _, _ => RtoC 0 end
  | _, _ => RtoC 0 end.
Lemma notflat ws a : ~ In (lit "flat") ws -> In a ws -> str_eqb a (lit "flat") = false.
Proof. intros H I. destruct (str_eqb a (lit "flat")) eqn:E; [|reflexivity]. apply str_eqb_eq in E. subst. contradiction. Qed.
Lemma takeElements_ok ws last N A n : n = S (length ws) -> ~ In (lit "flat") ws -> (forall a, In a ws -> getReflectivity a <> None) -> covers N ws -> covers A ws ->
  exists s, takeElements (ws ++ [last]) N A n = Done s
  /\ rows (fst s) = n /\ cols (fst s) = n /\ rows (snd s) = n /\ cols (snd s) = n
  /\ forall i j, i < length ws -> j < length ws -> el (fst s) i j = val N ws i j /\ el (snd s) i j = val A ws i j.
Proof.
  intros -> Hf Hr [LN CN] [LA CA]. unfold takeElements. replace (S (length ws) - 1) with (length ws) by lia.
  set (h := fun M i j (_ : C) => val M ws i j).
  set (s0 := (matNew (S (length ws)) (S (length ws)), matNew (S (length ws)) (S (length ws)))). set (l := List.seq 0 (length ws)).
  exists (mat1 (h N) l l (fst s0), mat1 (h A) l l (snd s0)). split.
  - rewrite (loop_fold _ _ (fun s i => (row1 (h N) i l (fst s), row1 (h A) i l (snd s)))).
    { f_equal. apply mat1_pair. }
    intros i s Hi. apply in_seq in Hi. rewrite nth_error_app1 by lia. destruct (nth_error ws i) as [wi|] eqn:Ei; [|apply nth_error_None in Ei; lia]. cbn [call].
    assert (Ii : In wi ws) by (eapply nth_error_In; eauto). rewrite (notflat _ _ Hf Ii).
    rewrite (loop_fold _ _ (fun s j => (matSet (fst s) i j (h N i j (el (fst s) i j)), matSet (snd s) i j (h A i j (el (snd s) i j))))).
    { f_equal. apply row1_pair. }
    intros j t Hj. apply in_seq in Hj. unfold takeElement. rewrite nth_error_app1 by lia. destruct (nth_error ws j) as [wj|] eqn:Ej; [|apply nth_error_None in Ej; lia]. cbn [call].
    assert (Ij : In wj ws) by (eapply nth_error_In; eauto). rewrite (notflat _ _ Hf Ij). unfold h, val. rewrite Ei, Ej.
    destruct (getReflectivity wi) as [ri|] eqn:Ri; [|destruct (Hr _ Ii Ri)]. destruct (getReflectivity wj) as [rj|] eqn:Rj; [|destruct (Hr _ Ij Rj)]. cbn [call].
    destruct (ri =? rj)%Z; [|reflexivity]. destruct (CN wi wj Ii Ij) as [v Hv]. destruct (CA wi wj Ii Ij) as [w Hw].
    destruct (byName_some _ _ _ _ _ LN Hv) as [x ->]. destruct (byName_some _ _ _ _ _ LA Hw) as [y ->]. reflexivity.
  - cbn [fst snd]. destruct (mat1_dims (h N) l l (fst s0)) as [-> ->]. destruct (mat1_dims (h A) l l (snd s0)) as [-> ->]. do 4 (split; [reflexivity|]).
    intros i j Hi Hj. unfold l. rewrite !square_el. apply Nat.ltb_lt in Hi, Hj. rewrite Hi, Hj. split; reflexivity.
Qed.
Lemma scaleElements_is ph n s : scaleElements ph n s =
  (mat1 (fun i j z => if i =? j then RtoC 1 else (z / RtoC (nth i ph 0%R * nth j ph 0%R))%C) (List.seq 0 (n - 1)) (List.seq 0 (n - 1)) (fst s),
   mat1 (fun i j z => (z / RtoC (nth i ph 0%R * nth j ph 0%R))%C) (List.seq 0 (n - 1)) (List.seq 0 (n - 1)) (snd s)).
Proof.
  unfold scaleElements. rewrite <- mat1_pair. apply fold_ext. intros t i. rewrite <- row1_pair. apply fold_ext. intros u j. unfold scaleElement. destruct (i =? j); reflexivity.
Qed.
Lemma flatRow_dims n z m : rows (flatRow n z m) = rows m /\ cols (flatRow n z m) = cols m.
Proof.
  unfold flatRow. cbn [matSet rows cols]. generalize (List.seq 0 (cols m)). intros l. revert m. induction l as [|i l IH]; intros m; [now split|]. cbn [fold_left].
  destruct (IH (matSet (matSet m (n - 1) i (RtoC 0)) i (n - 1) (RtoC 0))) as [-> ->]. now split.
Qed.
Lemma flatRow_el k z m a b : cols m = S k -> a <= k -> b <= k ->
  el (flatRow (S k) z m) a b = if (a =? k) && (b =? k) then z else if (a =? k) || (b =? k) then RtoC 0 else el m a b.
Proof.
  intros Hc Ha Hb. unfold flatRow. rewrite Hc. replace (S k - 1) with k by lia. rewrite el_set. destruct ((a =? k) && (b =? k)); [reflexivity|].
  assert (G : forall l m, el (fold_left (fun m i => matSet (matSet m k i (RtoC 0)) i k (RtoC 0)) l m) a b =
     if ((a =? k) && existsb (Nat.eqb b) l) || ((b =? k) && existsb (Nat.eqb a) l) then RtoC 0 else el m a b).
  { clear. induction l as [|i l IH]; intros m; [cbn; now rewrite !andb_false_r|]. cbn [fold_left existsb]. rewrite IH, !el_set.
    destruct (a =? k), (b =? k), (a =? i), (b =? i), (existsb (Nat.eqb a) l), (existsb (Nat.eqb b) l); reflexivity. }
  rewrite G, !in_seq0. replace (a <? S k) with true by (symmetry; apply Nat.ltb_lt; lia). replace (b <? S k) with true by (symmetry; apply Nat.ltb_lt; lia). now rewrite !andb_true_r.
Qed.
Lemma phase_len m n : 0 < n -> length (phaseSpaceOf m n) = n.
Proof. intros H. unfold phaseSpaceOf. rewrite app_length, map_length, seq_length. cbn [length]. lia. Qed.
Lemma phase_at m k i : i < k -> nth_error (phaseSpaceOf m (S k)) i = Some (sqrt (Re (el m i i))).
Proof.
  intros H. unfold phaseSpaceOf. replace (S k - 1) with k by lia. rewrite nth_error_app1 by (rewrite map_length, seq_length; lia). rewrite (map_nth_error _ i _ (d := i)); [reflexivity|].
  rewrite nth_error_nth' with (d := 0) by (rewrite seq_length; lia). now rewrite seq_nth by lia.
Qed.
Lemma phase_last m k : nth_error (phaseSpaceOf m (S k)) k = Some 1%R.
Proof. unfold phaseSpaceOf. replace (S k - 1) with k by lia. rewrite nth_error_app2 by (rewrite map_length, seq_length; lia). now rewrite map_length, seq_length, Nat.sub_diag. Qed.
Lemma val_is M e ws i j a b : nmbEvents M = e -> nth_error ws i = Some a -> nth_error ws j = Some b -> getReflectivity a <> None -> nmbWaves M = length (waveNames M) ->
  (getReflectivity a <> getReflectivity b -> val M ws i j = RtoC 0) /\
  (getReflectivity a = getReflectivity b -> forall v, integralOf M e a b v -> val M ws i j = v).
Proof.
  intros He Hi Hj Hr L. unfold val. rewrite Hi, Hj. split.
  - intros D. destruct (getReflectivity a) as [ra|]; [|reflexivity]. destruct (getReflectivity b) as [rb|]; [|reflexivity]. destruct (Z.eqb_spec ra rb); [congruence|reflexivity].
  - intros E v Hv. rewrite <- E. destruct (getReflectivity a) as [ra|]; [|congruence]. rewrite Z.eqb_refl. destruct (byName_some _ _ _ _ _ L Hv) as [w Hw]. rewrite Hw.
    apply byName_spec in Hw. rewrite He in Hw. eapply integralOf_fun; eauto.
Qed.
Lemma without_iff r : without r -> AddIntModel.hasIntegrals r = false.
Proof. intros (A & B & C & D & E). unfold AddIntModel.hasIntegrals. now rewrite A, B, C, D, E. Qed.

Lemma fill_idx b m : faNorm b = Some m -> forall x name, nth_error (frAmpNames (fill frNew b)) x = Some name -> exists i, frIdxMap (fill frNew b) x = Some i /\ nth_error (frWaveNames (fill frNew b)) i = Some (waveNameForProdAmp name).
Proof.
  intros E x name Hx. assert (Hx' : nth_error (faAmpNames b) x = Some name) by (revert Hx; unfold fill; destruct (fillWaves _ _ _ _); auto). destruct (fillWaves_map (faAmpNames b) 0 [] (fun _ => None) x name Hx') as (w & K1 & K2).
  exists w. rewrite fill_map, E. cbn [frWaveNames frIdxMap frNew]. split; [exact K1|]. unfold fill. cbn [frWaveNames frIdxMap frNew]. destruct (fillWaves _ _ _ _) as [W2 m2]. exact K2.
Qed.
Lemma add_one force N A r ws last : stored r -> (force = true \/ without r) -> wavesAre r ws last -> usable N ws -> covers A ws ->
  exists s, addToOne force N A r = Done (s, setNmbEvents A (nmbEvents N)) /\ stored s /\ sameFit r s /\ sameCov r s
  /\ integralsAre N A ws (IZR (nmbEvents A) / IZR (nmbEvents N))%R s.
Proof.
  intros [arg St] Hw (Hn & Hf & Hr) (He & CN & Pos) CA. unfold addToOne. replace (AddIntModel.hasIntegrals r && negb force) with false by (destruct Hw as [->|Hw]; [now rewrite andb_false_r|now rewrite (without_iff _ Hw)]).
  cbv zeta. rewrite Hn. rewrite app_length. cbn [length]. replace (length ws + 1) with (S (length ws)) by lia. cbn [Nat.eqb]. set (k := length ws). set (A' := setNmbEvents A (nmbEvents N)).
  destruct (takeElements_ok ws last N A' (S k) eq_refl Hf Hr CN CA) as ([Mn Ma] & E & R1 & R2 & R3 & R4 & V). cbn [fst snd] in *. rewrite E. cbn [andThen].
  set (ph := phaseSpaceOf (fst (Mn, Ma)) (S k)). rewrite scaleElements_is. cbn [fst snd]. replace (S k - 1) with k by lia.
  set (M1 := mat1 _ (List.seq 0 k) (List.seq 0 k) Mn). set (M2 := mat1 _ (List.seq 0 k) (List.seq 0 k) Ma).
  assert (D1 : rows M1 = S k /\ cols M1 = S k) by (unfold M1; rewrite (proj1 (mat1_dims _ _ _ _)), (proj2 (mat1_dims _ _ _ _)); auto).
  assert (D2 : rows M2 = S k /\ cols M2 = S k) by (unfold M2; rewrite (proj1 (mat1_dims _ _ _ _)), (proj2 (mat1_dims _ _ _ _)); auto).
  eexists. split; [reflexivity|]. change (frReset frNew) with frNew. set (z := (IZR (nmbEvents A) / IZR (nmbEvents N))%R).
  match goal with |- stored (fill frNew ?x) /\ _ => set (b := x) end. split; [now exists b|].
  assert (NA : frAmpNames r = faAmpNames arg) by (rewrite St; unfold fill; destruct (fillWaves _ _ _ _); reflexivity).
  assert (W : frWaveNames (fill frNew b) = frWaveNames r) by (rewrite St at 1; rewrite !fill_waves; unfold b; cbn [faAmpNames]; now rewrite NA).
  split.
  { unfold sameFit. rewrite W. unfold fill, b. destruct (fillWaves _ _ _ _). cbn. tauto. }
  split.
  { unfold sameCov. clear - St. subst r. unfold b, fill. destruct (fillWaves 0 (faAmpNames arg) _ _). cbn. destruct (fillWaves 0 (faAmpNames arg) _ _). cbn.
    destruct (faCov arg) as [c|]; cbn; [|auto]. destruct (negb (rows c =? 0) && negb (cols c =? 0)); auto. }
  assert (IM := fill_idx b _ eq_refl).
  assert (FN : frNorm (fill frNew b) = flatRow (S k) (RtoC 1) M1) by (unfold fill; destruct (fillWaves _ _ _ _); reflexivity).
  assert (FA_ : frAcc (fill frNew b) = flatRow (S k) (RtoC z) M2) by (unfold fill; destruct (fillWaves _ _ _ _); reflexivity).
  assert (FP : frPhaseSpace (fill frNew b) = ph) by (unfold fill; destruct (fillWaves _ _ _ _); reflexivity).
  unfold integralsAre. cbv zeta. fold k. rewrite FN, FA_, FP. destruct (flatRow_dims (S k) (RtoC 1) M1) as [-> ->]. destruct (flatRow_dims (S k) (RtoC z) M2) as [-> ->].
  do 4 (split; [tauto|]). split; [apply phase_len; lia|]. split.
  { intros i j wa wb va vb Hi Hj Va Vb. assert (Li : i < k) by (apply nth_error_Some; congruence). assert (Lj : j < k) by (apply nth_error_Some; congruence).
    assert (Ia : In wa ws) by (eapply nth_error_In; eauto). assert (Ib : In wb ws) by (eapply nth_error_In; eauto).
    assert (Pi : nth_error ph i = Some (sqrt (Re va))).
    { unfold ph. rewrite phase_at by lia. cbn [fst]. rewrite (proj1 (V i i Li Li)). now rewrite (proj2 (val_is N _ ws i i wa wa eq_refl Hi Hi (Hr _ Ia) (proj1 CN)) eq_refl _ Va). }
    assert (Pj : nth_error ph j = Some (sqrt (Re vb))).
    { unfold ph. rewrite phase_at by lia. cbn [fst]. rewrite (proj1 (V j j Lj Lj)). now rewrite (proj2 (val_is N _ ws j j wb wb eq_refl Hj Hj (Hr _ Ib) (proj1 CN)) eq_refl _ Vb). }
    split; [exact Pi|]. rewrite !flatRow_el by (try tauto; lia). replace (i =? k) with false by (symmetry; apply Nat.eqb_neq; lia). replace (j =? k) with false by (symmetry; apply Nat.eqb_neq; lia). cbn [andb orb].
    unfold M1, M2. rewrite !square_el. apply Nat.ltb_lt in Li as Li', Lj as Lj'. rewrite Li', Lj'. cbn [andb].
    rewrite (nth_error_nth _ _ _ Pi), (nth_error_nth _ _ _ Pj). destruct (V i j Li Lj) as [-> ->].
    destruct (val_is N _ ws i j wa wb eq_refl Hi Hj (Hr _ Ia) (proj1 CN)) as [N1 N2]. destruct (val_is A' (nmbEvents N) ws i j wa wb eq_refl Hi Hj (Hr _ Ia) (proj1 CA)) as [A1 A2].
    split.
    - intros Hd. rewrite (N1 Hd), (A1 Hd). destruct (Nat.eqb_spec i j) as [X|X]; [destruct Hd; congruence|]. unfold Cdiv. now rewrite !Cmult_0_l.
    - intros Hs. split; [intros v Hv; rewrite (N2 Hs v Hv); reflexivity|]. intros v Hv. now rewrite (A2 Hs v Hv). }
  split.
  { intros i Hi. rewrite !flatRow_el by (try tauto; lia). replace (i =? k) with false by (symmetry; apply Nat.eqb_neq; lia). rewrite Nat.eqb_refl. cbn. auto. }
  rewrite !flatRow_el by (try tauto; lia). rewrite Nat.eqb_refl. cbn [andb]. split; [reflexivity|]. split; [reflexivity|]. split; [apply phase_last|]. exact IM.
Qed.
