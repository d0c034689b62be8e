(* Proofs for C82, continued: initialisation and interpolation. *)
From Coq Require Import List ZArith Reals Bool Lia Lra Psatz.
From Coquelicot Require Import Coquelicot.
From Verif Require Import ArrayModel CGBoxModel PhysModel PhaseModel PhaseSpec PhaseProofs PhaseProofs2 LikSetProofs ProdModel ProdSpec ProdProofs2 PickModel PickSpec PickProofs.
Import ListNotations.
Open Scope R_scope.

(* ---- the map ---- *)
Lemma mapInsert_in m p l x : In x (mapInsert m p l) -> x = (m, p) \/ In x l.
Proof.
  induction l as [|[m' p'] l IH]; cbn [mapInsert]; [intros [<-|[]]; now left|]. destruct (rltb m m'); [intros [<-|H]; [now left|now right]|].
  destruct (rltb m' m); [|now right]. intros [<-|H]; [right; now left|]. destruct (IH H) as [E|E]; [now left|right; now right].
Qed.
Lemma mapInsert_mono m p l x : In x l -> In x (mapInsert m p l).
Proof.
  induction l as [|[m' p'] l IH]; cbn [mapInsert]; [intros []|]. intros H. destruct (rltb m m'); [now right|]. destruct (rltb m' m); [|exact H]. destruct H as [<-|H]; [now left|right; now apply IH].
Qed.
Lemma mapInsert_ordered m p l : ordered l -> ordered (mapInsert m p l).
Proof.
  induction l as [|[m' p'] l IH]; cbn [mapInsert]; intros O; [split; [intros y []|exact I]|]. destruct O as [O1 O2].
  destruct (Rlt_le_dec m m') as [H|H]; [rewrite (rltb_true _ _ H)|rewrite (rltb_false _ _ H)].
  - split; [|split; [exact O1|exact O2]]. intros y [<-|Y]; [exact H|]. specialize (O1 y Y). cbn [fst] in *. lra.
  - destruct (Rlt_le_dec m' m) as [H'|H']; [rewrite (rltb_true _ _ H')|rewrite (rltb_false _ _ H'); now split]. split; [|now apply IH].
    intros y Y. destruct (mapInsert_in _ _ _ _ Y) as [->|Y']; [exact H'|now apply O1].
Qed.
(* the new pair is in the map exactly if the key was not *)
Lemma mapInsert_new m p l : (forall x, In x l -> fst x <> m) -> In (m, p) (mapInsert m p l).
Proof.
  induction l as [|[m' p'] l IH]; cbn [mapInsert]; intros H; [now left|]. destruct (Rlt_le_dec m m') as [H1|H1]; [rewrite (rltb_true _ _ H1); now left|rewrite (rltb_false _ _ H1)].
  destruct (Rlt_le_dec m' m) as [H2|H2]; [rewrite (rltb_true _ _ H2); right; apply IH; intros x X; apply H; now right|].
  exfalso. apply (H (m', p')); [now left|]. cbn. lra.
Qed.
Lemma mapInsert_old m p l x : In x l -> fst x = m -> ordered l -> In (m, p) (mapInsert m p l) -> In (m, p) l.
Proof.
  induction l as [|[m' p'] l IH]; cbn [mapInsert]; intros X F O; [destruct X|]. destruct O as [O1 O2].
  destruct (Rlt_le_dec m m') as [H1|H1]; [rewrite (rltb_true _ _ H1)|rewrite (rltb_false _ _ H1)].
  - intros _. exfalso. destruct X as [<-|X]; [cbn in F; lra|]. specialize (O1 x X). cbn [fst] in *. lra.
  - destruct (Rlt_le_dec m' m) as [H2|H2]; [rewrite (rltb_true _ _ H2)|rewrite (rltb_false _ _ H2); auto].
    intros [E|E]; [now left|]. right. apply IH; try assumption. destruct X as [<-|X]; [cbn in F; lra|exact X].
Qed.
Lemma ordered_fun l : ordered l -> forall x y, In x l -> In y l -> fst x = fst y -> x = y.
Proof.
  induction l as [|z l IH]; intros O x y X Y E; [destruct X|]. destruct O as [O1 O2]. destruct X as [<-|X]; destruct Y as [<-|Y]; [reflexivity| | |now apply IH].
  - specialize (O1 y Y). lra.
  - specialize (O1 x X). lra.
Qed.

(* ---- reading the slopes ---- *)
Lemma doubles_floats l : doubles (map EFloat l) = Some l.
Proof. induction l as [|x l IH]; [reflexivity|]. cbn [map doubles toDouble bnd]. now rewrite IH. Qed.
Lemma nth_error_skip {A} (l : list A) i x : nth_error l i = Some x -> skipn i l = x :: skipn (S i) l.
Proof.
  revert l. induction i as [|i IH]; intros [|y l] H; cbn in H; try discriminate; [now injection H as ->|]. cbn [skipn]. now rewrite (IH l H).
Qed.
Lemma checkParams_ok n : forall j p, (2 * (j + n) <= length p + 1)%nat -> (length p + 1 <= 2 * (j + n) + 1)%nat ->
  (1 <= j)%nat -> exists ok, checkParams n j p = Some ok /\ (ok = true <-> List.Forall (fun ca => 0 <= fst ca /\ snd ca < 0) (pairsOf (skipn (2 * j - 1) p))).
Proof.
  induction n as [|n IH]; intros j p L1 L2 J.
  - exists true. split; [reflexivity|]. split; [intros _|reflexivity]. destruct (skipn (2 * j - 1) p) as [|x [|y r]] eqn:E; [constructor|constructor|].
    exfalso. apply (f_equal (@length R)) in E. rewrite skipn_length in E. cbn in E. lia.
  - cbn [checkParams]. destruct (skipn (2 * j - 1) p) as [|c [|a r]] eqn:E; [apply (f_equal (@length R)) in E; rewrite skipn_length in E; cbn in E; lia|apply (f_equal (@length R)) in E; rewrite skipn_length in E; cbn in E; lia|].
    assert (nth_error p (2 * j - 1) = Some c) as ->. { rewrite <- (firstn_skipn (2 * j - 1) p), E, nth_error_app2; rewrite firstn_length_le by lia; [|lia]. now rewrite Nat.sub_diag. }
    assert (nth_error p (2 * j) = Some a) as ->. { rewrite <- (firstn_skipn (2 * j - 1) p), E, nth_error_app2; rewrite firstn_length_le by lia; [|lia]. now replace (2 * j - (2 * j - 1))%nat with 1%nat by lia. }
    assert (skipn (2 * S j - 1) p = r) as ER. { replace (2 * S j - 1)%nat with (2 + (2 * j - 1))%nat by lia. rewrite <- skipn_skipn, E. reflexivity. }
    cbn [bnd pairsOf]. destruct (Rlt_le_dec a 0) as [A|A]; [rewrite (rltb_true _ _ A)|rewrite (rltb_false _ _ A)]; cbn [negb].
    2:{ exists false. split; [reflexivity|]. split; [discriminate|]. intros F. inversion F as [|? ? [_ A'] _]; subst. cbn in A'. lra. }
    replace (0 <? j)%nat with true by (symmetry; apply Nat.ltb_lt; lia). destruct (Rlt_le_dec c 0) as [C|C]; [rewrite (rltb_true _ _ C)|rewrite (rltb_false _ _ C)].
    { exists false. split; [reflexivity|]. split; [discriminate|]. intros F. inversion F as [|? ? [C' _] _]; subst. cbn in C'. lra. }
    destruct (IH (S j) p) as (ok & E1 & E2); [lia|lia|lia|]. exists ok. split; [exact E1|]. rewrite E2, ER. split; intros F; [constructor; [split; assumption|exact F]|now inversion F].
Qed.
Lemma check0_ok n p : ((length p + 1) / 2 = n)%nat -> p <> [] -> exists ok, checkParams n 0 p = Some ok /\ (ok = true <-> goodParams p).
Proof.
  intros H NE. apply half_len in H. destruct p as [|a p]; [congruence|]. cbn [length] in H. destruct n as [|n]; [lia|]. cbn [checkParams nth_error Nat.mul Nat.add bnd Nat.ltb Nat.leb].
  unfold goodParams. cbn [termsOf]. destruct (Rlt_le_dec a 0) as [A|A]; [rewrite (rltb_true _ _ A)|rewrite (rltb_false _ _ A)]; cbn [negb].
  2:{ exists false. split; [reflexivity|]. split; [discriminate|]. intros [_ F]. inversion F as [|? ? [_ A'] _]; subst. cbn in A'. lra. }
  destruct (checkParams_ok n 1 (a :: p)) as (ok & E1 & E2); [cbn [length]; lia|cbn [length]; lia|lia|]. exists ok. split; [exact E1|]. rewrite E2. change (skipn (2 * 1 - 1) (a :: p)) with p.
  split; [intros F; split; [congruence|constructor; [cbn; lra|exact F]]|intros [_ F]; now inversion F].
Qed.
Definition withSlopes (k : pk) (l : list (R * list R)) : pk := Pk (kInit k) (kMLo k) (kMHi k) (kTLo k) (kTHi k) l (kN k) (kCoM k) (kCoT k).
Definition insertAll (l : list (R * list R)) (rows : list (R * list R)) : list (R * list R) := fold_left (fun l x => mapInsert (fst x) (snd x) l) rows l.
Lemma readSlopes_ok arr rows : forall k, (arr = false -> kN k = 1%nat /\ List.Forall (fun x => length (snd x) = 1%nat) rows) -> (arr = true -> (1 <= kN k)%nat) ->
  exists ok k', readSlopes arr (map (fun x => EFloat (fst x)) rows) (map (fun x => slopesEntry arr (snd x)) rows) k = Some (ok, k')
    /\ (ok = true <-> List.Forall (fun x => ((length (snd x) + 1) / 2 = kN k)%nat /\ goodParams (snd x)) rows)
    /\ (ok = true -> k' = withSlopes k (insertAll (kSlopes k) rows)).
Proof.
  induction rows as [|[m p] rows IH]; intros k HF HT; cbn [map readSlopes].
  - exists true, k. split; [reflexivity|]. split; [split; [constructor|reflexivity]|]. intros _. destruct k; reflexivity.
  - cbn [fst snd]. set (K := fun param : list R => do ok <- checkParams (kN k) 0 param; _).
    assert (((length p + 1) / 2 = kN k)%nat -> p <> [] ->
      exists ok k', K p = Some (ok, k') /\ (ok = true <-> List.Forall (fun x => ((length (snd x) + 1) / 2 = kN k)%nat /\ goodParams (snd x)) ((m, p) :: rows))
        /\ (ok = true -> k' = withSlopes k (insertAll (kSlopes k) ((m, p) :: rows)))) as HK.
    { intros HL NE. unfold K. destruct (check0_ok (kN k) p HL NE) as (ok & -> & OK). cbn [bnd toDouble]. destruct ok.
      - destruct (IH (Pk (kInit k) (kMLo k) (kMHi k) (kTLo k) (kTHi k) (mapInsert m p (kSlopes k)) (kN k) (kCoM k) (kCoT k))) as (ok & k' & E & E1 & E2).
        + intros A. destruct (HF A) as [N1 F1]. split; [exact N1|]. now inversion F1.
        + exact HT.
        + exists ok, k'. split; [exact E|]. cbn [kN kSlopes] in E1, E2. split; [|exact E2]. rewrite E1. split; intros F; [constructor; [split; [exact HL|now apply OK]|exact F]|now inversion F].
      - exists false, k. split; [reflexivity|]. split; [split; [discriminate|]|discriminate]. intros F. inversion F as [|? ? [_ G] _]; subst. now apply OK. }
    destruct arr; cbn [slopesEntry].
    + rewrite map_length. destruct ((length p + 1) / 2 =? kN k)%nat eqn:EN; cbn [negb].
      * apply Nat.eqb_eq in EN. rewrite doubles_floats. cbn [bnd]. apply HK; [exact EN|]. intros ->. specialize (HT eq_refl). cbn in EN. lia.
      * apply Nat.eqb_neq in EN. exists false, k. split; [reflexivity|]. split; [split; [discriminate|]|discriminate]. intros F. inversion F as [|? ? [G _] _]; subst. contradiction.
    + destruct (HF eq_refl) as [N1 F1]. inversion F1 as [|? ? L1 F2]; subst. cbn [snd] in L1. destruct p as [|x [|y p]]; cbn in L1; try lia. cbn [hd toDouble bnd].
      apply HK; [rewrite N1; reflexivity|discriminate].
Qed.
Lemma insertAll_ordered rows : forall l, ordered l -> ordered (insertAll l rows).
Proof. induction rows as [|x rows IH]; intros l O; [exact O|]. cbn. apply IH. now apply mapInsert_ordered. Qed.
Lemma insertAll_in rows : forall l, ordered l -> forall m p, In (m, p) (insertAll l rows) <-> In (m, p) l \/ ((forall x, In x l -> fst x <> m) /\ firstRow rows m p).
Proof.
  induction rows as [|[m0 p0] rows IH]; intros l O m p; cbn [insertAll fold_left].
  - split; [now left|]. intros [H|[_ (i & H & _)]]; [exact H|destruct i; discriminate].
  - change (fold_left (fun l x => mapInsert (fst x) (snd x) l) rows (mapInsert (fst (m0, p0)) (snd (m0, p0)) l)) with (insertAll (mapInsert m0 p0 l) rows).
    rewrite (IH _ (mapInsert_ordered m0 p0 l O)). split.
    + intros [H|[H1 (i & H2 & H3)]].
      * destruct (mapInsert_in _ _ _ _ H) as [E|E]; [|now left]. injection E as -> ->.
        destruct (List.Forall_Exists_dec (fun x : R * list R => fst x <> m0) (fun x => match Req_EM_T (fst x) m0 with left e => right (fun n => n e) | right n => left n end) l) as [F|F].
        { right. split; [now apply Forall_forall|]. exists 0%nat. split; [reflexivity|]. intros j x Hj. lia. }
        { left. apply Exists_exists in F as (x & X1 & X2). apply (mapInsert_old m0 p0 l x X1); [|exact O|exact H]. destruct (Req_EM_T (fst x) m0); [assumption|contradiction]. }
      * right. assert (m0 <> m) as NM.
        { intros ->. destruct (List.Forall_Exists_dec (fun x : R * list R => fst x <> m) (fun x => match Req_EM_T (fst x) m with left e => right (fun n => n e) | right n => left n end) l) as [F|F].
          - rewrite Forall_forall in F. apply (H1 (m, p0)); [now apply mapInsert_new|reflexivity].
          - apply Exists_exists in F as (x & X1 & X2). apply X2. apply H1. now apply mapInsert_mono. }
        split; [intros x X; apply H1; now apply mapInsert_mono|]. exists (S i). split; [exact H2|]. intros [|j] x Hj E; [injection E as <-; exact NM|]. apply (H3 j x); [lia|exact E].
    + intros [H|[H1 (i & H2 & H3)]]; [left; now apply mapInsert_mono|]. destruct i as [|i].
      * cbn in H2. injection H2 as -> ->. left. now apply mapInsert_new.
      * right. assert (m0 <> m) as NM by (apply (H3 0%nat (m0, p0)); [lia|reflexivity]). split.
        { intros x X. destruct (mapInsert_in _ _ _ _ X) as [->|X']; [exact NM|now apply H1]. }
        exists i. split; [exact H2|]. intros j x Hj E. apply (H3 (S j) x); [lia|exact E].
Qed.
Lemma insertAll_nonempty rows : forall l, rows <> [] \/ l <> [] -> insertAll l rows <> [].
Proof.
  assert (forall m p l, mapInsert m p l <> []) as NE. { intros m p [|[m' p'] l]; cbn; [discriminate|]. destruct (rltb m m'); [discriminate|]. destruct (rltb m' m); discriminate. }
  induction rows as [|x rows IH]; intros l [H|H]; [congruence|exact H| |]; cbn; apply IH; right; apply NE.
Qed.
