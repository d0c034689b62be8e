From Coq Require Import String List Reals Sorted Lra Lia Bool Arith.
From Coquelicot Require Import Complex.
From Verif Require Import PhysModel PhaseProofs PhaseProofs3 MassDepModel PsIntModel PsIntSpec PsIntProofs PsIntProofs2.
Import ListNotations.
Open Scope R_scope.

(* ---- a new table ---- *)
Definition gridF (thr upper M0 : R) (k : nat) : list R :=
  (if Rlt_dec (grid thr upper (k - 1)) M0 then if Rlt_dec M0 (grid thr upper k) then [M0] else [] else []) ++ [grid thr upper k].
Lemma newMasses_eq thr upper M0 : newMasses thr upper M0 = thr :: flat_map (gridF thr upper M0) (seq 1 50).
Proof. reflexivity. Qed.
Definition constPt (draw : drawing) (name : string) (p : point) : Prop :=
  forall z, (forall k, draw name (pM p) k = (1, z)) -> p = Pt (pM p) ((Cmod z) ^ 2) 0.
Lemma grid_S thr upper k : grid thr upper (S k) = grid thr upper k + (upper - thr) / 50.
Proof. unfold grid. rewrite S_INR. lra. Qed.
Lemma grid_50 thr upper : grid thr upper 50 = upper.
Proof. unfold grid. replace (INR 50) with 50 by (simpl; lra). field. Qed.
Lemma grid_mono thr upper i j : thr < upper -> (i < j)%nat -> grid thr upper i < grid thr upper j.
Proof. intros H Hij. unfold grid. apply lt_INR in Hij. assert (0 < (upper - thr) / 50) by lra. nra. Qed.
Lemma fillLoop_ok draw name thr upper M0 : thr < upper -> forall j k fuel t pos, (k + j = 51)%nat -> (1 <= k)%nat -> (j <= fuel)%nat ->
  exists pts pos', fillLoop fuel draw name upper ((upper - thr) / 50) M0 (grid thr upper k) t pos = Some (t ++ pts, pos') /\
    map pM pts = flat_map (gridF thr upper M0) (seq k j) /\ List.Forall (measured draw name) pts /\ List.Forall (constPt draw name) pts.
Proof.
  intros Hu. induction j as [|j IH]; intros k fuel t pos Hk H1 Hf.
  - assert (k = 51%nat) by lia. subst k. exists [], pos.
    assert (upper < grid thr upper 51) by (rewrite grid_S, grid_50; lra).
    destruct fuel; cbn [fillLoop]; rewrite rltb_true by assumption; rewrite app_nil_r; repeat split; constructor.
  - destruct fuel as [|f]; [lia|]. cbn [fillLoop].
    assert (Hle : grid thr upper k <= upper).
    { destruct (Nat.eq_dec k 50) as [E|E]; [subst k; rewrite grid_50; lra|].
      rewrite <- (grid_50 thr upper) at 2. apply Rlt_le. apply grid_mono; [exact Hu|lia]. }
    rewrite (rltb_false upper (grid thr upper k)) by exact Hle.
    assert (Em : grid thr upper k - (upper - thr) / 50 = grid thr upper (k - 1)).
    { destruct k as [|k]; [lia|]. rewrite grid_S. replace (S k - 1)%nat with k by lia. lra. }
    rewrite Em.
    assert (En : grid thr upper k + (upper - thr) / 50 = grid thr upper (S k)) by (rewrite grid_S; reflexivity).
    rewrite En.
    set (P := if rltb (grid thr upper (k - 1)) M0 && rltb M0 (grid thr upper k)
              then doM r <- evalInt draw name M0 N_MC_EVENTS_FOR_M0 pos; Some (t ++ [fst r], snd r) else Some (t, pos)).
    assert (HP : exists l pos1, P = Some (t ++ l, pos1) /\
       map pM l = (if Rlt_dec (grid thr upper (k - 1)) M0 then if Rlt_dec M0 (grid thr upper k) then [M0] else [] else []) /\
       List.Forall (measured draw name) l /\ List.Forall (constPt draw name) l).
    { unfold P, rltb. destruct (Rlt_dec (grid thr upper (k - 1)) M0); [destruct (Rlt_dec M0 (grid thr upper k))|]; cbn [andb].
      - destruct (evalInt_ok draw name M0 N_MC_EVENTS_FOR_M0 pos (or_intror eq_refl)) as [p [Ee [Epm [Hm Hz]]]].
        rewrite Ee. cbn [bindM fst snd]. exists [p], (pos + N_MC_EVENTS_FOR_M0)%nat.
        split; [reflexivity|]. split; [cbn; rewrite Epm; reflexivity|]. split; constructor; try exact Hm; try constructor.
        intros z Hzz. rewrite Epm in *. apply Hz. exact Hzz.
      - exists [], pos. rewrite app_nil_r. repeat split; constructor.
      - exists [], pos. rewrite app_nil_r. repeat split; constructor. }
    destruct HP as [l [pos1 [EP [Hl [Hm1 Hc1]]]]]. rewrite EP. cbn [bindM fst snd].
    destruct (evalInt_ok draw name (grid thr upper k) N_MC_EVENTS pos1 (or_introl eq_refl)) as [p [Ee [Epm [Hm Hz]]]].
    rewrite Ee. cbn [bindM fst snd].
    destruct (IH (S k) f ((t ++ l) ++ [p]) (pos1 + N_MC_EVENTS)%nat) as [pts [pos' [E [Hp [Hm2 Hc2]]]]]; [lia|lia|lia|].
    rewrite E. exists (l ++ p :: pts), pos'. split; [rewrite <- !app_assoc; reflexivity|].
    split; [|split].
    + rewrite map_app. cbn [map seq flat_map]. rewrite Hl, Hp, Epm. unfold gridF at 2. rewrite <- app_assoc. reflexivity.
    + apply Forall_app. split; [exact Hm1|]. constructor; assumption.
    + apply Forall_app. split; [exact Hc1|]. constructor; [|assumption]. intros z Hzz. rewrite Epm in *. apply Hz. exact Hzz.
Qed.
Lemma fillLoop_endless draw name upper M0 : forall fuel t pos, fillLoop fuel draw name upper 0 M0 upper t pos = None.
Proof.
  induction fuel as [|f IH]; intros t pos; cbn [fillLoop]; rewrite (rltb_false upper upper) by lra; [reflexivity|].
  replace (upper - 0) with upper by ring. replace (upper + 0) with upper by ring.
  destruct (if rltb upper M0 && rltb M0 upper then _ else _) as [tp|]; [|reflexivity]. cbn [bindM].
  destruct (evalInt_ok draw name upper N_MC_EVENTS (snd tp) (or_introl eq_refl)) as [p [Ee _]]. rewrite Ee. cbn [bindM]. apply IH.
Qed.
Lemma gridF_sorted thr upper M0 : thr < upper -> forall j k, (1 <= k)%nat ->
  StronglySorted Rlt (flat_map (gridF thr upper M0) (seq k j)) /\ List.Forall (fun m => grid thr upper (k - 1) < m) (flat_map (gridF thr upper M0) (seq k j)).
Proof.
  intros Hu. induction j as [|j IH]; intros k Hk; [split; constructor|].
  cbn [seq flat_map]. destruct (IH (S k) ltac:(lia)) as [H1 H2]. replace (S k - 1)%nat with k in H2 by lia.
  pose proof (grid_mono thr upper (k - 1) k Hu ltac:(lia)) as Hg.
  assert (Hc : StronglySorted Rlt (grid thr upper k :: flat_map (gridF thr upper M0) (seq (S k) j))) by (constructor; assumption).
  assert (Hd : List.Forall (fun m => grid thr upper (k - 1) < m) (grid thr upper k :: flat_map (gridF thr upper M0) (seq (S k) j))).
  { constructor; [exact Hg|]. eapply Forall_impl; [|exact H2]. intros m Hm. cbn in *. lra. }
  unfold gridF at 1 3. destruct (Rlt_dec (grid thr upper (k - 1)) M0); [destruct (Rlt_dec M0 (grid thr upper k))|]; cbn [app]; try (split; assumption).
  split; constructor; try assumption.
  constructor; [assumption|]. eapply Forall_impl; [|exact H2]. intros m Hm. cbn in *. lra.
Qed.
Lemma newMasses_sorted thr upper M0 : thr < upper -> StronglySorted Rlt (newMasses thr upper M0).
Proof.
  intros Hu. rewrite newMasses_eq. destruct (gridF_sorted thr upper M0 Hu 50 1 ltac:(lia)) as [H1 H2].
  constructor; [exact H1|]. replace (grid thr upper (1 - 1)) with thr in H2; [exact H2|]. unfold grid. simpl. lra.
Qed.
Lemma fillTable_ok fuel draw upper c pos : cTab c = [] -> fst (cPath c) <> ""%string -> 0 < upper -> cThr c < upper -> (50 <= fuel)%nat ->
  exists t pos', fillTable fuel draw upper c pos = Some (setM0s (cM0s c ++ [cM0 c]) (setTab t c), pos') /\
    goodTable draw (cName c) (cThr c) t /\ map pM t = newMasses (cThr c) upper (cM0 c) /\ (forall p, In p (tl t) -> constPt draw (cName c) p).
Proof.
  intros Ht Hd H0 Hu Hf. unfold fillTable. rewrite Ht.
  destruct (String.eqb (fst (cPath c)) "") eqn:E; [apply String.eqb_eq in E; contradiction|].
  rewrite rltb_true by exact H0. cbn [orb negb].
  replace (INR N_POINTS) with 50 by (unfold N_POINTS; simpl; lra).
  replace (cThr c + (upper - cThr c) / 50) with (grid (cThr c) upper 1) by (unfold grid; simpl; lra).
  destruct (fillLoop_ok draw (cName c) (cThr c) upper (cM0 c) Hu 50 1 fuel [Pt (cThr c) 0 0] pos) as [pts [pos' [E1 [Hp [Hm Hc]]]]]; [lia|lia|lia|].
  rewrite E1. cbn [bindM fst snd].
  exists (Pt (cThr c) 0 0 :: pts), pos'. split; [reflexivity|].
  assert (Em : map pM (Pt (cThr c) 0 0 :: pts) = newMasses (cThr c) upper (cM0 c)) by (rewrite newMasses_eq; cbn [map pM]; rewrite Hp; reflexivity).
  split; [|split].
  - split; [unfold sorted; rewrite Em; apply newMasses_sorted; exact Hu|]. exists pts. split; [reflexivity|exact Hm].
  - exact Em.
  - cbn [tl]. rewrite Forall_forall in Hc. exact Hc.
Qed.
Lemma fillLoop_more draw name upper step M0 : forall fuel M t pos r k, fillLoop fuel draw name upper step M0 M t pos = Some r ->
  fillLoop (fuel + k) draw name upper step M0 M t pos = Some r.
Proof.
  induction fuel as [|f IH]; intros M t pos r k H.
  - cbn [fillLoop] in H. destruct (rltb upper M) eqn:E; [|discriminate]. destruct (0 + k)%nat; cbn [fillLoop]; rewrite E; exact H.
  - cbn [fillLoop Nat.add] in *. destruct (rltb upper M); [exact H|].
    destruct (if rltb (M - step) M0 && rltb M0 M then _ else _) as [tp|]; [|discriminate]. cbn [bindM] in *.
    destruct (evalInt draw name M N_MC_EVENTS (snd tp)) as [r0|]; [|discriminate]. cbn [bindM] in *. apply IH. exact H.
Qed.
(* whatever the bound, a table that comes out is good *)
Lemma fillTable_some fuel draw upper c pos r : fillTable fuel draw upper c pos = Some r ->
  exists t, fst r = setM0s (cM0s c ++ [cM0 c]) (setTab t c) /\ goodTable draw (cName c) (cThr c) t /\
    (cThr c < upper -> map pM t = newMasses (cThr c) upper (cM0 c) /\ (forall p, In p (tl t) -> constPt draw (cName c) p)).
Proof.
  intros H. pose proof H as H'. unfold fillTable in H. destruct (cTab c) eqn:Ht; [|discriminate].
  destruct (String.eqb (fst (cPath c)) "" || negb (rltb 0 upper)) eqn:E; [discriminate|].
  apply Bool.orb_false_iff in E. destruct E as [E1 E2].
  assert (Hd : fst (cPath c) <> ""%string) by (intros K; rewrite K in E1; discriminate).
  assert (H0 : 0 < upper) by (unfold rltb in E2; destruct (Rlt_dec 0 upper); [assumption|discriminate]).
  destruct (Rlt_dec (cThr c) upper) as [L|L].
  - destruct (fillTable_ok (fuel + 50) draw upper c pos Ht Hd H0 L ltac:(lia)) as [t [pos' [E3 [Hg [Hm Hc]]]]].
    unfold fillTable in E3. rewrite Ht, E1, E2 in E3. cbn [orb] in E3.
    destruct (fillLoop fuel draw (cName c) upper _ (cM0 c) _ _ pos) as [x|] eqn:Ex; [|discriminate].
    rewrite (fillLoop_more _ _ _ _ _ _ _ _ _ x 50 Ex) in E3. cbn [bindM] in *. injection H as <-.
    assert (E4 : fst x = t) by (apply (f_equal (fun o => match o with Some y => cTab (fst y) | None => [] end)) in E3; exact E3).
    cbn [fst]. exists t. rewrite E4. split; [reflexivity|]. split; [exact Hg|]. intros _. split; assumption.
  - destruct (Req_EM_T (cThr c) upper) as [Q|Q].
    + exfalso. replace ((upper - cThr c) / INR N_POINTS) with 0 in H by (rewrite Q; unfold Rdiv; ring).
      replace (cThr c + 0) with upper in H by (rewrite Q; ring). rewrite fillLoop_endless in H. discriminate.
    + replace (INR N_POINTS) with 50 in H by (unfold N_POINTS; simpl; lra).
      assert (K : rltb upper (cThr c + (upper - cThr c) / 50) = true) by (apply rltb_true; lra).
      destruct fuel; cbn [fillLoop] in H; rewrite K in H; cbn [bindM fst snd] in H; injection H as <-; cbn [fst];
        (exists [Pt (cThr c) 0 0]; split; [reflexivity|]; split; [|intros; lra]; split; [apply sorted_cons; split; constructor|exists []; split; [reflexivity|constructor]]).
Qed.

(* ---- reading or making the table ---- *)
Lemma path_eqb_refl p : path_eqb p p = true.
Proof. destruct p. unfold path_eqb. cbn. rewrite !String.eqb_refl. reflexivity. Qed.
Lemma path_eqb_eq p q : path_eqb p q = true <-> p = q.
Proof.
  split; [|intros E; subst; apply path_eqb_refl]. destruct p, q. unfold path_eqb. cbn. rewrite Bool.andb_true_iff, !String.eqb_eq. intros [-> ->]. reflexivity.
Qed.
Lemma setFile_same d p f : setFile d p f p = Some f.
Proof. unfold setFile. rewrite path_eqb_refl. reflexivity. Qed.
Lemma setFile_other d p f q : q <> p -> setFile d p f q = d q.
Proof. intros H. unfold setFile. destruct (path_eqb q p) eqn:E; [apply path_eqb_eq in E; contradiction|reflexivity]. Qed.
Lemma newContainer_some fuel draw dir upper v d pos c d' pos' : newContainer fuel draw dir upper v d pos = Some (c, d', pos') ->
  dir <> ""%string /\ cName c = vName v /\ cPath c = (dir, vName v) /\ cThr c = vThr v /\
  (exists g, d' (cPath c) = Some (Good (cTab c) g)) /\
  ((exists g, d (dir, vName v) = Some (Good (cTab c) g) /\ d' = d /\ pos' = pos /\ cM0s c = []) \/
   (d (dir, vName v) = None /\ goodTable draw (vName v) (vThr v) (cTab c) /\ d' = setFile d (dir, vName v) (fileOf c) /\ cM0s c = [vM0 v] /\
    (vThr v < upper -> map pM (cTab c) = newMasses (vThr v) upper (vM0 v) /\ (forall p, In p (tl (cTab c)) -> constPt draw (vName v) p)))).
Proof.
  intros H. unfold newContainer in H. destruct (String.eqb dir "" || negb (rltb 0 upper)) eqn:Ed; [discriminate|].
  split; [intros K; subst dir; discriminate|].
  unfold readFile in H. cbn [cPath] in H.
  destruct (d (dir, vName v)) as [[t g| |]|] eqn:E.
  - unfold readTree in H. cbn [cPath] in H. rewrite E in H. cbn [bindM setTab] in H. injection H as <- <- <-.
    cbn. split; [reflexivity|]. split; [reflexivity|]. split; [reflexivity|]. split; [exists g; exact E|].
    left. exists g. repeat split; reflexivity.
  - unfold readTree in H. cbn [cPath] in H. rewrite E in H. discriminate.
  - destruct (fillTable _ _ _ _ _) as [x|] eqn:Ef; [|discriminate]. cbn [bindM] in H.
    destruct (fillTable_some _ _ _ _ _ _ Ef) as [t [Ex _]].
    unfold writeTable in H. rewrite Ex in H. cbn [cPath setM0s setTab] in H. rewrite E in H. discriminate.
  - destruct (fillTable _ _ _ _ _) as [x|] eqn:Ef; [|discriminate]. cbn [bindM] in H.
    destruct (fillTable_some _ _ _ _ _ _ Ef) as [t [Ex [Hg Hn]]]. cbn [cName cThr cM0 cM0s] in *.
    unfold writeTable in H. rewrite Ex in H. cbn [cPath setM0s setTab cName cThr cM0 cM0s cTab] in H. rewrite E in H. cbn [bindM] in H.
    unfold readTree in H. cbn [cPath] in H. rewrite setFile_same in H. cbn [fileOf cTab cM0s bindM setTab] in H.
    injection H as <- <- <-. cbn [cName cPath cThr cTab cM0s].
    split; [reflexivity|]. split; [reflexivity|]. split; [reflexivity|]. split; [rewrite setFile_same; unfold fileOf; eexists; reflexivity|].
    right. split; [reflexivity|]. split; [exact Hg|]. split; [reflexivity|]. split; [reflexivity|exact Hn].
Qed.
