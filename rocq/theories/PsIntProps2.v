(* C85, second part: calls that succeed, answers that do not depend on the history, restart of the process. *)
From Coq Require Import String List Reals Sorted Lra Lia Bool Arith.
From Coquelicot Require Import Complex.
From Verif Require Import PhysModel PhaseProofs PhaseProofs3 MassDepModel PsIntModel PsIntSpec PsIntProofs PsIntProofs2 PsIntProofs3 PsIntProofs4 PsIntProps.
Import ListNotations.
Open Scope R_scope.

Lemma first_last t : sorted t -> t <> [] -> exists p q, In p t /\ In q t /\ firstMass t = pM p /\ lastMass t = pM q.
Proof.
  intros _ H. destruct (exists_last H) as [a [q E]]. destruct t as [|p t]; [congruence|].
  exists p, q. split; [left; reflexivity|]. split; [rewrite E; apply in_or_app; right; left; reflexivity|]. split; [reflexivity|].
  unfold lastMass. rewrite E, last_last. reflexivity.
Qed.
Lemma lastMass_map t : t <> [] -> lastMass t = List.last (map pM t) 0.
Proof.
  intros H. destruct (exists_last H) as [a [q E]]. subst. unfold lastMass. rewrite map_app. cbn [map]. rewrite !last_last. reflexivity.
Qed.
Lemma lastMass_new thr upper M0 t : map pM t = newMasses thr upper M0 -> firstMass t = thr /\ lastMass t = upper.
Proof.
  intros E. rewrite newMasses_eq in E. assert (Hne : t <> []) by (intros K; subst; discriminate).
  split; [destruct t as [|p t]; [congruence|]; cbn in E; injection E as E _; exact E|].
  rewrite (lastMass_map t Hne), E.
  replace (seq 1 50) with (seq 1 49 ++ [50%nat]) by reflexivity. rewrite flat_map_app.
  change (flat_map (gridF thr upper M0) [50%nat]) with (gridF thr upper M0 50 ++ []). rewrite app_nil_r. unfold gridF at 2.
  rewrite app_assoc, app_comm_cons, last_last. apply grid_50.
Qed.
(* the peak mass is in a new table *)
Lemma newMasses_M0 thr upper M0 : thr < upper -> thr < M0 <= upper -> In M0 (newMasses thr upper M0).
Proof.
  intros Hu HM. rewrite newMasses_eq. right.
  assert (G : forall k, (k <= 50)%nat -> M0 <= grid thr upper k -> exists j, (1 <= j <= k)%nat /\ grid thr upper (j - 1) < M0 <= grid thr upper j).
  { induction k as [|k IH]; intros Hk H.
    - unfold grid in H. simpl in H. lra.
    - destruct (Rle_dec M0 (grid thr upper k)) as [L|L].
      + destruct (IH ltac:(lia) L) as [j [Hj1 Hj2]]. exists j. split; [lia|exact Hj2].
      + exists (S k). split; [lia|]. replace (S k - 1)%nat with k by lia. lra. }
  destruct (G 50%nat ltac:(lia)) as [j [Hj [H1 H2]]]; [rewrite grid_50; lra|].
  apply in_flat_map. exists j. split; [apply in_seq; lia|]. unfold gridF.
  destruct (Rlt_dec (grid thr upper (j - 1)) M0); [|lra]. destruct (Rlt_dec M0 (grid thr upper j)); cbn [app]; left; [reflexivity|lra].
Qed.

(* ---- a call that does not end the process ---- *)
Lemma call_total fuel draw thr s v n : inv draw thr s -> vThr v = thr (vName v) -> (50 <= fuel)%nat ->
  (findName (vAddr v) (sNames s) = Some n \/ (findName (vAddr v) (sNames s) = None /\ n = vName v)) ->
  (findCont n (sConts s) <> None \/
   (sDir s <> ""%string /\ 0 < sUpper s /\ (sDisk s (sDir s, vName v) <> None \/ vThr v < sUpper s))) ->
  (forall t, tableFor draw s n v t -> firstMass t <= vM0 v <= lastMass t) ->
  call fuel draw v s <> None.
Proof.
  intros Hi Htv Hfuel Hnm Hset Hm0.
  unfold call. set (names := match findName (vAddr v) (sNames s) with Some _ => sNames s | None => (vAddr v, vName v) :: sNames s end).
  assert (En : findName (vAddr v) names = Some n).
  { unfold names. destruct Hnm as [E|[E1 E2]]; [rewrite E; exact E|]. rewrite E1. unfold findName. cbn [find fst]. rewrite Nat.eqb_refl. subst. reflexivity. }
  rewrite En. cbn [bindM]. clearbody names.
  assert (HP : exists c d pos, match findCont n (sConts s) with Some c => Some (c, sDisk s, sPos s) | None => newContainer fuel draw (sDir s) (sUpper s) v (sDisk s) (sPos s) end = Some (c, d, pos) /\
     tableFor draw s n v (cTab c) /\ sorted (cTab c) /\ cTab c <> []).
  { unfold tableFor. destruct (findCont n (sConts s)) as [c|] eqn:Ec.
    - exists c, (sDisk s), (sPos s). split; [reflexivity|]. split; [reflexivity|]. destruct Hi as [_ Hi]. destruct (Hi _ _ Ec) as [Hg _]. apply (good_sorted _ _ _ _ Hg).
    - destruct Hset as [K|[Hdir [Hup Hex]]]; [congruence|].
      assert (Hnc : newContainer fuel draw (sDir s) (sUpper s) v (sDisk s) (sPos s) <> None).
      { unfold newContainer. destruct (String.eqb (sDir s) "") eqn:Ed; [apply String.eqb_eq in Ed; contradiction|]. rewrite rltb_true by exact Hup. cbn [orb negb].
        unfold readFile. cbn [cPath]. destruct (sDisk s (sDir s, vName v)) as [f|] eqn:Ef.
        - destruct Hi as [Hf _]. destruct (Hf _ _ Ef) as [t [g [Eg _]]]. subst f. unfold readTree. cbn [cPath]. rewrite Ef. discriminate.
        - destruct Hex as [K|Hlt]; [congruence|].
          destruct (fillTable_ok fuel draw (sUpper s) (Cont [] [] (vName v) (sDir s, vName v) (vThr v) (vM0 v)) (sPos s)) as [t [pos' [Et _]]]; try assumption; try reflexivity.
          rewrite Et. cbn [bindM fst]. unfold writeTable. cbn [cPath setM0s setTab]. rewrite Ef. cbn [bindM]. unfold readTree. cbn [cPath]. rewrite setFile_same. discriminate. }
      destruct (newContainer fuel draw (sDir s) (sUpper s) v (sDisk s) (sPos s)) as [[[c d] pos]|] eqn:Enc; [|congruence].
      exists c, d, pos. split; [reflexivity|].
      destruct (newContainer_some _ _ _ _ _ _ _ _ _ _ Enc) as [N0 [N1 [N2 [N3 [N4 [[g [N5 [N6 [N7 N8]]]]|[N5 [N6 [N7 [N8 N9]]]]]]]]]].
      + rewrite N5. split; [exists g; reflexivity|]. destruct Hi as [Hf _]. destruct (Hf _ _ N5) as [t [g' [Eg Hg]]]. injection Eg as <- <-. apply (good_sorted _ _ _ _ Hg).
      + rewrite N5. split; [split; [exact N6|intros K; apply N9; exact K]|]. apply (good_sorted _ _ _ _ N6). }
  destruct HP as [c [d [pos [EP [HT [Hs Hne]]]]]]. rewrite EP. cbn [bindM].
  destruct (first_last (cTab c) Hs Hne) as [p [q [Hp [Hq [E1 E2]]]]]. pose proof (Hm0 _ HT) as HM. rewrite E1, E2 in HM.
  unfold amplitude. destruct (interpolate_ok (cTab c) (vM v) Hs Hne) as [r [Er _]]. rewrite Er. cbn [bindM].
  pose proof (getInt0_total fuel draw (vM0 v) c d pos p q Hs Hp Hq HM ltac:(lia)) as K.
  destruct (getInt0 fuel draw (vM0 v) c d pos) as [[[[a b] x] y]|]; [|congruence]. cbn [bindM]. discriminate.
Qed.
Lemma name_before h s v : nameFrom h s -> stableNames (h ++ [OCall v]) ->
  findName (vAddr v) (sNames s) = Some (vName v) \/ (findName (vAddr v) (sNames s) = None /\ vName v = vName v).
Proof.
  intros Hn Hw. destruct (findName (vAddr v) (sNames s)) as [n|] eqn:E; [left|right; split; reflexivity].
  destruct (Hn _ _ E) as [pre [v1 [mid [Eh [Ea [Enn [Hd Hrr]]]]]]]. rewrite <- Enn. f_equal.
  apply (Hw pre v1 mid v []); [rewrite Eh, <- app_assoc; reflexivity|exact Ea|rewrite Ea; exact Hd|exact Hrr].
Qed.
Theorem C85_total : forall fuel draw thr h s v, reached fuel draw thr h s -> thresholds thr (h ++ [OCall v]) -> stableNames (h ++ [OCall v]) ->
  (50 <= fuel)%nat ->
  (findCont (vName v) (sConts s) <> None \/
   (sDir s <> ""%string /\ 0 < sUpper s /\ (sDisk s (sDir s, vName v) <> None \/ vThr v < sUpper s))) ->
  (forall t, tableFor draw s (vName v) v t -> firstMass t <= vM0 v <= lastMass t) ->
  call fuel draw v s <> None.
Proof.
  intros fuel draw thr h s v Hr Ht Hw Hfuel Hset Hm0. destruct (reached_inv _ _ _ _ _ Hr) as [Hi [Hm Hn]].
  assert (Htv : vThr v = thr (vName v)) by (apply Ht; apply in_or_app; right; left; reflexivity).
  apply (call_total fuel draw thr s v (vName v)); try assumption. apply (name_before h); assumption.
Qed.
(* the first call for a sub-decay makes the table, with the peak mass in it, writes it and answers from it *)
Theorem C85_new_table : forall fuel draw thr h s v, reached fuel draw thr h s -> thresholds thr (h ++ [OCall v]) -> stableNames (h ++ [OCall v]) ->
  (50 <= fuel)%nat -> findCont (vName v) (sConts s) = None -> sDisk s (sDir s, vName v) = None ->
  sDir s <> ""%string -> 0 < sUpper s -> vThr v < vM0 v <= sUpper s ->
  exists bw s' t g, call fuel draw v s = Some (bw, s') /\
    sDisk s' (sDir s, vName v) = Some (Good t g) /\ map pM t = newMasses (vThr v) (sUpper s) (vM0 v) /\ In (vM0 v) (map pM t) /\
    goodTable draw (vName v) (vThr v) t /\ isAnswer t t (vM v) (vM0 v) (vGamma v) bw.
Proof.
  intros fuel draw thr h s v Hr Ht Hw Hfuel Hc Hd Hdir Hup HM.
  assert (Hlt : vThr v < sUpper s) by lra.
  assert (Htot : call fuel draw v s <> None).
  { apply (C85_total fuel draw thr h); try assumption; [right; repeat split; try assumption; right; exact Hlt|].
    intros t HT. unfold tableFor in HT. rewrite Hc, Hd in HT. destruct HT as [_ HT]. destruct (lastMass_new _ _ _ _ (HT Hlt)) as [-> ->]. lra. }
  destruct (call fuel draw v s) as [[bw s']|] eqn:E; [|congruence].
  destruct (C85_answer fuel draw thr h s v bw s' Hr Ht Hw E) as [t [t' [HT [HT' [G1 [G2 [Ha [Hin [Hk Hk2]]]]]]]]].
  pose proof HT as HT0. unfold tableFor in HT. rewrite Hc, Hd in HT. destruct HT as [_ HT]. specialize (HT Hlt).
  assert (Hin0 : In (vM0 v) (map pM t)) by (rewrite HT; apply newMasses_M0; assumption).
  assert (Hit : inTable t (vM0 v)) by (apply in_map_iff in Hin0; destruct Hin0 as [p [<- Hp]]; apply inTable_self; exact Hp).
  specialize (Hk Hit). subst t'.
  destruct (reached_inv _ _ _ _ _ Hr) as [Hi [Hm Hn]].
  assert (Htv : vThr v = thr (vName v)) by (apply Ht; apply in_or_app; right; left; reflexivity).
  pose proof (nameFrom_call _ _ _ _ _ _ _ _ Hi Htv Hn Hw E) as Hname.
  destruct (call_ok _ _ _ _ _ _ _ Hi Htv E) as [n [t0 [c [E1 [_ [_ [E3 [_ [_ [_ [_ [_ [_ [_ [_ [_ [Hcase _]]]]]]]]]]]]]]]]].
  rewrite Hname in E1. injection E1 as <-.
  destruct Hcase as [[c0 [F1 _]]|[_ [_ [F2 [_ [_ [g F3]]]]]]]; [congruence|].
  unfold tableFor in HT'. rewrite E3, findCont_set, String.eqb_refl in HT'. rewrite F2, <- HT' in F3.
  exists bw, s', t, g. split; [reflexivity|]. split; [exact F3|]. split; [exact HT|]. split; [exact Hin0|]. split; [exact G1|exact Ha].
Qed.

(* ---- the same table gives the same answer, in whatever process, and nothing is computed or written ---- *)
Lemma answer_unique t t' M M0 G b1 b2 : isAnswer t t' M M0 G b1 -> isAnswer t t' M M0 G b2 -> b1 = b2.
Proof.
  intros H1 H2. destruct b1 as [z|]; [symmetry; apply H2; apply H1; reflexivity|].
  destruct b2 as [z|]; [|reflexivity]. apply H1. apply H2. reflexivity.
Qed.
Lemma known_call fuel draw thr h s v bw s' t : reached fuel draw thr h s -> thresholds thr (h ++ [OCall v]) -> stableNames (h ++ [OCall v]) ->
  call fuel draw v s = Some (bw, s') -> tableKnown s v t -> inTable t (vM0 v) ->
  isAnswer t t (vM v) (vM0 v) (vGamma v) bw /\ sDisk s' = sDisk s /\ sPos s' = sPos s /\ tableKnown s' v t.
Proof.
  intros Hr Ht Hw E HK Hin. destruct (reached_inv _ _ _ _ _ Hr) as [Hi [Hm Hn]].
  assert (Htv : vThr v = thr (vName v)) by (apply Ht; apply in_or_app; right; left; reflexivity).
  pose proof (nameFrom_call _ _ _ _ _ _ _ _ Hi Htv Hn Hw E) as Hname.
  destruct (call_ok _ _ _ _ _ _ _ Hi Htv E) as [n [t0 [c [E1 [_ [_ [E3 [_ [_ [HT [Ha [_ [_ [_ [_ [Hcmp [Hcase _]]]]]]]]]]]]]]]]].
  rewrite Hname in E1. injection E1 as <-.
  assert (Et : t0 = t).
  { unfold tableFor in HT. unfold tableKnown in HK. destruct (findCont (vName v) (sConts s)); [congruence|]. destruct HK as [g HK]. rewrite HK in HT. destruct HT as [g' HT]. injection HT as -> _. reflexivity. }
  subst t0. assert (Ec : cTab c = t) by (destruct Hcmp as [Q|[Q _]]; [exact Q|contradiction]). rewrite Ec in Ha.
  split; [exact Ha|].
  assert (Hds : sDisk s' = sDisk s /\ sPos s' = sPos s).
  { destruct Hcase as [[c0 [_ [_ [_ [_ [F _]]]]]]|[F1 [_ [_ [_ [F _]]]]]].
    - destruct (F Hin) as [_ K]. exact K.
    - unfold tableKnown in HK. rewrite F1 in HK. destruct HK as [g HK]. apply F; [congruence|exact Hin]. }
  destruct Hds as [D1 D2]. split; [exact D1|]. split; [exact D2|].
  unfold tableKnown. rewrite E3, findCont_set, String.eqb_refl. symmetry. exact Ec.
Qed.
Theorem C85_same_answer : forall fuel1 draw1 thr1 h1 s1 b1 s1' fuel2 draw2 thr2 h2 s2 b2 s2' v t,
  reached fuel1 draw1 thr1 h1 s1 -> thresholds thr1 (h1 ++ [OCall v]) -> stableNames (h1 ++ [OCall v]) -> call fuel1 draw1 v s1 = Some (b1, s1') ->
  reached fuel2 draw2 thr2 h2 s2 -> thresholds thr2 (h2 ++ [OCall v]) -> stableNames (h2 ++ [OCall v]) -> call fuel2 draw2 v s2 = Some (b2, s2') ->
  tableKnown s1 v t -> tableKnown s2 v t -> inTable t (vM0 v) ->
  b1 = b2 /\ sDisk s1' = sDisk s1 /\ sPos s1' = sPos s1 /\ tableKnown s1' v t.
Proof.
  intros fuel1 draw1 thr1 h1 s1 b1 s1' fuel2 draw2 thr2 h2 s2 b2 s2' v t R1 T1 W1 C1 R2 T2 W2 C2 K1 K2 Hin.
  destruct (known_call _ _ _ _ _ _ _ _ _ R1 T1 W1 C1 K1 Hin) as [A1 [A2 [A3 A4]]].
  destruct (known_call _ _ _ _ _ _ _ _ _ R2 T2 W2 C2 K2 Hin) as [B1 _].
  split; [apply (answer_unique _ _ _ _ _ _ _ A1 B1)|]. repeat split; assumption.
Qed.
(* after an answer for v the table is known and contains its peak *)
Theorem C85_known_after_call : forall fuel draw thr h s v bw s', reached fuel draw thr h s -> thresholds thr (h ++ [OCall v]) -> stableNames (h ++ [OCall v]) ->
  call fuel draw v s = Some (bw, s') -> exists t, tableKnown s' v t /\ inTable t (vM0 v).
Proof.
  intros fuel draw thr h s v bw s' Hr Ht Hw H. destruct (C85_answer _ _ _ _ _ _ _ _ Hr Ht Hw H) as [t [t' [_ [HT [_ [_ [_ [Hin _]]]]]]]].
  destruct (reached_inv _ _ _ _ _ Hr) as [Hi [Hm Hn]].
  assert (Htv : vThr v = thr (vName v)) by (apply Ht; apply in_or_app; right; left; reflexivity).
  pose proof (nameFrom_call _ _ _ _ _ _ _ _ Hi Htv Hn Hw H) as Hname.
  destruct (call_ok _ _ _ _ _ _ _ Hi Htv H) as [n [t0 [c [E1 [_ [_ [E3 _]]]]]]]. rewrite Hname in E1. injection E1 as <-.
  exists t'. split; [|exact Hin]. unfold tableFor in HT. unfold tableKnown. rewrite E3, findCont_set, String.eqb_refl in *. exact HT.
Qed.
(* a process that was started later in the same directory knows the same table *)
Lemma run_dir fuel draw thr h dir : thresholds thr h -> (forall d, In (ODir d) h -> d = dir) -> forall s, run fuel draw h start = Some s ->
  (sDir s = ""%string \/ sDir s = dir) /\ (forall n c, findCont n (sConts s) = Some c -> fst (cPath c) = dir).
Proof.
  induction h as [|o h IH] using rev_ind; intros Ht Hd s H.
  - injection H as <-. split; [left; reflexivity|]. intros n c Hc. discriminate.
  - rewrite run_app in H. destruct (run fuel draw h start) as [s1|] eqn:E; [|discriminate].
    assert (Ht1 : thresholds thr h) by (intros v Hv; apply Ht; apply in_or_app; left; exact Hv).
    destruct (IH Ht1 (fun d Hin => Hd d (in_or_app _ _ _ (or_introl Hin))) s1 eq_refl) as [I1 I2].
    pose proof (run_inv fuel draw thr h start s1 (start_inv draw thr) Ht1 E) as Hi.
    cbn [run] in H. destruct (step fuel draw o s1) as [s2|] eqn:E2; [|discriminate]. injection H as <-.
    destruct o as [v|b|d|u|pos]; cbn [step] in E2.
    + destruct (call fuel draw v s1) as [[bw s3]|] eqn:Ec; [|discriminate]. injection E2 as <-.
      assert (Htv : vThr v = thr (vName v)) by (apply Ht; apply in_or_app; right; left; reflexivity).
      destruct (call_ok _ _ _ _ _ _ _ Hi Htv Ec) as [n [t [c [E1 [_ [_ [E3 [E4 [_ [_ [_ [_ [_ [_ [_ [_ [Hcase _]]]]]]]]]]]]]]]]].
      rewrite E4. split; [exact I1|]. intros m c1 Hf. rewrite E3, findCont_set in Hf. destruct (String.eqb m n); [|apply (I2 m); exact Hf].
      injection Hf as <-. destruct Hcase as [[c0 [F1 [_ [_ [F3 _]]]]]|[_ [_ [F2 [F3 _]]]]].
      * rewrite F3. apply (I2 n). exact F1.
      * rewrite F2. cbn. destruct I1; [contradiction|assumption].
    + injection E2 as <-. split; assumption.
    + injection E2 as <-. split; [right; apply Hd; apply in_or_app; right; left; reflexivity|exact I2].
    + injection E2 as <-. split; assumption.
    + injection E2 as <-. split; [left; reflexivity|]. intros n c Hc. discriminate.
Qed.
Theorem C85_persistent : forall fuel draw thr h s v t dir pos u, reached fuel draw thr h s -> (forall d, In (ODir d) h -> d = dir) -> sDir s = dir ->
  tableKnown s v t -> tableKnown (setUpperMassBound u (setDirectory dir (newProcess pos s))) v t.
Proof.
  intros fuel draw thr h s v t dir pos u Hr Hd Es HK. unfold tableKnown in *. cbn [setUpperMassBound setDirectory newProcess sConts sDisk sDir].
  change (findCont (vName v) []) with (@None container).
  destruct (findCont (vName v) (sConts s)) as [c|] eqn:Ec; [|rewrite <- Es; exact HK].
  destruct (C85_memory_is_file _ _ _ _ _ Hr _ _ Ec) as [E1 [E2 [g E3]]].
  destruct Hr as [H1 [H2 H3]]. destruct (run_dir fuel draw thr h dir H2 Hd s H1) as [_ K]. specialize (K _ _ Ec).
  exists g. rewrite HK, <- E3. f_equal. destruct (cPath c) as [x y]. cbn in *. subst. reflexivity.
Qed.
(* no point is ever lost from a file *)
Theorem C85_points_kept : forall fuel draw thr h1 h2 s1 s2, reached fuel draw thr h1 s1 -> run fuel draw h2 s1 = Some s2 ->
  thresholds thr (h1 ++ h2) -> stableNames (h1 ++ h2) ->
  forall p t g, sDisk s1 p = Some (Good t g) -> exists t' g', sDisk s2 p = Some (Good t' g') /\ (forall q, In q t -> In q t').
Proof.
  intros fuel draw thr h1 h2. induction h2 as [|o h2 IH] using rev_ind; intros s1 s2 Hr H Ht Hw p t g Hp.
  - injection H as <-. exists t, g. split; [exact Hp|tauto].
  - rewrite run_app in H. destruct (run fuel draw h2 s1) as [s3|] eqn:E; [|discriminate].
    rewrite app_assoc in Ht, Hw.
    assert (Ht1 : thresholds thr (h1 ++ h2)) by (intros v Hv; apply Ht; apply in_or_app; left; exact Hv).
    pose proof (stable_prefix _ _ Hw) as Hw1.
    destruct (IH s1 s3 Hr E Ht1 Hw1 p t g Hp) as [t3 [g3 [E3 Hsub]]].
    assert (Hr3 : reached fuel draw thr (h1 ++ h2) s3) by (split; [rewrite run_app; destruct Hr as [R _]; rewrite R; exact E|split; assumption]).
    destruct (reached_inv _ _ _ _ _ Hr3) as [Hi [Hm Hn]].
    cbn [run] in H. destruct (step fuel draw o s3) as [s4|] eqn:E2; [|discriminate]. injection H as <-.
    destruct o as [v|b|d|u|pos]; cbn [step] in E2.
    2-5: injection E2 as <-; exists t3, g3; split; assumption.
    destruct (call fuel draw v s3) as [[bw s5]|] eqn:Ec; [|discriminate]. injection E2 as <-.
    assert (Htv : vThr v = thr (vName v)) by (apply Ht; apply in_or_app; right; left; reflexivity).
    destruct (call_ok _ _ _ _ _ _ _ Hi Htv Ec) as [n [t0 [c [E1 [_ [_ [_ [_ [_ [HT [_ [_ [_ [_ [_ [_ [Hcase [Hd [_ [_ Hin]]]]]]]]]]]]]]]]]]]].
    destruct (path_eqb p (cPath c)) eqn:Ep.
    + apply path_eqb_eq in Ep. subst p.
      assert (Hnew : sDisk s5 = sDisk s3 \/ exists g', sDisk s5 (cPath c) = Some (Good (cTab c) g')).
      { destruct Hd as [Hd|[[Hd _]|[Hd _]]]; [left; exact Hd|right; rewrite Hd; unfold fileOf; eexists; reflexivity|right; exact Hd]. }
      destruct Hnew as [Hnew|[g' Hnew]]; [rewrite Hnew; exists t3, g3; split; assumption|].
      exists (cTab c), g'. split; [exact Hnew|]. intros q Hq. apply Hin.
      assert (Et : t3 = t0); [|rewrite <- Et; apply Hsub; exact Hq].
      destruct Hcase as [[c0 [F1 [F5 [_ [F3 _]]]]]|[F1 [_ [F2 _]]]].
      * destruct (Hm _ _ F1) as [_ [gg Hg]]. rewrite F3, Hg in E3. injection E3 as <- _. congruence.
      * unfold tableFor in HT. rewrite F1 in HT. rewrite F2 in E3. rewrite E3 in HT. destruct HT as [gg HT]. congruence.
    + assert (Hne : p <> cPath c) by (intros Q; subst; rewrite path_eqb_refl in Ep; discriminate).
      exists t3, g3. split; [|exact Hsub]. destruct Hd as [Hd|[[_ Hd]|[_ Hd]]]; [rewrite Hd; exact E3|rewrite (Hd _ Hne); exact E3|rewrite (Hd _ Hne); exact E3].
Qed.
(* the graphs in the file: for each peak mass the relative width at the masses of the table; no values if the peak is not in
   the table *)
Theorem C85_graphs : forall c t graphs, fileOf c = Good t graphs ->
  t = cTab c /\ map fst graphs = cM0s c /\
  forall M0 gr, In (M0, gr) graphs -> map fst gr = map pM t /\
    (forall p, In p t -> Rabs (M0 - pM p) < / 10000000000 -> (forall q, In q t -> Rabs (M0 - pM q) < / 10000000000 -> q = p) -> pInt p <> 0 ->
       gr = map (fun q => (pM q, Some (pInt q / pInt p))) t) /\
    ((forall q, In q t -> / 10000000000 <= Rabs (M0 - pM q)) -> forall x, In x gr -> snd x = None).
Proof.
  intros c t graphs H. unfold fileOf in H. injection H as <- <-. split; [reflexivity|].
  split; [rewrite map_map; cbn [fst]; apply map_id|]. intros M0 gr Hin. apply in_map_iff in Hin. destruct Hin as [m [E _]]. injection E as -> <-.
  split; [rewrite map_map; reflexivity|].
  assert (G : forall p t q0, (forall q, In q t -> Rabs (M0 - pM q) < / 10000000000 -> q = p) -> (q0 = p \/ In p t) -> Rabs (M0 - pM p) < / 10000000000 ->
     fold_left (fun q p => if closeTo M0 (pM p) then p else q) t q0 = p).
  { intros p. induction t as [|x t IH]; intros q0 Hu Hq Hc; [destruct Hq as [Hq|[]]; exact Hq|]. cbn [fold_left]. apply IH; [intros q K; apply Hu; right; exact K| |exact Hc].
    destruct (closeTo M0 (pM x)) eqn:Ex.
    - apply closeTo_true in Ex. left. apply (Hu x (or_introl eq_refl) Ex).
    - destruct Hq as [Hq|[Hq|Hq]]; [left; exact Hq| |right; exact Hq]. subst x. apply closeTo_true in Hc. congruence. }
  assert (G0 : forall t q0, (forall q, In q t -> / 10000000000 <= Rabs (M0 - pM q)) -> fold_left (fun q p => if closeTo M0 (pM p) then p else q) t q0 = q0).
  { induction t as [|x t IH]; intros q0 Hu; [reflexivity|]. cbn [fold_left]. destruct (closeTo M0 (pM x)) eqn:Ex; [apply closeTo_true in Ex; pose proof (Hu x (or_introl eq_refl)); lra|].
    apply IH. intros q Hq. apply Hu. right. exact Hq. }
  split.
  - intros p Hp Hc Hu Hz. unfold pointFor. rewrite (G p (cTab c) _ Hu (or_intror Hp) Hc). apply map_ext. intros q. rewrite rdiv_ok by exact Hz. reflexivity.
  - intros Hu x Hx. apply in_map_iff in Hx. destruct Hx as [q [<- _]]. cbn [snd]. unfold pointFor. rewrite (G0 _ _ Hu). unfold rdiv. cbn [pInt]. destruct (Req_EM_T 0 0); [reflexivity|contradiction].
Qed.
(* whatever a call writes is such a file for the table in memory *)
Theorem C85_written : forall fuel draw thr h s v bw s', reached fuel draw thr h s -> thresholds thr (h ++ [OCall v]) -> stableNames (h ++ [OCall v]) ->
  call fuel draw v s = Some (bw, s') -> exists c, findCont (vName v) (sConts s') = Some c /\
    (forall k, k <> cPath c -> sDisk s' k = sDisk s k) /\
    (sDisk s' = sDisk s \/ exists g, sDisk s' (cPath c) = Some (Good (cTab c) g)) /\
    (forall t, tableKnown s v t -> ~ inTable t (vM0 v) -> findCont (vName v) (sConts s) <> None -> sDisk s' (cPath c) = Some (fileOf c)).
Proof.
  intros fuel draw thr h s v bw s' Hr Ht Hw E. destruct (reached_inv _ _ _ _ _ Hr) as [Hi [Hm Hn]].
  assert (Htv : vThr v = thr (vName v)) by (apply Ht; apply in_or_app; right; left; reflexivity).
  pose proof (nameFrom_call _ _ _ _ _ _ _ _ Hi Htv Hn Hw E) as Hname.
  destruct (call_ok _ _ _ _ _ _ _ Hi Htv E) as [n [t0 [c [E1 [_ [_ [E3 [_ [_ [HT [_ [_ [_ [_ [_ [_ [Hcase [Hd _]]]]]]]]]]]]]]]]]].
  rewrite Hname in E1. injection E1 as <-.
  exists c. split; [rewrite E3, findCont_set, String.eqb_refl; reflexivity|].
  split; [intros k Hk; destruct Hd as [Hd|[[_ Hd]|[_ Hd]]]; [rewrite Hd; reflexivity|apply Hd; exact Hk|apply Hd; exact Hk]|].
  split; [destruct Hd as [Hd|[[Hd _]|[Hd _]]]; [left; exact Hd|right; rewrite Hd; unfold fileOf; eexists; reflexivity|right; exact Hd]|].
  intros t HK Hni Hne. destruct Hcase as [[c0 [F1 [F2 [_ [_ [_ F5]]]]]]|[F1 _]]; [|contradiction].
  apply F5. unfold tableKnown in HK. rewrite F1 in HK. subst t0 t. exact Hni.
Qed.
