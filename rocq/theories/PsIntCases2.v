(* C85: two processes, changed vertices, limits of the table, damaged files. *)
From Coq Require Import String List Reals Sorted Lra Lia Bool Arith.
From Coquelicot Require Import Complex.
From Verif Require Import PhysModel PhaseProofs PhaseProofs3 MassDepModel PsIntModel PsIntSpec PsIntProofs PsIntProofs2 PsIntProofs3 PsIntProofs4 PsIntProps PsIntProps2 PsIntCases.
Import ListNotations.
Open Scope R_scope.

(* the memory of one process with the files as another one has left them *)
Definition withDisk (d : disk) (s : state) : state := State (sNames s) (sConts s) (sDir s) (sUpper s) d (sPos s).
(* two processes with the same table in memory: the first adds a point, the second writes its own table, and the point of
   the first is lost from the file *)
Theorem C85_two_processes_refuted : exists h s b2 s2 b3 s3 t2 g2 t3 g3 p, reached 50 demoDraw thr0 h s /\
  call 50 demoDraw v2 s = Some (b2, s2) /\ sDisk s2 ("d", "a")%string = Some (Good t2 g2) /\
  call 50 demoDraw v3 (withDisk (sDisk s2) s) = Some (b3, s3) /\ sDisk s3 ("d", "a")%string = Some (Good t3 g3) /\
  In p t2 /\ pM p = 5 / 2 /\ (forall q, In q t3 -> pM q <> 5 / 2).
Proof.
  destruct demo1_state as [b1 [s1 [t [c [E1 [R1 [Hc [Ec [En [Ep [Enm [Hg [Hmap [Ha1 [Hi [_ [_ _]]]]]]]]]]]]]]]]].
  assert (D1 : forall w, In w [v1] -> demoV w) by (intros w [<-|[]]; apply demoV1).
  destruct (demo2 v2 (5 / 2) s1 t demoV2 eq_refl eq_refl eq_refl ltac:(lra) ltac:(lra) (not_in_grid t _ Hmap (or_introl eq_refl)) Hi) as [b2 [s2 [t2 [c2 [F1 [F2 [F3 [F4 [F5 [F6 [[p [F7 F8]] [F9 Hsub]]]]]]]]]]]]; try assumption.
  { left. rewrite Enm. reflexivity. }
  { exists c. repeat split; assumption. }
  destruct (demo_next 50 [v1] s1 v2 D1 demoV2 R1 b2 s2 F1) as [R2 D2]. cbn [app] in R2, D2.
  pose proof (demo_reached 50 [v1; v2] s2 D2 R2) as RR2. destruct (reached_inv _ _ _ _ _ RR2) as [[Hi2 _] _].
  assert (Hi' : inv demoDraw thr0 (withDisk (sDisk s2) s1)) by (split; [exact Hi2|exact (proj2 Hi)]).
  destruct (demo2 v3 (7 / 2) (withDisk (sDisk s2) s1) t demoV3 eq_refl eq_refl eq_refl ltac:(lra) ltac:(lra) (not_in_grid t _ Hmap (or_intror eq_refl)) Hi') as [b3 [s3 [t3 [c3 [G1 [G2 [G3 [G4 [G5 [G6 [_ [G9 _]]]]]]]]]]]]; try assumption.
  { left. cbn [sNames withDisk]. rewrite Enm. reflexivity. }
  { exists c. repeat split; assumption. }
  unfold fileOf in F9, G9. rewrite F3 in F9. rewrite G3 in G9.
  eexists (calls [v1]), s1, b2, s2, b3, s3, t2, _, t3, _, p. split; [apply (demo_reached 50 [v1] s1 D1 R1)|]. split; [exact F1|]. split; [exact F9|]. split; [exact G1|]. split; [exact G9|].
  split; [exact F7|]. split; [exact F8|]. intros q Hq Eq. destruct G6 as [a [x [b [A1 [A2 [A3 _]]]]]]. rewrite A2 in Hq.
  apply (not_in_grid t (5 / 2) Hmap (or_introl eq_refl)). exists q. split; [|rewrite Eq, Rminus_diag_eq by reflexivity; rewrite Rabs_R0; lra].
  rewrite A1. apply in_or_app. apply in_app_or in Hq. destruct Hq as [Hq|[Hq|Hq]]; [left; exact Hq| |right; exact Hq]. subst x. lra.
Qed.

(* a vertex at the same address with another decay, not announced by removeVertex *)
Definition v1' : vertex := Vertex 1 "b" 0 (9 / 4) (1 / 2) 1.
(* it is answered from the table of the old decay; no table for its own decay exists *)
Theorem C85_changed_vertex_refuted : exists h s z s', run 50 demoDraw h start = Some s /\ thresholds thr0 h /\
  call 50 demoDraw v1' s = Some (Some z, s') /\ findCont "b" (sConts s') = None /\ sDisk s' ("d", "b")%string = None.
Proof.
  destruct demo1_state as [b1 [s1 [t [c [E1 [R1 [Hc [Ec [En [Ep [Enm [Hg [Hmap [Ha1 [Hi [Hd [Hu Hb]]]]]]]]]]]]]]]]].
  assert (D1 : forall w, In w [v1] -> demoV w) by (intros w [<-|[]]; apply demoV1).
  destruct (lastMass_new _ _ _ _ Hmap) as [Hfm Hlm].
  assert (Hnm : findName (vAddr v1') (sNames s1) = Some "a"%string) by (rewrite Enm; reflexivity).
  assert (Htot : call 50 demoDraw v1' s1 <> None).
  { apply (call_total 50 demoDraw thr0 s1 v1' "a"); [exact Hi|reflexivity|lia|left; exact Hnm|left; congruence|].
    intros t' HT. unfold tableFor in HT. rewrite Hc in HT. subst t'. rewrite Ec, Hfm, Hlm. cbn [vM0 v1']. lra. }
  destruct (call 50 demoDraw v1' s1) as [[b2 s2]|] eqn:E; [|congruence].
  destruct (call_ok _ _ _ _ _ _ _ Hi (eq_refl : vThr v1' = thr0 (vName v1')) E) as [n [t0 [c2 [A1 [A2 [_ [A4 [_ [_ [HT [Ha [_ [_ [_ [_ [Hcmp [Hcase _]]]]]]]]]]]]]]]]].
  assert (En' : n = "a"%string) by (destruct A2 as [K|[K _]]; congruence). subst n.
  unfold tableFor in HT. rewrite Hc in HT. subst t0. rewrite Ec in *. cbn [vM vM0 vGamma v1'] in *.
  destruct (demo_half t Hmap) as [ph [Ph1 Ph2]]. destruct (demo_23 t Hmap) as [x [y [Hcc [Ex Ey]]]]. destruct (cons_in _ _ _ Hcc) as [_ I2].
  assert (B5 : between t (1 / 2) ((1 / 2) ^ 2)) by (apply (demo_at t ph (1 / 2) Hg Ph1 Ph2 ltac:(lra)); exists y; split; assumption).
  assert (B1 : between t (9 / 4) (4 + (pM y + 2) / 4)) by (apply (demo_chord t x y Hg Hcc Ex); lra).
  assert (Hin : inTable t (1 / 2)) by (rewrite <- Ph2; apply inTable_self; exact Ph1).
  assert (Et : cTab c2 = t) by (destruct Hcmp as [K|[K _]]; [exact K|contradiction]). rewrite Et in Ha.
  destruct (answer_some _ _ _ _ _ _ _ _ Ha B1 B5 ltac:(lra) ltac:(lra)) as [z [Z _]].
  destruct Hcase as [[c0 [F1 [_ [_ [_ [F2 _]]]]]]|[F1 _]]; [|congruence]. destruct (F2 Hin) as [_ [F3 _]].
  exists (calls [v1]), s1, z, s2. split; [exact R1|]. split; [apply demo_thr; intros w Hw; apply (D1 w Hw)|]. split; [congruence|].
  split; [|rewrite F3; exact Hb]. rewrite A4, findCont_set. cbn [String.eqb Ascii.eqb].
  assert (Q : sConts s1 = setCont "a" c []).
  { destruct (reached_inv _ _ _ _ _ (demo_reached 50 [] s0 (fun w (H : In w []) => match H with end) (run_h0 50))) as [Hi0 _].
    destruct (call_ok _ _ _ _ _ _ _ Hi0 (eq_refl : vThr v1 = thr0 (vName v1)) E1) as [n [t0 [c3 [K1 [K2 [_ [K4 _]]]]]]].
    assert (n = "a"%string) by (destruct K2 as [K|[_ K]]; [discriminate|exact K]). subst n. rewrite K4 in Hc |- *. rewrite findCont_set in Hc. cbn in Hc. injection Hc as ->. reflexivity. }
  rewrite Q. reflexivity.
Qed.

(* the upper bound itself, a mass for which the table was made, has no answer *)
Definition vTop : vertex := Vertex 4 "a" 0 50 (1 / 2) 1.
Theorem C85_upper_bound_refuted : exists h s s', reached 50 demoDraw thr0 h s /\ sUpper s = vM vTop /\ call 50 demoDraw vTop s = Some (None, s').
Proof.
  assert (D0 : forall w, In w (@nil vertex) -> demoV w) by (intros w []). assert (D1 : demoV vTop) by (split; reflexivity).
  pose proof (demo_reached 50 [] s0 D0 (run_h0 50)) as R0. destruct (demo_snoc [] vTop D0 D1) as [T1 W1].
  destruct (C85_new_table 50 demoDraw thr0 (calls []) s0 vTop R0 T1 W1) as [bw [s' [t [g [E1 [E2 [E3 [E4 [E5 E6]]]]]]]]]; try reflexivity; try discriminate; try lia; cbn [vThr vM0 vTop sUpper s0 setUpperMassBound]; try lra.
  exists (calls []), s0, s'. split; [exact R0|]. split; [reflexivity|]. rewrite E1. f_equal. f_equal.
  destruct bw as [z|]; [|reflexivity]. exfalso. destruct (good_sorted _ _ _ _ E5) as [Hs Hne].
  destruct (proj1 (E6 z) eq_refl) as [y [y0 [B1 _]]]. cbn [vM vTop] in B1.
  assert (K : firstMass t <= 50 < lastMass t) by (apply (between_domain t 50 Hs Hne); exists y; exact B1).
  destruct (lastMass_new _ _ _ _ E3) as [_ Hl]. cbn [sUpper s0 setUpperMassBound] in Hl. lra.
Qed.
(* with an upper bound at or below the threshold of a decay the process ends (endless loop, or abort) at the first call for it *)
Theorem C85_low_bound_refuted : forall fuel draw v s, findCont (vName v) (sConts s) = None ->
  (findName (vAddr v) (sNames s) = None \/ findName (vAddr v) (sNames s) = Some (vName v)) ->
  sDisk s (sDir s, vName v) = None -> sUpper s <= vThr v -> vThr v + 1 / 1000 < vM0 v -> call fuel draw v s = None.
Proof.
  intros fuel draw v s Hc Hnm Hd Hu HM. unfold call.
  set (names := match findName (vAddr v) (sNames s) with Some _ => sNames s | None => (vAddr v, vName v) :: sNames s end).
  assert (En : findName (vAddr v) names = Some (vName v)).
  { unfold names. destruct Hnm as [E|E]; rewrite E; [unfold findName; cbn [find fst]; rewrite Nat.eqb_refl; reflexivity|exact E]. }
  rewrite En. cbn [bindM]. rewrite Hc.
  destruct (newContainer fuel draw (sDir s) (sUpper s) v (sDisk s) (sPos s)) as [[[c d] pos]|] eqn:E; [|reflexivity]. cbn [bindM].
  pose proof E as E0. unfold newContainer in E. destruct (String.eqb (sDir s) "" || negb (rltb 0 (sUpper s))) eqn:Eq; [discriminate|].
  unfold readFile in E. cbn [cPath] in E. rewrite Hd in E. unfold fillTable in E. cbn [cTab cPath fst] in E. rewrite Eq in E. cbn [cThr cName cM0 cM0s] in E.
  replace (INR N_POINTS) with 50 in E by (unfold N_POINTS; simpl; lra).
  destruct (Req_EM_T (sUpper s) (vThr v)) as [Q|Q].
  { rewrite <- Q in E. replace ((sUpper s - sUpper s) / 50) with 0 in E by field. replace (sUpper s + 0) with (sUpper s) in E by ring. rewrite fillLoop_endless in E. discriminate. }
  assert (K : rltb (sUpper s) (vThr v + (sUpper s - vThr v) / 50) = true) by (apply rltb_true; lra).
  assert (Et : cTab c = [Pt (vThr v) 0 0]).
  { destruct fuel; cbn [fillLoop] in E; rewrite K in E; cbn [bindM fst snd setTab setM0s writeTable cPath] in E; unfold writeTable in E; cbn [cPath] in E; rewrite Hd in E; cbn [bindM] in E;
      unfold readTree in E; cbn [cPath] in E; rewrite setFile_same in E; cbn [fileOf bindM setTab cTab] in E; injection E as <- _ _; reflexivity. }
  unfold amplitude. rewrite Et. cbn [interpolate interLoop]. cbn [bindM].
  destruct fuel as [|f]; [reflexivity|]. rewrite getInt0_S. destruct (c1of_tab (vM0 v) c) as [T1 _]. rewrite T1, Et. cbn [existsb pM orb].
  replace (closeTo (vThr v) (vM0 v)) with false.
  2:{ symmetry. unfold closeTo. apply rltb_false. unfold Rabs. destruct (Rcase_abs _); lra. }
  destruct (evalInt_ok draw (cName (c1of (vM0 v) c)) (vM0 v) N_MC_EVENTS_FOR_M0 pos (or_intror eq_refl)) as [p [Ee _]]. rewrite Ee. cbn [orb bindM fst snd]. reflexivity.
Qed.

(* ---- a process that ends while it writes ---- *)
Definition damaged (f : file) : Prop := f = NoTree \/ f = Broken.
Lemma getInt0_others fuel draw M0 : forall c d pos v c' d' pos', getInt0 fuel draw M0 c d pos = Some (v, c', d', pos') ->
  cPath c' = cPath c /\ (forall k, k <> cPath c -> d' k = d k).
Proof.
  induction fuel as [|f IH]; intros c d pos v c' d' pos' H; [discriminate|]. rewrite getInt0_S in H. destruct (c1of_tab M0 c) as [T1 [T2 [T3 _]]].
  destruct (existsb _ _).
  - destruct (interpolate _ _); [|discriminate]. cbn [bindM] in H. injection H as <- <- <- <-. split; [exact T3|reflexivity].
  - destruct (evalInt _ _ _ _ _) as [r|]; [|discriminate]. cbn [bindM] in H. destruct (addToTable _ _) as [t|]; [|discriminate]. cbn [bindM writeTable] in H.
    destruct (IH _ _ _ _ _ _ _ H) as [K1 K2]. change (cPath c' = cPath (c1of M0 c)) in K1. rewrite T3 in K1. split; [exact K1|]. intros k Hk. rewrite K2 by (change (k <> cPath (c1of M0 c)); rewrite T3; exact Hk). apply setFile_other. change (k <> cPath (c1of M0 c)). rewrite T3. exact Hk.
Qed.
Lemma newContainer_damaged fuel draw dir upper v d pos f : d (dir, vName v) = Some f -> damaged f -> newContainer fuel draw dir upper v d pos = None.
Proof.
  intros E Hf. destruct (newContainer fuel draw dir upper v d pos) as [[[c d'] pos']|] eqn:En; [|reflexivity]. exfalso.
  destruct (newContainer_some _ _ _ _ _ _ _ _ _ _ En) as [_ [_ [_ [_ [_ [[g [N _]]|[N _]]]]]]]; rewrite N in E; [|discriminate]. injection E as <-. destruct Hf; discriminate.
Qed.
Definition lockedOut (p : path) (f : file) (s : state) : Prop := sDisk s p = Some f /\ forall n c, findCont n (sConts s) = Some c -> cPath c <> p.
Lemma lockedOut_step fuel draw p f o s s' : damaged f -> lockedOut p f s -> step fuel draw o s = Some s' -> lockedOut p f s'.
Proof.
  intros Hf [Hd Hc] H. destruct o as [v|a|d|u|pos]; cbn [step] in H.
  2-4: injection H as <-; split; assumption.
  2: injection H as <-; split; [exact Hd|intros n c K; discriminate].
  destruct (call fuel draw v s) as [[bw s1]|] eqn:E; [|discriminate]. injection H as <-. unfold call in E.
  set (names := match findName (vAddr v) (sNames s) with Some _ => sNames s | None => (vAddr v, vName v) :: sNames s end) in *. clearbody names.
  destruct (findName (vAddr v) names) as [n|]; [|discriminate]. cbn [bindM] in E.
  set (P := match findCont n (sConts s) with Some c => Some (c, sDisk s, sPos s) | None => newContainer fuel draw (sDir s) (sUpper s) v (sDisk s) (sPos s) end) in *.
  destruct P as [[[c0 d0] pos0]|] eqn:EP; [|discriminate]. cbn [bindM] in E.
  assert (HP : cPath c0 <> p /\ d0 p = Some f).
  { unfold P in EP. destruct (findCont n (sConts s)) as [c1|] eqn:Ec.
    - injection EP as <- <- _. split; [apply (Hc n); exact Ec|exact Hd].
    - assert (Hp : (sDir s, vName v) <> p) by (intros K; rewrite <- K in Hd; rewrite (newContainer_damaged _ _ _ _ _ _ _ _ Hd Hf) in EP; discriminate).
      destruct (newContainer_some _ _ _ _ _ _ _ _ _ _ EP) as [_ [_ [N2 [_ [_ [[g [_ [N6 _]]]|[_ [_ [N7 _]]]]]]]]].
      + split; [rewrite N2; exact Hp|rewrite N6; exact Hd].
      + split; [rewrite N2; exact Hp|rewrite N7, setFile_other by (intros K; apply Hp; symmetry; exact K); exact Hd]. }
  destruct HP as [Hp0 Hd0]. unfold amplitude in E. destruct (interpolate _ _) as [y|]; [|discriminate]. cbn [bindM] in E.
  destruct (getInt0 fuel draw (vM0 v) c0 d0 pos0) as [[[[a c'] d'] pos']|] eqn:Eg; [|discriminate]. cbn [bindM] in E. injection E as _ <-.
  destruct (getInt0_others _ _ _ _ _ _ _ _ _ _ Eg) as [K1 K2]. split; cbn [sDisk sConts].
  - rewrite K2 by (intros K; apply Hp0; symmetry; exact K). exact Hd0.
  - intros m c1 Hm. rewrite findCont_set in Hm. destruct (String.eqb m n); [injection Hm as <-; rewrite K1; exact Hp0|apply (Hc m); exact Hm].
Qed.
Lemma lockedOut_run fuel draw p f h : forall s s', damaged f -> lockedOut p f s -> run fuel draw h s = Some s' -> lockedOut p f s'.
Proof.
  induction h as [|o h IH]; intros s s' Hf HL H; cbn [run] in H; [injection H as <-; exact HL|].
  destruct (step fuel draw o s) as [s1|] eqn:E; [|discriminate]. apply (IH s1); [exact Hf|apply (lockedOut_step fuel draw p f o s); assumption|exact H].
Qed.
(* if a process ends while it writes the file of a decay, then no later process, whatever it does, gets an answer for this decay *)
Theorem C85_crash_refuted :
  (* such a write happens in the case above *)
  (exists h s b s', reached 50 demoDraw thr0 h s /\ call 50 demoDraw v2 s = Some (b, s') /\ sDisk s' ("d", "a")%string <> sDisk s ("d", "a")%string) /\
  (* what is left of the file blocks the decay for good *)
  (forall fuel draw dir n f d pos h s' v, damaged f -> run fuel draw h (newProcess pos (withDisk (setFile d (dir, n) f) start)) = Some s' ->
     sDir s' = dir -> vName v = n -> (findName (vAddr v) (sNames s') = None \/ findName (vAddr v) (sNames s') = Some n) ->
     findCont n (sConts s') = None -> call fuel draw v s' = None).
Proof.
  split.
  - destruct demo1_state as [b1 [s1 [t [c [E1 [R1 [Hc [Ec [En [Ep [Enm [Hg [Hmap [Ha1 [Hi [_ [_ _]]]]]]]]]]]]]]]]].
    assert (D1 : forall w, In w [v1] -> demoV w) by (intros w [<-|[]]; apply demoV1).
    destruct (demo2 v2 (5 / 2) s1 t demoV2 eq_refl eq_refl eq_refl ltac:(lra) ltac:(lra) (not_in_grid t _ Hmap (or_introl eq_refl)) Hi) as [b2 [s2 [t2 [c2 [F1 [F2 [F3 [F4 [F5 [F6 [[p [F7 F8]] [F9 Hsub]]]]]]]]]]]]; try assumption.
    { left. rewrite Enm. reflexivity. }
    { exists c. repeat split; assumption. }
    pose proof (demo_reached 50 [v1] s1 D1 R1) as RR.
    exists (calls [v1]), s1, b2, s2. split; [exact RR|]. split; [exact F1|].
    destruct (C85_memory_is_file _ _ _ _ _ RR _ _ Hc) as [_ [_ [g Hm]]]. rewrite Ep, Ec in Hm. rewrite F9, Hm. unfold fileOf. intros K. injection K as K _.
    apply (not_in_grid t (5 / 2) Hmap (or_introl eq_refl)). rewrite <- K, F3, <- F8. apply inTable_self. exact F7.
  - intros fuel draw dir n f d pos h s' v Hf Hrun Hdir Hn Hnm Hc.
    assert (HL : lockedOut (dir, n) f s').
    { apply (lockedOut_run fuel draw (dir, n) f h (newProcess pos (withDisk (setFile d (dir, n) f) start))); [exact Hf| |exact Hrun].
      split; [cbn; apply setFile_same|intros m c K; discriminate]. }
    destruct HL as [HL _]. unfold call.
    set (names := match findName (vAddr v) (sNames s') with Some _ => sNames s' | None => (vAddr v, vName v) :: sNames s' end).
    assert (En : findName (vAddr v) names = Some n).
    { unfold names. destruct Hnm as [E|E]; rewrite E; [unfold findName; cbn [find fst]; rewrite Nat.eqb_refl; cbn; congruence|exact E]. }
    rewrite En. cbn [bindM]. rewrite Hc. rewrite (newContainer_damaged _ _ _ _ _ _ _ f); [reflexivity| |exact Hf]. rewrite Hdir, Hn. exact HL.
Qed.
(* a new process in which nothing has been asked for yet meets all conditions on names *)
Theorem C85_crash_first_call_refuted : forall fuel draw dir n f d pos u v, damaged f -> vName v = n ->
  call fuel draw v (setUpperMassBound u (setDirectory dir (newProcess pos (withDisk (setFile d (dir, n) f) start)))) = None.
Proof.
  intros fuel draw dir n f d pos u v Hf Hn. destruct C85_crash_refuted as [_ K].
  apply (K fuel draw dir n f d pos [ODir dir; OUpper u] _ v Hf eq_refl eq_refl Hn); [left; reflexivity|reflexivity].
Qed.
(* the conditions of the theorems about calls are met: the case with two resonances *)
Example C85_hypotheses : exists h s b s', reached 50 demoDraw thr0 h s /\ thresholds thr0 (h ++ [OCall v2]) /\ stableNames (h ++ [OCall v2]) /\
  call 50 demoDraw v2 s = Some (b, s') /\ (exists t, tableKnown s v2 t /\ ~ inTable t (vM0 v2)) /\ (exists t, tableKnown s' v2 t /\ inTable t (vM0 v2)).
Proof.
  destruct demo1_state as [b1 [s1 [t [c [E1 [R1 [Hc [Ec [En [Ep [Enm [Hg [Hmap [Ha1 [Hi [_ [_ _]]]]]]]]]]]]]]]]].
  assert (D1 : forall w, In w [v1] -> demoV w) by (intros w [<-|[]]; apply demoV1).
  destruct (demo2 v2 (5 / 2) s1 t demoV2 eq_refl eq_refl eq_refl ltac:(lra) ltac:(lra) (not_in_grid t _ Hmap (or_introl eq_refl)) Hi) as [b2 [s2 [t2 [c2 [F1 [F2 [F3 [F4 [F5 [F6 [[p [F7 F8]] [F9 Hsub]]]]]]]]]]]]; try assumption.
  { left. rewrite Enm. reflexivity. }
  { exists c. repeat split; assumption. }
  pose proof (demo_reached 50 [v1] s1 D1 R1) as RR. destruct (demo_snoc [v1] v2 D1 demoV2) as [T W].
  exists (calls [v1]), s1, b2, s2. split; [exact RR|]. split; [exact T|]. split; [exact W|]. split; [exact F1|]. split.
  - exists t. split; [unfold tableKnown; change (vName v2) with "a"%string; rewrite Hc; congruence|]. apply not_in_grid; [exact Hmap|left; reflexivity].
  - apply (C85_known_after_call 50 demoDraw thr0 _ _ _ _ _ RR T W F1).
Qed.
