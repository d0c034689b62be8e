(* Momenta of the particles of a decay after transformDaughters (C74). *)
From Coq Require Import List ZArith Reals Bool Lia Lra Psatz.
From Verif Require Import CGBoxModel PhysModel PhaseModel PhaseSpec PhaseProofs FrameModel FrameSpec FrameProofs FrameProofs2 FrameProofs3 FrameProofs4 FrameProps2 AmpModel AmpSpec.
Import ListNotations.
Open Scope R_scope.

Lemma upd_same {A} (s : nat -> A) p x : upd s p x p = x.
Proof. unfold upd. now rewrite Nat.eqb_refl. Qed.
Lemma upd_other {A} (s : nat -> A) p x q : q <> p -> upd s p x q = s q.
Proof. intros H. unfold upd. apply Nat.eqb_neq in H. now rewrite H. Qed.

Lemma mapParts_in f ps : forall s p, NoDup ps -> In p ps -> mapParts f ps s p = f (s p).
Proof.
  induction ps as [|a l IH]; intros s p N I; [destruct I|]. apply NoDup_cons_iff in N. destruct N as [N1 N2].
  change (mapParts f (a :: l) s) with (mapParts f l (upd s a (f (s a)))).
  assert (forall s q, ~ In q l -> mapParts f l s q = s q) as OUT.
  { clear. induction l as [|b l IH]; intros s q H; [reflexivity|].
    change (mapParts f (b :: l) s) with (mapParts f l (upd s b (f (s b)))).
    rewrite IH by (intros K; apply H; now right). apply upd_other. intros ->. apply H. now left. }
  destruct I as [->|I].
  - rewrite OUT by exact N1. apply upd_same.
  - rewrite IH by assumption. rewrite upd_other; [reflexivity|]. intros ->. contradiction.
Qed.
Lemma mapParts_out f ps : forall s p, ~ In p ps -> mapParts f ps s p = s p.
Proof.
  induction ps as [|b l IH]; intros s q H; [reflexivity|].
  change (mapParts f (b :: l) s) with (mapParts f l (upd s b (f (s b)))).
  rewrite IH by (intros K; apply H; now right). apply upd_other. intros ->. apply H. now left.
Qed.
Lemma mapPartsO_some (f : lv -> option lv) g ps : (forall q, f q = Some (g q)) -> forall s, mapPartsO f ps s = Some (mapParts g ps s).
Proof.
  intros E. induction ps as [|a l IH]; intros s; [reflexivity|].
  unfold mapPartsO. cbn [foldO]. rewrite E. cbn [bnd]. apply IH.
Qed.

Lemma root_parts t : In (root t) (root t :: below t). Proof. now left. Qed.
Definition allp (t : topo) : list nat := root t :: below t.
Lemma below_iso p v a b : below (Iso p v a b) = allp a ++ allp b.
Proof. reflexivity. Qed.
Lemma nodup_app {A} (l l' : list A) : NoDup (l ++ l') <-> NoDup l /\ NoDup l' /\ (forall q, In q l -> ~ In q l').
Proof.
  induction l as [|x l IH]; cbn [app].
  - split; [intros H; split; [constructor|split; [exact H|intros q []]]|tauto].
  - rewrite !NoDup_cons_iff, IH, in_app_iff. split.
    + intros (H1 & H2 & H3 & H4). split; [tauto|]. split; [exact H3|]. intros q [<-|Hq]; [tauto|now apply H4].
    + intros ((H1 & H2) & H3 & H4). split; [|split; [exact H2|split; [exact H3|intros q Hq; apply H4; now right]]].
      intros [K|K]; [contradiction|]. apply (H4 x); [now left|exact K].
Qed.
Lemma distinct_iso p v a b : distinct (Iso p v a b) <->
  ~ In p (allp a) /\ ~ In p (allp b) /\ distinct a /\ distinct b /\ (forall q, In q (allp a) -> ~ In q (allp b)).
Proof.
  unfold distinct. change (root (Iso p v a b) :: below (Iso p v a b)) with (p :: allp a ++ allp b). fold (allp a) (allp b).
  rewrite NoDup_cons_iff, in_app_iff. split.
  - intros [H1 H2]. apply nodup_app in H2. tauto.
  - intros (H1 & H2 & H3 & H4 & H5). split; [tauto|]. apply nodup_app. tauto.
Qed.
Lemma vertices_root t v : In v (vertices t) -> In (root v) (allp t).
Proof.
  revert v. induction t as [p|p w a IHa b IHb]; intros v H; [destruct H|]. cbn [vertices] in H. destruct H as [<-|H]; [now left|].
  right. rewrite below_iso. apply in_app_iff. apply in_app_iff in H. destruct H as [H|H]; [left; now apply IHa|right; now apply IHb].
Qed.
Lemma fs_parts t p : In p (fsParts t) -> In p (allp t).
Proof.
  induction t as [q|q w a IHa b IHb]; cbn [fsParts]; [intros [->|[]]; now left|].
  rewrite in_app_iff. intros H. right. rewrite below_iso. apply in_app_iff. tauto.
Qed.
Lemma fs_nodup t : distinct t -> NoDup (fsParts t).
Proof.
  induction t as [q|q w a IHa b IHb]; intros D; cbn [fsParts]; [repeat constructor; tauto|].
  apply distinct_iso in D. destruct D as (_ & _ & Da & Db & Dab). specialize (IHa Da). specialize (IHb Db).
  apply nodup_app. split; [exact IHa|]. split; [exact IHb|]. intros x Hx Hy. apply (Dab x); now apply fs_parts.
Qed.

(* ---- momenta of the isobars ---- *)
Lemma momentum_ext s s' t : (forall p, In p (fsParts t) -> s p = s' p) -> momentum s t = momentum s' t.
Proof.
  induction t as [p|p w a IHa b IHb]; intros H; cbn [momentum]; [apply H; now left|].
  rewrite IHa, IHb; [reflexivity| |]; intros q Hq; apply H; cbn [fsParts]; apply in_app_iff; tauto.
Qed.
Lemma momentum_lin L s s' t : (forall p, In p (fsParts t) -> s' p = lapply L (s p)) -> momentum s' t = lapply L (momentum s t).
Proof.
  induction t as [p|p w a IHa b IHb]; intros H; cbn [momentum]; [apply H; now left|].
  rewrite IHa, IHb by (intros q Hq; apply H; cbn [fsParts]; apply in_app_iff; tauto).
  unfold lvAdd, lapply, rowDot. cbn [lx ly lz lt]. apply lv_eq; ring.
Qed.
Definition calcs (vs : list topo) (s : lvs) : lvs := fold_left (fun s v => calcParentLzVec v s) (rev vs) s.
Lemma calcs_app l l' s : calcs (l ++ l') s = calcs l (calcs l' s).
Proof. unfold calcs. now rewrite rev_app_distr, fold_left_app. Qed.
Lemma calcs_spec t : distinct t -> forall s,
  (forall q, ~ In q (allp t) -> calcs (vertices t) s q = s q)
  /\ (forall v, In v (vertices t) -> calcs (vertices t) s (root v) = momentum s v)
  /\ (forall q, In q (fsParts t) -> calcs (vertices t) s q = s q)
  /\ calcs (vertices t) s (root t) = momentum s t.
Proof.
  induction t as [p|p w a IHa b IHb]; intros D s.
  - split; [reflexivity|]. split; [intros v []|]. split; reflexivity.
  - apply distinct_iso in D as D'. destruct D' as (Na & Nb & Da & Db & Dab).
    cbn [vertices]. change (Iso p w a b :: vertices a ++ vertices b) with ([Iso p w a b] ++ vertices a ++ vertices b).
    rewrite calcs_app, (calcs_app (vertices a)). set (sb := calcs (vertices b) s). set (sa := calcs (vertices a) sb).
    destruct (IHb Db s) as (B1 & B2 & B3 & B4). fold sb in B1, B2, B3, B4.
    destruct (IHa Da sb) as (A1 & A2 & A3 & A4). fold sa in A1, A2, A3, A4.
    assert (forall t', (forall q, In q (fsParts t') -> In q (fsParts a)) -> momentum sb t' = momentum s t') as MA.
    { intros t' H. apply momentum_ext. intros q Hq. apply B1. intros K. apply (Dab q); [apply fs_parts; now apply H|exact K]. }
    assert (forall v q, In v (vertices a) -> In q (fsParts v) -> In q (fsParts a)) as FV.
    { clear. induction a as [x|x w c IHc d IHd]; intros v q Hv Hq; [destruct Hv|]. cbn [vertices] in Hv. cbn [fsParts].
      destruct Hv as [<-|Hv]; [exact Hq|]. apply in_app_iff in Hv. apply in_app_iff. destruct Hv as [Hv|Hv]; [left; eapply IHc|right; eapply IHd]; eassumption. }
    assert (calcs [Iso p w a b] sa = upd sa p (lvAdd (momentum s a) (momentum s b))) as ->.
    { unfold calcs. cbn [rev app fold_left calcParentLzVec]. rewrite A4, (MA a ltac:(auto)). rewrite (A1 (root b)), B4; [reflexivity|].
      intros K. apply (Dab _ K). apply root_parts. }
    assert (forall q, In q (allp a) -> q <> p) as Pa by (intros q Hq ->; contradiction).
    assert (forall q, In q (allp b) -> q <> p) as Pb by (intros q Hq ->; contradiction).
    split; [|split; [|split]].
    + intros q Hq. rewrite upd_other by (intros ->; apply Hq; now left).
      assert (~ In q (allp a) /\ ~ In q (allp b)) as [H1 H2] by (split; intros K; apply Hq; right; rewrite below_iso; apply in_app_iff; tauto).
      now rewrite A1, B1.
    + intros v [<-|Hv]; [apply upd_same|]. change (In v (vertices a ++ vertices b)) in Hv. apply in_app_iff in Hv. destruct Hv as [Hv|Hv].
      * rewrite upd_other by (apply Pa; now apply vertices_root). rewrite (A2 v Hv). apply MA. intros q Hq. now apply (FV v).
      * rewrite upd_other by (apply Pb; now apply vertices_root). rewrite A1; [now apply B2|].
        intros K. apply (Dab _ K). now apply vertices_root.
    + intros q Hq. cbn [fsParts] in Hq. apply in_app_iff in Hq. destruct Hq as [Hq|Hq].
      * rewrite upd_other by (apply Pa; now apply fs_parts). rewrite A3 by exact Hq. apply B1. intros K. apply (Dab q); [now apply fs_parts|exact K].
      * rewrite upd_other by (apply Pb; now apply fs_parts). rewrite A1; [now apply B3|]. intros K. apply (Dab q K). now apply fs_parts.
    + apply upd_same.
Qed.
(* s' holds the momenta of all particles, seen from the frame F *)
Fixpoint holds (s s' : lvs) (F : lrot) (t : topo) : Prop :=
  s' (root t) = lapply F (momentum s t) /\ match t with Fs _ => True | Iso _ _ a b => holds s s' F a /\ holds s s' F b end.
Lemma holds_ext s s1 s2 F t : (forall q, In q (allp t) -> s1 q = s2 q) -> holds s s1 F t -> holds s s2 F t.
Proof.
  revert F. induction t as [p|p w a IHa b IHb]; intros F E [H1 H2]; split.
  - rewrite <- E by apply root_parts. exact H1.
  - exact I.
  - rewrite <- E by apply root_parts. exact H1.
  - destruct H2 as [Ha Hb]. split; [apply IHa|apply IHb]; try assumption; intros q Hq; apply E; right; rewrite below_iso; apply in_app_iff; tauto.
Qed.
Lemma calc_holds t : distinct t -> forall s, holds s (calcIsobarLzVec t s) lrotId t.
Proof.
  intros D s. unfold calcIsobarLzVec. fold (calcs (vertices t) s).
  destruct (calcs_spec t D s) as (_ & H2 & H3 & H4).
  assert (forall t', (forall v, In v (vertices t') -> In v (vertices t)) -> (forall p, In p (fsParts t') -> In p (fsParts t)) ->
    calcs (vertices t) s (root t') = momentum s t' -> holds s (calcs (vertices t) s) lrotId t') as K.
  { induction t' as [p|p w a IHa b IHb]; intros I1 I2 E; split; try exact I; try (rewrite lapply_id; exact E).
    assert (forall c, (forall v, In v (vertices c) -> In v (vertices t)) -> (forall p, In p (fsParts c) -> In p (fsParts t)) ->
      calcs (vertices t) s (root c) = momentum s c) as R.
    { intros [q|q w' c d] J1 J2; cbn [root momentum]; [apply H3, J2; now left|]. apply (H2 (Iso q w' c d)), J1. now left. }
    split; [apply IHa|apply IHb]; try (intros; apply I1; cbn [vertices]; right; apply in_app_iff; tauto); try (intros; apply I2; cbn [fsParts]; apply in_app_iff; tauto);
    apply R; try (intros; apply I1; cbn [vertices]; right; apply in_app_iff; tauto); (intros; apply I2; cbn [fsParts]; apply in_app_iff; tauto). }
  apply K; auto.
Qed.
Lemma holds_map s s' F G t s2 : (forall q, In q (allp t) -> s2 q = lapply G (s' q)) -> holds s s' F t -> holds s s2 (lmul G F) t.
Proof.
  revert F. induction t as [p|p w a IHa b IHb]; intros F E [H1 H2]; split; try exact I.
  - rewrite E by apply root_parts. rewrite H1, lapply_mul. reflexivity.
  - rewrite E by apply root_parts. rewrite H1, lapply_mul. reflexivity.
  - destruct H2 as [Ha Hb]. split; [apply IHa|apply IHb]; try assumption; intros q Hq; apply E; right; rewrite below_iso; apply in_app_iff; tauto.
Qed.

(* ---- transformation to the frames ---- *)
Definition isoStep (step : lv -> lv -> option lv) : Prop := forall M d, massive M d ->
  exists H, isLorentz H /\ lapply H d = Lv 0 0 0 M /\ forall q, step d q = Some (lapply H q).
Lemma hf_always M d : massive M d -> exists H, hfTransform d = Some H /\ good H /\ lapply H d = Lv 0 0 0 M.
Proof.
  intros Hd. unfold hfTransform. set (r1 := rotToY (cross (V3 0 0 1) (vect d))). set (r2 := rotToZ (rotVec r1 d)).
  pose proof (good_toY (cross (V3 0 0 1) (vect d))) as G1. fold r1 in G1.
  pose proof (good_toZ (rotVec r1 d)) as G2. fold r2 in G2.
  assert (massive M (rotVec r2 (rotVec r1 d))) as HM.
  { rewrite <- !ofRot_vec. apply massive_map; [apply G2|]. apply massive_map; [apply G1|exact Hd]. }
  destruct (toRest _ _ HM) as (b & B & E1 & E2 & GB & EX & _). rewrite E1. cbn [bnd]. unfold lboost in E2 |- *.
  destruct (boostMat (vneg b)) as [B'|] eqn:EB; [|discriminate E2]. cbn [bnd] in E2 |- *. injection E2 as E2.
  assert (B' = B) as -> by (rewrite <- E2; apply lapply_ext; intros q; unfold transform; rewrite lapply_mul, lapply_id; reflexivity).
  eexists. split; [reflexivity|]. unfold transform, rotTransform. rewrite ofRot_mul. split.
  - apply good_mul; [exact GB|]. now apply good_mul.
  - now rewrite !lapply_mul, !ofRot_vec.
Qed.
Lemma hel_isoStep : isoStep helStep.
Proof.
  intros M d Hd. destruct (hf_always M d Hd) as (H & E & G & R). exists H. split; [apply G|]. split; [exact R|].
  intros q. unfold helStep. now rewrite E.
Qed.
Lemma can_isoStep : isoStep canStep.
Proof.
  intros M d Hd. destruct (toRest _ _ Hd) as (b & B & E1 & E2 & GB & EX & B2 & _). exists B. split; [apply GB|]. split; [exact EX|].
  intros q. unfold canStep. rewrite E1. cbn [bnd]. rewrite boost_bst by exact B2. unfold lboost in E2.
  destruct (boostMat_spec _ B2) as (B' & EB & SB & _). rewrite EB in E2. cbn [bnd] in E2. injection E2 as E2.
  rewrite <- E2. unfold transform. now rewrite lapply_mul, lapply_id, SB.
Qed.

Definition phase2 (step : lv -> lv -> option lv) (vs : list topo) (s : lvs) : option lvs :=
  foldO (fun v s => mapPartsO (step (s (root v))) (below v) s) vs s.
Lemma phase2_app step l l' s : phase2 step (l ++ l') s = bnd (phase2 step l s) (phase2 step l').
Proof.
  revert s. unfold phase2. induction l as [|x l IH]; intros s; [reflexivity|]. cbn [app foldO].
  destruct (mapPartsO _ _ s) as [s1|]; cbn [bnd]; [apply IH|reflexivity].
Qed.
Lemma placed_ext step F s s1 s2 t : (forall q, In q (allp t) -> s1 q = s2 q) -> placed step F s s1 t -> placed step F s s2 t.
Proof.
  revert F. induction t as [p|p w a IHa b IHb]; intros F E [H1 H2]; split.
  - rewrite <- E by apply root_parts. exact H1.
  - exact I.
  - rewrite <- E by apply root_parts. exact H1.
  - destruct H2 as (H & L & St & Ha & Hb). exists H. split; [exact L|]. split.
    + rewrite <- E by apply root_parts. exact St.
    + split; [apply IHa|apply IHb]; try assumption; intros q Hq; apply E; right; rewrite below_iso; apply in_app_iff; tauto.
Qed.
Lemma phase2_placed step : isoStep step -> forall t, distinct t -> forall s F s1, isLorentz F -> physical s t -> holds s s1 F t ->
  exists s', phase2 step (vertices t) s1 = Some s' /\ placed step F s s' t /\ (forall q, ~ In q (below t) -> s' q = s1 q).
Proof.
  intros HS. induction t as [p|p w a IHa b IHb]; intros D s F s1 LF PH [H1 H2].
  - exists s1. split; [reflexivity|]. split; [now split|reflexivity].
  - destruct H2 as [Ha Hb]. apply distinct_iso in D as D'. destruct D' as (Na & Nb & Da & Db & Dab).
    destruct (PH (Iso p w a b)) as (M & HM); [now left|].
    assert (massive M (s1 p)) as HM1 by (cbn [root] in H1; rewrite H1; now apply massive_map).
    destruct (HS _ _ HM1) as (H & LH & _ & EH).
    cbn [vertices]. unfold phase2. cbn [foldO]. rewrite (mapPartsO_some _ (lapply H)) by exact EH. cbn [bnd].
    fold (phase2 step (vertices a ++ vertices b) (mapParts (lapply H) (below (Iso p w a b)) s1)).
    set (s2 := mapParts (lapply H) (below (Iso p w a b)) s1).
    assert (NoDup (below (Iso p w a b))) as ND by (unfold distinct in D; apply NoDup_cons_iff in D; apply D).
    assert (forall q, In q (allp a ++ allp b) -> s2 q = lapply H (s1 q)) as S2 by (intros q Hq; unfold s2; apply mapParts_in; [exact ND|rewrite below_iso; exact Hq]).
    assert (isLorentz (lmul H F)) as LHF by now apply isLorentz_mul.
    rewrite phase2_app.
    destruct (IHa Da s (lmul H F) s2 LHF) as (s3 & E3 & P3 & O3).
    { intros v Hv. apply PH. cbn [vertices]. right. apply in_app_iff. tauto. }
    { apply (holds_map s s1 F H a s2); [|exact Ha]. intros q Hq. apply S2, in_app_iff. tauto. }
    rewrite E3. cbn [bnd].
    destruct (IHb Db s (lmul H F) s3 LHF) as (s4 & E4 & P4 & O4).
    { intros v Hv. apply PH. cbn [vertices]. right. apply in_app_iff. tauto. }
    { apply (holds_ext s s2); [|apply (holds_map s s1 F H b s2); [intros q Hq; apply S2, in_app_iff; tauto|exact Hb]].
      intros q Hq. symmetry. apply O3. intros K. apply (Dab q); [now right|exact Hq]. }
    exists s4. split; [exact E4|].
    assert (s4 p = s1 p) as Ep.
    { rewrite O4 by (intros K; apply Nb; now right). rewrite O3 by (intros K; apply Na; now right). unfold s2. apply mapParts_out.
      rewrite below_iso, in_app_iff. tauto. }
    split; [split|].
    + cbn [root]. rewrite Ep. exact H1.
    + exists H. split; [exact LH|]. split; [rewrite Ep; exact EH|]. split; [|exact P4]. apply (placed_ext _ _ _ s3); [|exact P3].
      intros q Hq. symmetry. apply O4. intros K. apply (Dab q Hq). now right.
    + intros q Hq. rewrite below_iso, in_app_iff in Hq. rewrite O4 by (intros K; apply Hq; right; now right). rewrite O3 by (intros K; apply Hq; left; now right).
      unfold s2. apply mapParts_out. rewrite below_iso, in_app_iff. exact Hq.
Qed.
Definition phase1 (G : lrot) (vs : list topo) (s : lvs) : lvs :=
  fold_left (fun s v => match v with Fs _ => s | Iso _ _ a b => mapParts (lapply G) [root a; root b] s end) vs s.
Lemma phase1_spec G t : distinct t -> forall s,
  (forall q, In q (below t) -> phase1 G (vertices t) s q = lapply G (s q)) /\ (forall q, ~ In q (below t) -> phase1 G (vertices t) s q = s q).
Proof.
  induction t as [p|p w a IHa b IHb]; intros D s; [split; [intros q []|reflexivity]|].
  apply distinct_iso in D as D'. destruct D' as (Na & Nb & Da & Db & Dab).
  cbn [vertices]. unfold phase1. cbn [fold_left]. rewrite fold_left_app. fold (phase1 G (vertices a) (mapParts (lapply G) [root a; root b] s)).
  set (s1 := mapParts (lapply G) [root a; root b] s). set (s2 := phase1 G (vertices a) s1). fold (phase1 G (vertices b) s2).
  destruct (IHa Da s1) as [A1 A2]. fold s2 in A1, A2. destruct (IHb Db s2) as [B1 B2].
  assert (root a <> root b) as Nab by (intros E; apply (Dab (root a)); [apply root_parts|rewrite E; apply root_parts]).
  assert (NoDup [root a; root b]) as ND by (constructor; [intros [E|[]]; auto|constructor; [intros []|constructor]]).
  assert (~ In (root a) (below a)) as Ra by (unfold distinct in Da; apply NoDup_cons_iff in Da; tauto).
  assert (~ In (root b) (below b)) as Rb by (unfold distinct in Db; apply NoDup_cons_iff in Db; tauto).
  split; intros q Hq; rewrite below_iso, in_app_iff in Hq.
  - destruct Hq as [[<-|Hq]|[<-|Hq]].
    + rewrite B2 by (intros K; apply (Dab (root a)); [apply root_parts|now right]). rewrite A2 by exact Ra. apply mapParts_in; [exact ND|now left].
    + assert (~ In q (allp b)) as Nq by (apply Dab; now right). rewrite B2 by (intros K; apply Nq; now right). rewrite A1 by exact Hq.
      unfold s1. rewrite mapParts_out; [reflexivity|]. intros [<-|[<-|[]]]; [contradiction|]. apply Nq, root_parts.
    + rewrite B2 by exact Rb. rewrite A2 by (intros K; apply (Dab (root b)); [now right|apply root_parts]). apply mapParts_in; [exact ND|right; now left].
    + assert (~ In q (allp a)) as Nq by (intros K; apply (Dab q K); now right). rewrite B1 by exact Hq. rewrite A2 by (intros K; apply Nq; now right).
      unfold s1. rewrite mapParts_out; [reflexivity|]. intros [<-|[<-|[]]]; [|contradiction]. apply Nq, root_parts.
  - rewrite B2 by (intros K; apply Hq; right; now right). rewrite A2 by (intros K; apply Hq; left; now right).
    unfold s1. apply mapParts_out. intros [<-|[<-|[]]]; apply Hq; [left|right]; apply root_parts.
Qed.

Definition frames (step : lv -> lv -> option lv) (ref : lv) (t : topo) (s : lvs) : option lvs :=
  do G <- gjTransform ref (s (root t)); phase2 step (tl (vertices t)) (phase1 G (vertices t) s).
Lemma frames_ok step ref t s s0 : isoStep step -> distinct t -> physical s t -> (exists p v a b, t = Iso p v a b) -> holds s s0 lrotId t ->
  exists s', frames step ref t s0 = Some s' /\ framed step ref t s s'.
Proof.
  intros HS D PH (p & v & a & b & ->) HH.
  destruct (PH (Iso p v a b)) as (M & HM); [now left|].
  destruct (gj_always ref _ _ HM) as (G & EG & GG & RG).
  assert (s0 p = momentum s (Iso p v a b)) as E0 by (destruct HH as [E _]; cbn [root] in E; now rewrite lapply_id in E).
  unfold frames. cbn [root]. rewrite E0, EG. cbn [bnd tl].
  destruct (phase1_spec G _ D s0) as [P1 P2]. set (s1 := phase1 G (vertices (Iso p v a b)) s0) in *.
  apply distinct_iso in D as D'. destruct D' as (Na & Nb & Da & Db & Dab). destruct HH as (_ & Ha & Hb).
  assert (lmul G lrotId = G) as GI by (apply lapply_ext; intros q; now rewrite lapply_mul, lapply_id).
  change (tl (vertices (Iso p v a b))) with (vertices a ++ vertices b). rewrite phase2_app.
  destruct (phase2_placed step HS a Da s G s1) as (s3 & E3 & P3 & O3); [apply GG| | |].
  { intros x Hx. apply PH. cbn [vertices]. right. apply in_app_iff. tauto. }
  { rewrite <- GI. apply (holds_map s s0 lrotId G a); [|exact Ha]. intros q Hq. apply P1. rewrite below_iso. apply in_app_iff. tauto. }
  rewrite E3. cbn [bnd].
  destruct (phase2_placed step HS b Db s G s3) as (s4 & E4 & P4 & O4); [apply GG| | |].
  { intros x Hx. apply PH. cbn [vertices]. right. apply in_app_iff. tauto. }
  { apply (holds_ext s s1); [intros q Hq; symmetry; apply O3; intros K; apply (Dab q); [now right|exact Hq]|].
    rewrite <- GI. apply (holds_map s s0 lrotId G b); [|exact Hb]. intros q Hq. apply P1. rewrite below_iso. apply in_app_iff. tauto. }
  exists s4. split; [exact E4|]. exists G. split; [exact EG|]. split; [apply GG|]. split.
  - cbn [root]. rewrite O4 by (intros K; apply Nb; now right). rewrite O3 by (intros K; apply Na; now right). rewrite P2; [exact E0|].
    rewrite below_iso, in_app_iff. tauto.
  - split; [|exact P4]. apply (placed_ext _ _ _ s3); [|exact P3]. intros q Hq. symmetry. apply O4. intros K. apply (Dab q Hq). now right.
Qed.
