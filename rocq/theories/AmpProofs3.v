(* The recursion over the decay vertices is the coherent sum over all spin projections (C74). *)
From Coq Require Import List ZArith Reals Bool Lia Lra.
From Coquelicot Require Import Complex.
From Verif Require Import SpinSpec CGBoxModel AmpModel AmpSpec AmpProofs.
Import ListNotations.
Open Scope C_scope.

(* ---- sums ---- *)
Lemma csum_ext {A} (l : list A) f g : (forall x, In x l -> f x = g x) -> csum l f = csum l g.
Proof. intros H. induction l as [|x l IH]; [reflexivity|]. cbn. rewrite H by now left. f_equal. apply IH. intros y Hy. apply H. now right. Qed.
Lemma csum_app {A} (l l' : list A) f : csum (l ++ l') f = csum l f + csum l' f.
Proof. induction l as [|x l IH]; cbn; [symmetry; apply Cplus_0_l|]. change (fold_right (fun x c => f x + c) (RtoC 0) (l ++ l')) with (csum (l ++ l') f). rewrite IH. unfold csum. ring. Qed.
Lemma csum_flat_map {A B} (l : list A) (g : A -> list B) f : csum (flat_map g l) f = csum l (fun x => csum (g x) f).
Proof. induction l as [|x l IH]; [reflexivity|]. cbn [flat_map]. rewrite csum_app, IH. reflexivity. Qed.
Lemma csum_scal_l {A} (l : list A) c f : csum l (fun x => c * f x) = c * csum l f.
Proof. induction l as [|x l IH]; cbn; [ring|]. change (fold_right (fun x c0 => c * f x + c0) (RtoC 0) l) with (csum l (fun x => c * f x)). rewrite IH. unfold csum. ring. Qed.
Lemma csum_scal_r {A} (l : list A) c f : csum l (fun x => f x * c) = csum l f * c.
Proof. rewrite (csum_ext l _ (fun x => c * f x)) by (intros; ring). rewrite csum_scal_l. ring. Qed.
Lemma cprod_app {A} (l l' : list A) f : cprod (l ++ l') f = cprod l f * cprod l' f.
Proof. induction l as [|x l IH]; cbn; [symmetry; apply Cmult_1_l|]. change (fold_right (fun x c => f x * c) (RtoC 1) (l ++ l')) with (cprod (l ++ l') f). rewrite IH. unfold cprod. ring. Qed.
Lemma cprod_ext {A} (l : list A) f g : (forall x, In x l -> f x = g x) -> cprod l f = cprod l g.
Proof. intros H. induction l as [|x l IH]; [reflexivity|]. cbn. rewrite H by now left. f_equal. apply IH. intros y Hy. apply H. now right. Qed.
Lemma csum_map {A B} (l : list A) (h : A -> B) f : csum (map h l) f = csum l (fun x => f (h x)).
Proof. induction l as [|x l IH]; [reflexivity|]. cbn. f_equal. exact IH. Qed.

Lemma stepUp_projections j : (0 <= j)%Z -> stepUp (- j) j = projections j.
Proof.
  intros H. unfold stepUp, projections. replace (j - - j)%Z with (j * 2)%Z by lia. rewrite Z.div_mul by lia. apply map_ext. intros k. lia.
Qed.
Lemma projections_in j m : In m (projections j) -> isProjOf j m.
Proof.
  unfold projections. rewrite in_map_iff. intros (k & <- & Hk). apply in_seq in Hk. split; [lia|]. exists (Z.of_nat k). lia.
Qed.

Section Rec.
Variable ps : parts.
Variable g : bool -> nat -> vtx -> nat -> nat -> Z -> Z -> Z -> C.
Fixpoint pureAmp (top : bool) (t : topo) (l : Z) : C :=
  match t with
  | Fs _ => RtoC 1
  | Iso p v a b => csum (projections (pJ ps (root a))) (fun l1 => csum (projections (pJ ps (root b))) (fun l2 =>
      g top p v (root a) (root b) l l1 l2 * pureAmp false a l1 * pureAmp false b l2))
  end.

Lemma foldO_csum (P : (nat -> Z) -> Prop) (f : Z -> (nat -> Z) * C -> option ((nat -> Z) * C)) l F :
  (forall x, In x l -> forall h c, P h -> exists h', f x (h, c) = Some (h', c + F x) /\ P h') ->
  forall h c, P h -> exists h', foldO f l (h, c) = Some (h', c + csum l F) /\ P h'.
Proof.
  induction l as [|x l IH]; intros H h c Ph.
  - exists h. split; [cbn [foldO]; f_equal; f_equal; cbn; ring|exact Ph].
  - cbn [foldO]. destruct (H x (or_introl eq_refl) h c Ph) as (h1 & E1 & P1). rewrite E1. cbn [bnd].
    destruct (IH ltac:(intros y Hy; apply H; now right) h1 (c + F x) P1) as (h2 & E2 & P2). exists h2. split; [|exact P2].
    rewrite E2. f_equal. f_equal. cbn. fold (csum l F). ring.
Qed.

Variable tb : bool -> (nat -> Z) -> nat -> vtx -> nat -> nat -> option C.
Definition tbOk (top : bool) (l0 : Z) (t : topo) : Prop := forall p v a b, In (Iso p v a b) (vertices t) -> forall h,
  isProjOf (pJ ps p) (h p) -> isProjOf (pJ ps (root a)) (h (root a)) -> isProjOf (pJ ps (root b)) (h (root b)) ->
  (p <> root t -> tb false h p v (root a) (root b) = Some (g false p v (root a) (root b) (h p) (h (root a)) (h (root b))))
  /\ (p = root t -> h p = l0 -> tb top h p v (root a) (root b) = Some (g top p v (root a) (root b) (h p) (h (root a)) (h (root b)))).
Lemma ampSum_pure t : distinct t -> (forall p, In p (allp t) -> (0 <= pJ ps p)%Z) -> forall top h, tbOk top (h (root t)) t -> isProjOf (pJ ps (root t)) (h (root t)) ->
  exists h', ampSum ps tb top t h = Some (h', pureAmp top t (h (root t))) /\ (forall q, ~ In q (below t) -> h' q = h q).
Proof.
  induction t as [p|p v a IHa b IHb]; intros D HJ top h HT Hh; [exists h; split; reflexivity|].
  apply distinct_iso in D as D'. destruct D' as (Na & Nb & Da & Db & Dab).
  assert (forall q, In q (allp a) -> In q (below (Iso p v a b))) as Ia by (intros q Hq; rewrite below_iso; apply in_app_iff; tauto).
  assert (forall q, In q (allp b) -> In q (below (Iso p v a b))) as Ib by (intros q Hq; rewrite below_iso; apply in_app_iff; tauto).
  assert (forall l0, tbOk false l0 a) as Ta.
  { intros l0 p' v' a' b' Hv h' h1 h2 h3. assert (p' <> p) as Np by (intros ->; apply Na; change p with (root (Iso p v' a' b')); now apply vertices_root).
    destruct (HT p' v' a' b' ltac:(cbn [vertices]; right; apply in_app_iff; now left) h' h1 h2 h3) as [K _]. split; intros; now apply K. }
  assert (forall l0, tbOk false l0 b) as Tb.
  { intros l0 p' v' a' b' Hv h' h1 h2 h3. assert (p' <> p) as Np by (intros ->; apply Nb; change p with (root (Iso p v' a' b')); now apply vertices_root).
    destruct (HT p' v' a' b' ltac:(cbn [vertices]; right; apply in_app_iff; now right) h' h1 h2 h3) as [K _]. split; intros; now apply K. }
  cbn [ampSum]. rewrite !stepUp_projections by (apply HJ; right; first [apply Ia, root_parts | apply Ib, root_parts]).
  set (P := fun h' : nat -> Z => forall q, ~ In q (below (Iso p v a b)) -> h' q = h q).
  assert (~ In p (below (Iso p v a b))) as Np by (rewrite below_iso, in_app_iff; tauto).
  assert (forall q, In q (allp a) -> In q (allp b) -> False) as Dab' by (intros q X Y; now apply (Dab q)).
  assert (root a <> root b) as Nab by (intros E; apply (Dab' (root a)); [apply root_parts|rewrite E; apply root_parts]).
  destruct (foldO_csum P (fun lambda1 (st : (nat -> Z) * C) =>
      do (da : (nat -> Z) * C) <- ampSum ps tb false a (upd (fst st) (root a) lambda1);
      foldO (fun lambda2 (st : (nat -> Z) * C) =>
        do (db : (nat -> Z) * C) <- ampSum ps tb false b (upd (fst st) (root b) lambda2);
        do parentAmp <- tb top (fst db) p v (root a) (root b);
        Some (fst db, (snd st + parentAmp * snd da * snd db)%C))
        (projections (pJ ps (root b))) (fst da, snd st))
      (projections (pJ ps (root a)))
      (fun l1 => csum (projections (pJ ps (root b))) (fun l2 => g top p v (root a) (root b) (h p) l1 l2 * pureAmp false a l1 * pureAmp false b l2)))
    with (h := h) (c := RtoC 0) as (h' & E' & P').
  - intros l1 Hl1 h1 c P1. cbn [fst snd].
    destruct (IHa Da ltac:(intros q Hq; apply HJ; right; now apply Ia) false (upd h1 (root a) l1) (Ta _)) as (h2 & E2 & O2).
    { rewrite upd_same. now apply projections_in. }
    rewrite upd_same in E2. rewrite E2. cbn [bnd fst snd].
    set (P2 := fun h' : nat -> Z => P h' /\ h' (root a) = l1).
    destruct (foldO_csum P2 (fun lambda2 (st : (nat -> Z) * C) =>
        do (db : (nat -> Z) * C) <- ampSum ps tb false b (upd (fst st) (root b) lambda2);
        do parentAmp <- tb top (fst db) p v (root a) (root b);
        Some (fst db, (snd st + parentAmp * pureAmp false a l1 * snd db)%C))
        (projections (pJ ps (root b)))
        (fun l2 => g top p v (root a) (root b) (h p) l1 l2 * pureAmp false a l1 * pureAmp false b l2)) with (h := h2) (c := c) as (h3 & E3 & P3).
    + intros l2 Hl2 h3 c3 [P31 P32]. cbn [fst snd].
      destruct (IHb Db ltac:(intros q Hq; apply HJ; right; now apply Ib) false (upd h3 (root b) l2) (Tb _)) as (h4 & E4 & O4).
      { rewrite upd_same. now apply projections_in. }
      rewrite upd_same in E4. rewrite E4. cbn [bnd fst snd].
      assert (h4 p = h p) as Ep.
      { rewrite O4 by (intros K; apply Nb; now right). rewrite upd_other by (intros ->; apply Nb; apply root_parts). now apply P31. }
      assert (h4 (root a) = l1) as Ea.
      { rewrite O4 by (intros K; apply (Dab' (root a)); [apply root_parts|now right]). now rewrite upd_other. }
      assert (h4 (root b) = l2) as Eb.
      { rewrite O4; [apply upd_same|]. unfold distinct in Db. apply NoDup_cons_iff in Db. apply Db. }
      destruct (HT p v a b ltac:(now left) h4) as [_ K].
      { rewrite Ep. exact Hh. } { rewrite Ea. now apply projections_in. } { rewrite Eb. now apply projections_in. }
      rewrite (K eq_refl Ep). cbn [bnd]. rewrite Ep, Ea, Eb. exists h4. split; [f_equal; f_equal; ring|]. split; [|exact Ea].
      intros q Hq. rewrite O4 by (intros K'; apply Hq, Ib; now right). rewrite upd_other by (intros ->; apply Hq, Ib, root_parts). now apply P31.
    + split.
      * intros q Hq. rewrite O2 by (intros K; apply Hq, Ia; now right). rewrite upd_other by (intros ->; apply Hq, Ia, root_parts). now apply P1.
      * rewrite O2; [apply upd_same|]. unfold distinct in Da. apply NoDup_cons_iff in Da. apply Da.
    + exists h3. split; [exact E3|apply P3].
  - intros q _. reflexivity.
  - exists h'. split; [|exact P']. etransitivity; [exact E'|]. f_equal. f_equal. apply Cplus_0_l.
Qed.

Definition VA (top : bool) (h : nat -> Z) (t : topo) : C :=
  match t with Fs _ => RtoC 1 | Iso p v a b => g top p v (root a) (root b) (h p) (h (root a)) (h (root b)) end.
Lemma assignments_out l : forall h h', In h' (assignments ps l h) -> forall q, ~ In q l -> h' q = h q.
Proof.
  induction l as [|p l IH]; intros h h' H q Hq; [destruct H as [->|[]]; reflexivity|]. cbn [assignments] in H. apply in_flat_map in H. destruct H as (m & _ & H).
  rewrite (IH _ _ H) by (intros K; apply Hq; now right). destruct (Nat.eqb q p) eqn:E; [|reflexivity]. apply Nat.eqb_eq in E. subst. exfalso. apply Hq. now left.
Qed.
Lemma assignments_app l l' h : assignments ps (l ++ l') h = flat_map (assignments ps l') (assignments ps l h).
Proof.
  revert h. induction l as [|p l IH]; intros h; [cbn; now rewrite app_nil_r|]. cbn [app assignments].
  induction (projections (pJ ps p)) as [|m ms IHm]; [reflexivity|]. cbn [flat_map]. now rewrite IH, IHm, flat_map_app.
Qed.
Lemma assignments_cons p l h f : csum (assignments ps (p :: l) h) f = csum (projections (pJ ps p)) (fun m => csum (assignments ps l (upd h p m)) f).
Proof. cbn [assignments]. apply csum_flat_map. Qed.
Lemma VA_ext h h' t : (forall q, In q (allp t) -> h q = h' q) -> cprod (vertices t) (VA false h) = cprod (vertices t) (VA false h').
Proof.
  induction t as [p|p v a IHa b IHb]; intros E; [reflexivity|]. cbn [vertices].
  change (VA false h (Iso p v a b) * cprod (vertices a ++ vertices b) (VA false h) = VA false h' (Iso p v a b) * cprod (vertices a ++ vertices b) (VA false h')).
  rewrite !cprod_app, IHa, IHb by (intros q Hq; apply E; right; rewrite below_iso; apply in_app_iff; tauto). f_equal.
  cbn [VA]. rewrite (E p), (E (root a)), (E (root b)); [reflexivity| | |].
  - right. rewrite below_iso. apply in_app_iff. right. apply root_parts.
  - right. rewrite below_iso. apply in_app_iff. left. apply root_parts.
  - now left.
Qed.
Lemma sum_split a b p (W : Z -> Z -> Z -> C) h :
  distinct a -> distinct b -> ~ In p (allp a) -> ~ In p (allp b) -> (forall q, In q (allp a) -> ~ In q (allp b)) ->
  (forall Phi h, (forall h', (forall q, ~ In q (below a) -> h' q = h q) -> Phi h' = Phi h) ->
    csum (assignments ps (below a) h) (fun h' => Phi h' * cprod (vertices a) (VA false h')) = Phi h * pureAmp false a (h (root a))) ->
  (forall Phi h, (forall h', (forall q, ~ In q (below b) -> h' q = h q) -> Phi h' = Phi h) ->
    csum (assignments ps (below b) h) (fun h' => Phi h' * cprod (vertices b) (VA false h')) = Phi h * pureAmp false b (h (root b))) ->
  csum (assignments ps (allp a ++ allp b) h) (fun h' => W (h' p) (h' (root a)) (h' (root b)) * (cprod (vertices a) (VA false h') * cprod (vertices b) (VA false h')))
  = csum (projections (pJ ps (root a))) (fun l1 => csum (projections (pJ ps (root b))) (fun l2 => W (h p) l1 l2 * pureAmp false a l1 * pureAmp false b l2)).
Proof.
  intros Da Db Na Nb Dab IHa IHb. rewrite assignments_app, csum_flat_map. unfold allp at 1. rewrite assignments_cons. apply csum_ext. intros l1 _.
  assert (root a <> root b) as Nab by (intros E; apply (Dab (root a)); [apply root_parts|rewrite E; apply root_parts]).
  assert (~ In (root a) (below a)) as Ra by (unfold distinct in Da; apply NoDup_cons_iff in Da; tauto).
  assert (~ In (root b) (below b)) as Rb by (unfold distinct in Db; apply NoDup_cons_iff in Db; tauto).
  set (Phi := fun h' : nat -> Z => csum (projections (pJ ps (root b))) (fun l2 => W (h' p) (h' (root a)) l2 * pureAmp false b l2)).
  rewrite (csum_ext _ _ (fun h' => Phi h' * cprod (vertices a) (VA false h'))).
  - rewrite IHa.
    + unfold Phi. rewrite upd_same, upd_other by (intros ->; apply Na, root_parts). rewrite <- csum_scal_r. apply csum_ext. intros l2 _. ring.
    + intros h' E. unfold Phi. now rewrite !E by (try exact Ra; intros K; apply Na; now right).
  - intros ha Hha. unfold allp. rewrite assignments_cons. unfold Phi. rewrite <- csum_scal_r. apply csum_ext. intros l2 _.
    set (PhiB := fun h' : nat -> Z => W (h' p) (h' (root a)) (h' (root b)) * cprod (vertices a) (VA false h')).
    rewrite (csum_ext _ _ (fun h' => PhiB h' * cprod (vertices b) (VA false h'))) by (intros h' _; unfold PhiB; ring).
    rewrite IHb.
    + unfold PhiB. rewrite upd_same, !upd_other by (try exact Nab; intros ->; apply Nb, root_parts).
      rewrite (VA_ext (upd ha (root b) l2) ha); [ring|]. intros q Hq. apply upd_other. intros ->. apply (Dab _ Hq), root_parts.
    + intros h' E. unfold PhiB. rewrite !E; try exact Rb; try (intros K; apply Nb; now right); [|intros K; apply (Dab (root a)); [apply root_parts|now right]].
      f_equal. apply VA_ext. intros q Hq. apply E. intros K. apply (Dab q Hq). now right.
Qed.
Lemma sum_pure t : distinct t -> forall Phi h, (forall h', (forall q, ~ In q (below t) -> h' q = h q) -> Phi h' = Phi h) ->
  csum (assignments ps (below t) h) (fun h' => Phi h' * cprod (vertices t) (VA false h')) = Phi h * pureAmp false t (h (root t)).
Proof.
  induction t as [p|p v a IHa b IHb]; intros D Phi h HP; [cbn; ring|].
  apply distinct_iso in D as D'. destruct D' as (Na & Nb & Da & Db & Dab).
  rewrite (csum_ext _ _ (fun h' => Phi h * (g false p v (root a) (root b) (h' p) (h' (root a)) (h' (root b)) * (cprod (vertices a) (VA false h') * cprod (vertices b) (VA false h'))))).
  - rewrite csum_scal_l. f_equal. rewrite below_iso. cbn [pureAmp root].
    apply (sum_split a b p (g false p v (root a) (root b))); try assumption; intros; [apply IHa|apply IHb]; assumption.
  - intros h' Hh'. rewrite (HP h') by (apply assignments_out; exact Hh'). f_equal. cbn [vertices].
    change (VA false h' (Iso p v a b) * cprod (vertices a ++ vertices b) (VA false h') = g false p v (root a) (root b) (h' p) (h' (root a)) (h' (root b)) * (cprod (vertices a) (VA false h') * cprod (vertices b) (VA false h'))).
    now rewrite cprod_app.
Qed.
Lemma sum_top p v a b top h : distinct (Iso p v a b) ->
  csum (assignments ps (below (Iso p v a b)) h) (fun h' => VA top h' (Iso p v a b) * cprod (vertices a ++ vertices b) (VA false h')) = pureAmp top (Iso p v a b) (h p).
Proof.
  intros D. apply distinct_iso in D as D'. destruct D' as (Na & Nb & Da & Db & Dab).
  rewrite (csum_ext _ _ (fun h' => g top p v (root a) (root b) (h' p) (h' (root a)) (h' (root b)) * (cprod (vertices a) (VA false h') * cprod (vertices b) (VA false h')))) by (intros h' _; now rewrite cprod_app).
  rewrite below_iso. cbn [pureAmp]. apply (sum_split a b p (g top p v (root a) (root b))); try assumption; intros; now apply sum_pure.
Qed.
End Rec.
