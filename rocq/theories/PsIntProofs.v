From Coq Require Import String List Reals Sorted Lra Lia Bool Arith.
From Coquelicot Require Import Complex.
From Verif Require Import PhysModel MassDepModel PhaseProofs PhaseProofs3 PsIntModel PsIntSpec.
Import ListNotations.
Open Scope R_scope.
Global Opaque N_MC_EVENTS N_MC_EVENTS_FOR_M0.

(* ---- sums ---- *)
Lemma foldl_total l : forall a, fold_left Rplus l a = a + total l.
Proof. induction l as [|x l IH]; intros a; cbn [fold_left total fold_right]; [lra|]. rewrite IH. unfold total. lra. Qed.
Lemma foldl_total_f (f : R -> R) l : forall a, fold_left (fun s x => s + f x) l a = a + total (map f l).
Proof. induction l as [|x l IH]; intros a; cbn [fold_left total fold_right map]; [lra|]. rewrite IH. unfold total. lra. Qed.
Lemma total_const (A : Type) (f : A -> R) c (l : list A) : (forall x, In x l -> f x = c) -> total (map f l) = INR (length l) * c.
Proof.
  induction l as [|x l IH]; intros H.
  - simpl. lra.
  - change (total (map f (x :: l))) with (f x + total (map f l)). rewrite IH by (intros y Hy; apply H; right; exact Hy).
    rewrite (H x (or_introl eq_refl)). change (length (x :: l)) with (S (length l)). rewrite S_INR. lra.
Qed.
Lemma nmc_val : N_MC_EVENTS = (1000 * 1000)%nat.
Proof. Transparent N_MC_EVENTS. reflexivity. Qed.
Lemma nmc0_val : N_MC_EVENTS_FOR_M0 = (10 * (1000 * 1000))%nat.
Proof. Transparent N_MC_EVENTS_FOR_M0 N_MC_EVENTS. reflexivity. Qed.
Global Opaque N_MC_EVENTS N_MC_EVENTS_FOR_M0.
Lemma nmc_two n : (n = N_MC_EVENTS \/ n = N_MC_EVENTS_FOR_M0) -> (2 <= n)%nat.
Proof. rewrite nmc_val, nmc0_val. intros [E|E]; rewrite E; lia. Qed.

(* ---- one evaluation ---- *)
Lemma sampleOf_ok (w : R) (a : C) : sampleOf (w, a) = w * (Cmod a) ^ 2.
Proof. unfold sampleOf, Cmod. cbn [fst snd]. rewrite pow2_sqrt by nra. ring. Qed.
Lemma evalInt_ok draw name M n pos : (n = N_MC_EVENTS \/ n = N_MC_EVENTS_FOR_M0) ->
  exists p, evalInt draw name M n pos = Some (p, (pos + n)%nat) /\ pM p = M /\ measured draw name p /\
    (forall c, (forall k, draw name M k = (1, c)) -> p = Pt M ((Cmod c) ^ 2) 0).
Proof.
  intros Hn. pose proof (nmc_two n Hn) as H2.
  unfold evalInt, meanOf. set (s := map (fun k => sampleOf (draw name M k)) (seq pos n)).
  assert (Es : s = samplesAt draw name M pos n).
  { unfold s, samplesAt. apply map_ext. intros k. destruct (draw name M k) as [w a]. apply sampleOf_ok. }
  assert (Ls : length s = n) by (unfold s; rewrite map_length, seq_length; reflexivity).
  assert (Pn : 2 <= INR n) by (apply le_INR in H2; simpl in H2; lra).
  rewrite Ls, foldl_total. rewrite (rdiv_ok _ (INR n)) by lra. cbn [bindM].
  set (m := (0 + total s) / INR n).
  unfold errorOf. rewrite Ls. rewrite (foldl_total_f (fun x => (x - m) * (x - m))).
  assert (P1 : INR (n - 1) = INR n - 1) by (rewrite minus_INR by lia; simpl; lra).
  rewrite P1. rewrite (rdiv_ok _ (INR n - 1)) by lra. cbn [bindM]. rewrite (rdiv_ok _ (INR n)) by lra. cbn [bindM].
  eexists. split; [reflexivity|]. split; [reflexivity|]. split.
  - exists pos, n. split.
    + destruct Hn as [E|E]; [left|right]; rewrite E; [apply nmc_val|apply nmc0_val].
    + unfold measuredFrom. cbn [pM pInt pErr]. rewrite <- Es. split.
      * unfold m. field. lra.
      * f_equal. replace (map (fun x => (x - m) ^ 2) s) with (map (fun x => (x - m) * (x - m)) s) by (apply map_ext; intros; ring).
        field. lra.
  - intros c Hc.
    assert (Hs : forall x, In x s -> x = (Cmod c) ^ 2).
    { intros x Hx. unfold s in Hx. apply in_map_iff in Hx. destruct Hx as [k [E _]]. rewrite Hc, sampleOf_ok in E. rewrite <- E. ring. }
    assert (Et : total s = INR n * Cmod c ^ 2).
    { rewrite <- (map_id s). rewrite (total_const R (fun x => x) (Cmod c ^ 2)) by (intros x Hx; apply Hs; exact Hx). rewrite Ls. reflexivity. }
    assert (Em : m = Cmod c ^ 2) by (unfold m; rewrite Et; field; lra).
    rewrite (total_const R (fun x => (x - m) * (x - m)) 0) by (intros x Hx; rewrite (Hs x Hx), Em; ring).
    rewrite Em. f_equal. replace ((0 + INR (length s) * 0) / (INR n - 1) / INR n) with 0 by (field; lra). apply sqrt_0.
Qed.

Lemma evalInt_from draw name M n pos : (2 <= n)%nat ->
  exists p, evalInt draw name M n pos = Some (p, (pos + n)%nat) /\ pM p = M /\ measuredFrom draw name pos n p.
Proof.
  intros H2. unfold evalInt, meanOf. set (s := map (fun k => sampleOf (draw name M k)) (seq pos n)).
  assert (Es : s = samplesAt draw name M pos n).
  { unfold s, samplesAt. apply map_ext. intros k. destruct (draw name M k) as [w a]. apply sampleOf_ok. }
  assert (Ls : length s = n) by (unfold s; rewrite map_length, seq_length; reflexivity).
  assert (Pn : 2 <= INR n) by (apply le_INR in H2; simpl in H2; lra).
  rewrite Ls, foldl_total. rewrite (rdiv_ok _ (INR n)) by lra. cbn [bindM].
  set (m := (0 + total s) / INR n).
  unfold errorOf. rewrite Ls. rewrite (foldl_total_f (fun x => (x - m) * (x - m))).
  assert (P1 : INR (n - 1) = INR n - 1) by (rewrite minus_INR by lia; simpl; lra).
  rewrite P1. rewrite (rdiv_ok _ (INR n - 1)) by lra. cbn [bindM]. rewrite (rdiv_ok _ (INR n)) by lra. cbn [bindM].
  eexists. split; [reflexivity|]. split; [reflexivity|].
  unfold measuredFrom. cbn [pM pInt pErr]. rewrite <- Es. split.
  - unfold m. field. lra.
  - f_equal. replace (map (fun x => (x - m) ^ 2) s) with (map (fun x => (x - m) * (x - m)) s) by (apply map_ext; intros; ring).
    field. lra.
Qed.

(* ---- sorted tables ---- *)
Lemma sorted_cons p t : sorted (p :: t) <-> sorted t /\ List.Forall (fun q => pM p < pM q) t.
Proof.
  unfold sorted. cbn [map]. split.
  - intros H. inversion H; subst. split; [assumption|]. rewrite Forall_map in H3. exact H3.
  - intros [H1 H2]. constructor; [assumption|]. rewrite Forall_map. exact H2.
Qed.
Lemma sorted_app a b : sorted (a ++ b) <-> sorted a /\ sorted b /\ (forall p q, In p a -> In q b -> pM p < pM q).
Proof.
  induction a as [|x a IH].
  - cbn. split; [intros H; repeat split; [constructor|exact H|intros p q []]|intros [_ [H _]]; exact H].
  - cbn [app]. rewrite !sorted_cons, IH, Forall_app. split.
    + intros [[H1 [H2 H3]] [H4 H5]]. split; [split; assumption|]. split; [exact H2|].
      intros p q [E|Hp] Hq; [subst; rewrite Forall_forall in H5; apply H5; exact Hq|apply H3; assumption].
    + intros [[H1 H2] [H3 H4]]. split; [split; [exact H1|split; [exact H3|]]|split; [exact H2|]].
      * intros p q Hp Hq. apply H4; [right|]; assumption.
      * rewrite Forall_forall. intros q Hq. apply H4; [left; reflexivity|exact Hq].
Qed.

(* ---- interpolation ---- *)
Lemma interLoop_below M t : forall last cur, sorted (last :: t) -> M < pM last -> t <> [] -> fst (interLoop M last cur t) = snd (interLoop M last cur t).
Proof.
  induction t as [|p r IH]; intros last cur Hs HM Hne; [congruence|].
  cbn [interLoop]. rewrite (rltb_true M (pM last)) by exact HM. cbn [negb andb].
  apply sorted_cons in Hs. destruct Hs as [Hs Hf]. inversion Hf; subst.
  destruct r as [|q r]; [reflexivity|]. apply IH; [exact Hs|lra|discriminate].
Qed.
Lemma interLoop_hit M t : forall last cur p q, sorted (last :: t) -> consecutive p q (last :: t) -> pM p <= M < pM q ->
  interLoop M last cur t = (p, q).
Proof.
  induction t as [|x r IH]; intros last cur p q Hs [l [r' E]] HM.
  - destruct l as [|? [|? ?]]; cbn in E; discriminate.
  - destruct l as [|y l]; cbn [app] in E.
    + injection E as <- <- <-. cbn [interLoop]. rewrite rltb_false by lra. rewrite rltb_true by lra. reflexivity.
    + injection E as <- E. cbn [interLoop].
      assert (Hx : pM x <= M).
      { apply sorted_cons in Hs. destruct Hs as [Hs _]. destruct l as [|z l]; cbn [app] in E.
        - injection E as -> _. lra.
        - injection E as -> E. apply sorted_cons in Hs. destruct Hs as [_ Hf]. rewrite Forall_forall in Hf.
          assert (In p r) by (rewrite E; apply in_or_app; right; left; reflexivity). pose proof (Hf p H). lra. }
      rewrite (rltb_false M (pM x)) by exact Hx. rewrite Bool.andb_false_r.
      apply (IH x x p q); [apply sorted_cons in Hs; tauto|exists l, r'; exact E|exact HM].
Qed.
Lemma interLoop_miss M t : forall last cur, sorted (last :: t) -> t <> [] ->
  (forall p q, consecutive p q (last :: t) -> ~ pM p <= M < pM q) -> fst (interLoop M last cur t) = snd (interLoop M last cur t).
Proof.
  induction t as [|x r IH]; intros last cur Hs Hne Hc; [congruence|].
  cbn [interLoop].
  pose proof (Hc last x) as H0. assert (consecutive last x (last :: x :: r)) by (exists [], r; reflexivity). specialize (H0 H).
  destruct (negb (rltb M (pM last)) && rltb M (pM x)) eqn:E.
  - exfalso. apply H0. apply Bool.andb_true_iff in E. destruct E as [E1 E2]. unfold rltb in E1, E2.
    destruct (Rlt_dec M (pM last)); [discriminate|]. destruct (Rlt_dec M (pM x)); [|discriminate]. lra.
  - destruct r as [|y r]; [reflexivity|].
    apply IH; [apply sorted_cons in Hs; tauto|discriminate|].
    intros p q [l [r' E']]. apply Hc. exists (last :: l), r'. cbn [app]. rewrite E'. reflexivity.
Qed.
Lemma between_unique t M y1 y2 : sorted t -> between t M y1 -> between t M y2 -> y1 = y2.
Proof.
  intros Hs [p1 [q1 [C1 [B1 E1]]]] [p2 [q2 [C2 [B2 E2]]]].
  destruct t as [|h t]; [destruct C1 as [[|? ?] [? E]]; discriminate|].
  pose proof (interLoop_hit M t h h p1 q1 Hs C1 B1) as H1. pose proof (interLoop_hit M t h h p2 q2 Hs C2 B2) as H2.
  rewrite H1 in H2. injection H2 as <- <-. nra.
Qed.
Lemma interpolate_ok t M : sorted t -> t <> [] -> exists r, interpolate t M = Some r /\ (forall y, r = Some y <-> between t M y).
Proof.
  intros Hs Hne. destruct t as [|h t]; [congruence|]. unfold interpolate.
  destruct (interLoop M h h t) as [a b] eqn:E. eexists. split; [reflexivity|].
  intros y. split.
  - intros H. destruct (Req_EM_T (pM b - pM a) 0) as [Z|Z].
    { unfold rdiv in H. destruct (Req_EM_T (pM b - pM a) 0); [discriminate|contradiction]. }
    rewrite (rdiv_ok _ (pM b - pM a)) in H by exact Z. cbn [bindM] in H. injection H as <-.
    destruct t as [|x t]; [cbn in E; injection E as <- <-; lra|].
    assert (Hc : ~ (forall p q, consecutive p q (h :: x :: t) -> ~ pM p <= M < pM q)).
    { intros Hc. pose proof (interLoop_miss M (x :: t) h h Hs ltac:(discriminate) Hc) as K. rewrite E in K. cbn in K. subst. lra. }
    assert (Hd : exists p q, consecutive p q (h :: x :: t) /\ pM p <= M < pM q).
    { clear E Z. assert (G : forall tt hh, (exists p q, consecutive p q (hh :: tt) /\ pM p <= M < pM q) \/ (forall p q, consecutive p q (hh :: tt) -> ~ pM p <= M < pM q)).
      { induction tt as [|z tt IH]; intros hh.
        - right. intros p q [l [r' E]]. destruct l as [|? [|? ?]]; discriminate.
        - destruct (Rle_dec (pM hh) M) as [L1|L1].
          + destruct (Rlt_dec M (pM z)) as [L2|L2].
            * left. exists hh, z. split; [exists [], tt; reflexivity|lra].
            * destruct (IH z) as [[p [q [[l [r' E]] B]]]|N].
              -- left. exists p, q. split; [exists (hh :: l), r'; cbn; rewrite E; reflexivity|exact B].
              -- right. intros p q [l [r' E]]. destruct l as [|w l]; cbn in E; [injection E as <- <- _; lra|]. injection E as _ E. apply N. exists l, r'. exact E.
          + destruct (IH z) as [[p [q [[l [r' E]] B]]]|N].
            * left. exists p, q. split; [exists (hh :: l), r'; cbn; rewrite E; reflexivity|exact B].
            * right. intros p q [l [r' E]]. destruct l as [|w l]; cbn in E; [injection E as <- <- _; lra|]. injection E as _ E. apply N. exists l, r'. exact E. }
      destruct (G (x :: t) h) as [K|K]; [exact K|].
      exfalso. apply Hc. exact K. }
    destruct Hd as [p [q [Cq B]]]. pose proof (interLoop_hit M (x :: t) h h p q Hs Cq B) as K. rewrite E in K. injection K as -> ->.
    exists p, q. split; [exact Cq|]. split; [exact B|]. field. exact Z.
  - intros [p [q [Cq [B Ey]]]]. pose proof (interLoop_hit M t h h p q Hs Cq B) as K. rewrite E in K. injection K as -> ->.
    rewrite (rdiv_ok _ (pM q - pM p)) by lra. cbn [bindM]. f_equal.
    apply (Rmult_eq_reg_r (pM q - pM p)); [|lra]. field_simplify; nra.
Qed.
