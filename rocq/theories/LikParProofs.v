(* Lemmas about the parameter bookkeeping of the likelihood *)
From Coq Require Import String Ascii List ZArith Reals Bool Lia Lra.
From Coquelicot Require Import Complex.
From Verif Require Import ArrayModel SumAccProofs PathModel StrModel DecModel CGBoxModel FitResultModel LikParModel.
Import ListNotations.
Open Scope list_scope. Open Scope nat_scope.

Lemma nth_error_ext {A} (a : list A) : forall b, (forall i, nth_error a i = nth_error b i) -> a = b.
Proof.
  induction a as [|x a IH]; intros [|y b] H; [reflexivity|specialize (H 0); discriminate|specialize (H 0); discriminate|].
  f_equal; [specialize (H 0); cbn in H; congruence|]. apply IH. intros i. apply (H (S i)).
Qed.
Lemma idx_eqb_spec a b : reflect (a = b) (idx_eqb a b).
Proof.
  destruct a as [[a1 a2] a3], b as [[b1 b2] b3]. unfold idx_eqb, rk, rf, wv; cbn [fst snd].
  destruct (Nat.eqb_spec a1 b1), (Nat.eqb_spec a2 b2), (Nat.eqb_spec a3 b3); cbn; constructor; congruence.
Qed.
Lemma idx_eqb_refl a : idx_eqb a a = true. Proof. now destruct (idx_eqb_spec a a). Qed.
Lemma upd_same {A} (m : idx -> A) t v : upd m t v t = v. Proof. unfold upd. now rewrite idx_eqb_refl. Qed.
Lemma upd_other {A} (m : idx -> A) t u v : u <> t -> upd m t v u = m u.
Proof. intros H. unfold upd. now destruct (idx_eqb_spec u t). Qed.

Lemma loopWaves_In sh r e w : In (r, e, w) (loopWaves sh) <-> r < shRank sh /\ e < 2 /\ w < shWaves sh e.
Proof.
  unfold loopWaves. rewrite in_flat_map. split.
  - intros (r' & Hr & H). apply in_flat_map in H as (e' & He & H). apply in_map_iff in H as (w' & E & Hw). inversion E; subst.
    apply in_seq in Hr, Hw. cbn in He. split; [lia|]. split; [|lia]. destruct He as [<-|[<-|[]]]; lia.
  - intros (Hr & He & Hw). exists r. split; [apply in_seq; lia|]. apply in_flat_map. exists e. split; [cbn; lia|].
    apply in_map_iff. exists w. split; [reflexivity|apply in_seq; lia].
Qed.
Lemma NoDup_flat_map {A B} (f : A -> list B) l : NoDup l -> (forall x, In x l -> NoDup (f x)) ->
  (forall x y b, In x l -> In y l -> In b (f x) -> In b (f y) -> x = y) -> NoDup (flat_map f l).
Proof.
  induction l as [|x l IH]; intros Hn Hf Hd; cbn; [constructor|]. inversion Hn; subst.
  assert (Happ : forall l1 l2 : list B, NoDup l1 -> NoDup l2 -> (forall b, In b l1 -> In b l2 -> False) -> NoDup (l1 ++ l2)).
  { clear. induction l1; cbn; intros l2 H1 H2 Hd; [exact H2|]. inversion H1; subst. constructor.
    - rewrite in_app_iff. intros [|]; [auto|]. eapply Hd; [left; reflexivity|]. assumption.
    - apply IHl1; auto. intros b Hb Hb2. apply (Hd b); auto. }
  apply Happ.
  - apply Hf. now left.
  - apply IH; auto; intros; [apply Hf; now right|]. eapply Hd; eauto; now right.
  - intros b Hb Hb'. apply in_flat_map in Hb' as (y & Hy & Hb'). assert (x = y) by (apply (Hd x y b); [now left|now right|assumption|assumption]). subst. contradiction.
Qed.
Lemma loopWaves_NoDup sh : NoDup (loopWaves sh).
Proof.
  unfold loopWaves. apply NoDup_flat_map; [apply seq_NoDup| |].
  - intros r _. apply NoDup_flat_map.
    + repeat constructor; cbn; intuition discriminate.
    + intros e _. apply FinFun.Injective_map_NoDup; [intros a b E; now inversion E|apply seq_NoDup].
    + intros e e' b _ _ H1 H2. apply in_map_iff in H1 as (? & E1 & _), H2 as (? & E2 & _). congruence.
  - intros r r' b _ _ H1 H2. apply in_flat_map in H1 as (? & _ & H1), H2 as (? & _ & H2).
    apply in_map_iff in H1 as (? & E1 & _), H2 as (? & E2 & _). congruence.
Qed.

(* ---- the free real components, in the order of the parameters ---- *)
Notation comp := (idx * bool)%type.
Lemma comp_eq_dec : forall a b : comp, {a = b} + {a <> b}.
Proof. unfold idx. repeat decide equality. Qed.
Definition compOf (t : idx) : list comp :=
  if wv t <? rk t then [] else if wv t =? rk t then [(t, true)] else [(t, true); (t, false)].
Definition comps (l : list idx) : list comp := flat_map compOf l.

Lemma compOf_In t u b : In (u, b) (compOf t) <-> u = t /\ (if b then rk t <= wv t else rk t < wv t).
Proof.
  unfold compOf. destruct (Nat.ltb_spec (wv t) (rk t)); [|destruct (Nat.eqb_spec (wv t) (rk t))]; cbn.
  - split; [tauto|]. intros [_ H']. destruct b; lia.
  - split; [intros [E|[]]; inversion E; subst; split; [reflexivity|lia]|]. intros [-> H']. destruct b; [now left|lia].
  - split; [intros [E|[E|[]]]; inversion E; subst; split; auto; lia|]. intros [-> H']. destruct b; auto.
Qed.
Lemma comps_In l t b : In (t, b) (comps l) <-> In t l /\ (if b then rk t <= wv t else rk t < wv t).
Proof.
  unfold comps. rewrite in_flat_map. split.
  - intros (u & Hu & H). apply compOf_In in H as [-> H]. auto.
  - intros [H1 H2]. exists t. split; [assumption|]. now apply compOf_In.
Qed.
Lemma comps_NoDup l : NoDup l -> NoDup (comps l).
Proof.
  intros H. apply NoDup_flat_map; [assumption| |].
  - intros t _. unfold compOf. destruct (wv t <? rk t); [constructor|]. destruct (wv t =? rk t); repeat constructor; cbn; intuition discriminate.
  - intros x y [t b] _ _ H1 H2. apply compOf_In in H1 as [-> _], H2 as [-> _]. reflexivity.
Qed.
Lemma comps_app a b : comps (a ++ b) = comps a ++ comps b. Proof. apply flat_map_app. Qed.

Lemma comps_length l : length (comps l) = length (filter (fun t => rk t <=? wv t) l) + length (filter (fun t => rk t <? wv t) l).
Proof.
  induction l as [|t l IH]; [reflexivity|]. unfold comps in *. cbn [flat_map filter]. rewrite app_length, IH. unfold compOf.
  destruct (Nat.ltb_spec (wv t) (rk t)), (Nat.eqb_spec (wv t) (rk t)), (Nat.leb_spec (rk t) (wv t)), (Nat.ltb_spec (rk t) (wv t)); cbn; lia.
Qed.

(* ---- number of parameters ---- *)
Definition inRank (r n : nat) : nat := 2 * (n - r - 1) + (if r <? n then 1 else 0).
Lemma comps_waves r e n : length (comps (map (fun w => (r, e, w)) (List.seq 0 n))) = inRank r n.
Proof.
  induction n as [|n IH]; [reflexivity|]. rewrite seq_S, map_app, comps_app, app_length, IH. cbn [plus map comps flat_map]. rewrite app_nil_r.
  unfold inRank, compOf, rk, wv; cbn [fst snd].
  destruct (Nat.ltb_spec n r), (Nat.eqb_spec n r), (Nat.ltb_spec r n), (Nat.ltb_spec r (S n)); cbn [length]; lia.
Qed.
Lemma nmbPars_comps sh : nmbPars sh = Z.of_nat (length (comps (loopWaves sh)) + 1).
Proof.
  destruct sh as [rank n]. unfold nmbPars, loopWaves; cbn [shRank shWaves].
  rewrite Nat2Z.inj_add. f_equal. change (Z.of_nat 0) with 0%Z.
  set (g := fun r => flat_map (fun e => map (fun w => (r, e, w)) (List.seq 0 (n e))) [0; 1]).
  assert (Hg : forall r, length (comps (g r)) = inRank r (n 0) + inRank r (n 1)).
  { intros r. unfold g. cbn [flat_map]. rewrite app_nil_r, comps_app, app_length, !comps_waves. reflexivity. }
  clearbody g. induction rank as [|rank IH]; [reflexivity|]. rewrite seq_S, fold_left_app, flat_map_app, comps_app, app_length. cbn [plus].
  cbn [fold_left]. rewrite IH. clear IH. cbn [flat_map]. rewrite app_nil_r, Hg.
  generalize (length (comps (flat_map g (List.seq 0 rank)))). intros k. unfold inRank.
  destruct (Z.ltb_spec (Z.of_nat (n 1) - Z.of_nat rank - 1) 0), (Z.ltb_spec (Z.of_nat (n 0) - Z.of_nat rank - 1) 0),
    (Z.ltb_spec 0 (Z.of_nat (n 1) - Z.of_nat rank)), (Z.ltb_spec 0 (Z.of_nat (n 0) - Z.of_nat rank)),
    (Nat.ltb_spec rank (n 0)), (Nat.ltb_spec rank (n 1)); lia.
Qed.

(* ---- building the parameters ---- *)
Section B.
  Context (names : nat -> nat -> str) (thr : nat -> nat -> R) (mass : R).
  Definition isFixed (t : idx) : bool :=
    if Req_EM_T (thr (rf t) (wv t)) 0 then false else if Rle_dec mass (thr (rf t) (wv t)) then true else false.
  Definition parOf (c : comp) : fitParameter := FP (names (rf (fst c)) (wv (fst c))) (rk (fst c)) (thr (rf (fst c)) (wv (fst c))) (isFixed (fst c)) (snd c).
  Definition nFix (cs : list comp) : nat := length (filter (fun c => isFixed (fst c)) cs).

  Lemma parFold l : forall s, pdIndex s + length (comps l) <= length (pdPars s) -> NoDup l ->
    exists s', foldO (parStep names thr mass) l s = Some s'
      /\ pdIndex s' = pdIndex s + length (comps l) /\ length (pdPars s') = length (pdPars s)
      /\ pdFixed s' = pdFixed s + nFix (comps l)
      /\ (forall j, j < pdIndex s \/ pdIndex s + length (comps l) <= j -> nth_error (pdPars s') j = nth_error (pdPars s) j)
      /\ (forall j c, nth_error (comps l) j = Some c -> nth_error (pdPars s') (pdIndex s + j) = Some (parOf c))
      /\ (forall t, ~ In t l -> pdMap s' t = pdMap s t)
      /\ (forall j t (b : bool), nth_error (comps l) j = Some (t, b) -> (if b then fst else snd) (pdMap s' t) = Z.of_nat (pdIndex s + j))
      /\ (forall t (b : bool), In t l -> ~ In (t, b) (comps l) -> (if b then fst else snd) (pdMap s' t) = (-1)%Z).
  Proof.
    induction l as [|t l IH]; intros s Hb Hn.
    - exists s. cbn [foldO comps flat_map length nFix filter]. rewrite !Nat.add_0_r. repeat split; auto; try (intros [|]; discriminate); try contradiction.
    - apply NoDup_cons_iff in Hn as [Hnt Hn']. cbn [foldO].
      assert (Hc : comps (t :: l) = compOf t ++ comps l) by reflexivity. rewrite Hc in *. rewrite app_length in *.
      unfold parStep at 1. fold (isFixed t).
      assert (Hnot : forall u b, In (u, b) (comps l) -> u <> t).
      { intros u b Hu ->. apply comps_In in Hu. tauto. }
      assert (HnF : nFix (compOf t ++ comps l) = length (filter (fun c => isFixed (fst c)) (compOf t)) + nFix (comps l)) by (unfold nFix; rewrite filter_app, app_length; reflexivity).
      unfold compOf in *. destruct (Nat.ltb_spec (wv t) (rk t)) as [H1|H1]; [|destruct (Nat.eqb_spec (wv t) (rk t)) as [H2|H2]].
      + cbn [length app plus] in *.
        destruct (IH (PD (pdIndex s) (pdPars s) (pdFixed s) (upd (pdMap s) t (-1, -1)%Z)) ltac:(cbn; lia) Hn') as (s' & E & P1 & P2 & P3 & P4 & P5 & P6 & P7 & P8).
        cbn [pdIndex pdPars pdFixed pdMap] in *. cbn [bnd]. rewrite E. exists s'. repeat split; auto.
        * intros u Hu. rewrite P6 by (intros ?; apply Hu; now right). apply upd_other. intros ->. apply Hu. now left.
        * intros u b [<-|Hu] Hi; [|now apply P8]. rewrite P6 by assumption. rewrite upd_same. now destruct b.
      + destruct (wr_spec (pdPars s) (pdIndex s) (FP (names (rf t) (wv t)) (rk t) (thr (rf t) (wv t)) (isFixed t) true) ltac:(cbn in Hb; lia)) as (v & Ev & Lv & Nv).
        rewrite Ev. cbn [bnd]. cbn [length app] in *.
        match goal with |- context [foldO _ l (PD ?a ?b ?c ?d)] => destruct (IH (PD a b c d) ltac:(cbn; lia) Hn') as (s' & E & P1 & P2 & P3 & P4 & P5 & P6 & P7 & P8) end.
        cbn [pdIndex pdPars pdFixed pdMap] in *. cbn [bnd]. rewrite E. exists s'.
        split; [reflexivity|]. split; [lia|]. split; [lia|]. split; [|split; [|split; [|split; [|split]]]].
        * rewrite P3, HnF. cbn [filter fst]. destruct (isFixed t); cbn [length]; lia.
        * intros j Hj. rewrite P4 by lia. rewrite Nv. destruct (Nat.eqb_spec j (pdIndex s)); [lia|reflexivity].
        * intros [|j] c Hcj; cbn in Hcj.
          -- inversion Hcj; subst. rewrite P4 by lia. rewrite Nv. destruct (Nat.eqb_spec (pdIndex s + 0) (pdIndex s)); [reflexivity|lia].
          -- rewrite <- (P5 j c Hcj). f_equal; lia.
        * intros u Hu. rewrite P6 by (intros ?; apply Hu; now right). apply upd_other. intros ->. apply Hu. now left.
        * intros [|j] u b Hcj; cbn in Hcj.
          -- inversion Hcj; subst. rewrite P6 by assumption. rewrite upd_same. cbn. lia.
          -- rewrite (P7 j u b Hcj). lia.
        * intros u b Hu Hi. destruct Hu as [<-|Hu].
          -- rewrite P6 by assumption. rewrite upd_same. destruct b; [exfalso; apply Hi; now left|reflexivity].
          -- apply P8; [assumption|]. intros ?; apply Hi; now right.
      + destruct (wr_spec (pdPars s) (pdIndex s) (FP (names (rf t) (wv t)) (rk t) (thr (rf t) (wv t)) (isFixed t) true) ltac:(cbn in Hb; lia)) as (v & Ev & Lv & Nv).
        rewrite Ev. cbn [bnd].
        destruct (wr_spec v (pdIndex s + 1) (FP (names (rf t) (wv t)) (rk t) (thr (rf t) (wv t)) (isFixed t) false) ltac:(cbn in Hb; lia)) as (v2 & Ev2 & Lv2 & Nv2).
        rewrite Ev2. cbn [bnd]. cbn [length app] in *.
        match goal with |- context [foldO _ l (PD ?a ?b ?c ?d)] => destruct (IH (PD a b c d) ltac:(cbn; lia) Hn') as (s' & E & P1 & P2 & P3 & P4 & P5 & P6 & P7 & P8) end.
        cbn [pdIndex pdPars pdFixed pdMap] in *. cbn [bnd]. rewrite E. exists s'.
        split; [reflexivity|]. split; [lia|]. split; [lia|]. split; [|split; [|split; [|split; [|split]]]].
        * rewrite P3, HnF. cbn [filter fst]. destruct (isFixed t); cbn [length]; lia.
        * intros j Hj. rewrite P4 by lia. rewrite Nv2, Nv. destruct (Nat.eqb_spec j (pdIndex s)), (Nat.eqb_spec j (pdIndex s + 1)); try lia; reflexivity.
        * intros [|[|j]] c Hcj; cbn in Hcj.
          -- inversion Hcj; subst. rewrite P4 by lia. rewrite Nv2, Nv. destruct (Nat.eqb_spec (pdIndex s + 0) (pdIndex s)), (Nat.eqb_spec (pdIndex s + 0) (pdIndex s + 1)); try lia; reflexivity.
          -- inversion Hcj; subst. rewrite P4 by lia. rewrite Nv2. rewrite Nat.eqb_refl. reflexivity.
          -- rewrite <- (P5 j c Hcj). f_equal; lia.
        * intros u Hu. rewrite P6 by (intros ?; apply Hu; now right). apply upd_other. intros ->. apply Hu. now left.
        * intros [|[|j]] u b Hcj; cbn in Hcj.
          -- inversion Hcj; subst. rewrite P6 by assumption. rewrite upd_same. cbn. lia.
          -- inversion Hcj; subst. rewrite P6 by assumption. rewrite upd_same. cbn. lia.
          -- rewrite (P7 j u b Hcj). lia.
        * intros u b Hu Hi. destruct Hu as [<-|Hu].
          -- exfalso. apply Hi. destruct b; [now left|right; now left].
          -- apply P8; [assumption|]. intros ?; apply Hi; now right; right.
  Qed.

  (* the map and the parameters after buildParDataStruct *)
  Definition goodMap (sh : shape) (m : parMap) : Prop :=
    (forall j t (b : bool), nth_error (comps (loopWaves sh)) j = Some (t, b) -> (if b then fst else snd) (m t) = Z.of_nat j)
    /\ (forall t (b : bool), In t (loopWaves sh) -> ~ In (t, b) (comps (loopWaves sh)) -> (if b then fst else snd) (m t) = (-1)%Z).
  Lemma build_spec sh : exists d, buildParDataStruct sh names thr mass = Some d
    /\ goodMap sh (pdMap d)
    /\ pdPars d = map parOf (comps (loopWaves sh)) ++ [FP (lit "flat"%string) 0 0%R false true]
    /\ pdFixed d = nFix (comps (loopWaves sh)).
  Proof.
    unfold buildParDataStruct. set (N := length (comps (loopWaves sh))).
    assert (HN : Z.to_nat (nmbPars sh) = N + 1) by (rewrite nmbPars_comps; lia).
    destruct (parFold (loopWaves sh) (PD 0 (repeat fpDefault (Z.to_nat (nmbPars sh))) 0 (fun _ => (0, 0)%Z))) as (s' & E & P1 & P2 & P3 & P4 & P5 & P6 & P7 & P8).
    { cbn [pdIndex pdPars]. rewrite repeat_length, HN. fold N. lia. }
    { apply loopWaves_NoDup. }
    cbn [pdIndex pdPars pdFixed pdMap] in *. rewrite repeat_length, HN in P2. rewrite E. cbn [bnd]. fold N in P1, P4.
    destruct (wr_spec (pdPars s') (pdIndex s') (FP (lit "flat"%string) 0 0%R false true) ltac:(lia)) as (v & Ev & Lv & Nv).
    rewrite Ev. cbn [bnd]. eexists. split; [reflexivity|]. cbn [pdIndex pdPars pdFixed pdMap]. split; [|split].
    - split; [exact P7|exact P8].
    - rewrite P1 in Nv. apply nth_error_ext. intros j. rewrite Nv. cbn [plus]. destruct (Nat.eqb_spec j N) as [->|Hne].
      + rewrite nth_error_app2 by (rewrite map_length; reflexivity). rewrite map_length. fold N. now rewrite Nat.sub_diag.
      + destruct (Nat.lt_ge_cases j N).
        * rewrite nth_error_app1 by (rewrite map_length; assumption). rewrite nth_error_map.
          destruct (nth_error (comps (loopWaves sh)) j) as [c|] eqn:Ec; [|apply nth_error_None in Ec; lia]. cbn [option_map]. apply (P5 j c Ec).
        * transitivity (@None fitParameter); [|symmetry]; apply nth_error_None; [lia|]. rewrite app_length, map_length. cbn. lia.
    - exact P3.
  Qed.
End B.

(* ---- parameters to amplitudes ---- *)
Definition part (b : bool) (c : C) : R := if b then Re c else Im c.
Lemma fromFold inPar l : forall out i, i + length (comps l) <= length inPar -> NoDup l ->
  exists out', foldO (fromStep inPar) l (out, i) = Some (out', i + length (comps l))
    /\ (forall t, ~ In t l -> out' t = out t)
    /\ (forall j t b, nth_error (comps l) j = Some (t, b) -> nth_error inPar (i + j) = Some (part b (out' t)))
    /\ (forall t b, In t l -> ~ In (t, b) (comps l) -> part b (out' t) = 0%R).
Proof.
  induction l as [|t l IH]; intros out i Hb Hn.
  - exists out. cbn [foldO comps flat_map length]. rewrite Nat.add_0_r. repeat split; auto; try (intros [|]; discriminate); contradiction.
  - apply NoDup_cons_iff in Hn as [Hnt Hn']. cbn [foldO].
    assert (Hc : comps (t :: l) = compOf t ++ comps l) by reflexivity. rewrite Hc in *. rewrite app_length in *.
    assert (Hrd : forall k, k < length inPar -> exists x, nth_error inPar k = Some x).
    { intros k Hk. destruct (nth_error inPar k) eqn:Ek; [eauto|]. apply nth_error_None in Ek. lia. }
    unfold fromStep at 1. unfold compOf in *. destruct (Nat.ltb_spec (wv t) (rk t)) as [H1|H1]; [|destruct (Nat.eqb_spec (wv t) (rk t)) as [H2|H2]].
    + cbn [length app plus] in *. cbn [bnd].
      destruct (IH (upd out t (0, 0)%R) i ltac:(lia) Hn') as (out' & E & P1 & P2 & P3).
      rewrite E. exists out'. repeat split; auto.
      * intros u Hu. rewrite P1 by (intros ?; apply Hu; now right). apply upd_other. intros ->. apply Hu. now left.
      * intros u b [<-|Hu] Hi; [|now apply P3]. rewrite P1 by assumption. rewrite upd_same. now destruct b.
    + cbn [length app] in *. destruct (Hrd i ltac:(lia)) as [x Ex]. unfold rd. rewrite Ex. cbn [bnd].
      destruct (IH (upd out t (x, 0%R)) (i + 1) ltac:(lia) Hn') as (out' & E & P1 & P2 & P3).
      fold (@rd R). rewrite E. exists out'. split; [f_equal; f_equal; lia|]. split; [|split].
      * intros u Hu. rewrite P1 by (intros ?; apply Hu; now right). apply upd_other. intros ->. apply Hu. now left.
      * intros [|j] u b Hcj; cbn in Hcj.
        -- inversion Hcj; subst. rewrite P1 by assumption. rewrite upd_same, Nat.add_0_r. exact Ex.
        -- rewrite <- (P2 j u b Hcj). f_equal; lia.
      * intros u b Hu Hi. destruct Hu as [<-|Hu].
        -- rewrite P1 by assumption. rewrite upd_same. destruct b; [exfalso; apply Hi; now left|reflexivity].
        -- apply P3; [assumption|]. intros ?; apply Hi; now right.
    + cbn [length app] in *. destruct (Hrd i ltac:(lia)) as [x Ex]. destruct (Hrd (i + 1) ltac:(lia)) as [y Ey]. unfold rd. rewrite Ex. cbn [bnd]. rewrite Ey. cbn [bnd].
      destruct (IH (upd out t (x, y)) (i + 2) ltac:(lia) Hn') as (out' & E & P1 & P2 & P3).
      fold (@rd R). rewrite E. exists out'. split; [f_equal; f_equal; lia|]. split; [|split].
      * intros u Hu. rewrite P1 by (intros ?; apply Hu; now right). apply upd_other. intros ->. apply Hu. now left.
      * intros [|[|j]] u b Hcj; cbn in Hcj.
        -- inversion Hcj; subst. rewrite P1 by assumption. rewrite upd_same, Nat.add_0_r. exact Ex.
        -- inversion Hcj; subst. rewrite P1 by assumption. rewrite upd_same. exact Ey.
        -- rewrite <- (P2 j u b Hcj). f_equal; lia.
      * intros u b Hu Hi. destruct Hu as [<-|Hu].
        -- exfalso. apply Hi. destruct b; [now left|right; now left].
        -- apply P3; [assumption|]. intros ?; apply Hi; now right; right.
Qed.
Lemma from_spec sh par : length par = Z.to_nat (nmbPars sh) ->
  exists amps flat, copyFromParArray sh par = Some (amps, flat)
    /\ nth_error par (length (comps (loopWaves sh))) = Some flat
    /\ (forall j t b, nth_error (comps (loopWaves sh)) j = Some (t, b) -> nth_error par j = Some (part b (amps t)))
    /\ (forall t b, In t (loopWaves sh) -> ~ In (t, b) (comps (loopWaves sh)) -> part b (amps t) = 0%R)
    /\ (forall t, ~ In t (loopWaves sh) -> amps t = RtoC 0).
Proof.
  intros Hl. rewrite nmbPars_comps in Hl.
  destruct (fromFold par (loopWaves sh) (fun _ => RtoC 0) 0 ltac:(lia) (loopWaves_NoDup sh)) as (out' & E & P1 & P2 & P3).
  unfold copyFromParArray. rewrite E. cbn [bnd snd fst].
  destruct (nth_error par (length (comps (loopWaves sh)))) as [f|] eqn:Ef; [|apply nth_error_None in Ef; lia].
  exists out', f. cbn [plus]. unfold rd. rewrite Ef. cbn [bnd]. repeat split; auto.
Qed.

(* ---- amplitudes to parameters ---- *)
Section T.
  Context {A : Type} (re im : idx -> A).
  Definition partA (b : bool) (t : idx) : A := if b then re t else im t.
  Lemma toFold sh m l : goodMap sh m -> (forall t, In t l -> In t (loopWaves sh)) -> forall out, length (comps (loopWaves sh)) <= length out ->
    exists out', foldO (toStep re im m) l out = Some out' /\ length out' = length out
      /\ forall q, nth_error out' q = match nth_error (comps (loopWaves sh)) q with
                                      | Some (t, b) => if existsb (idx_eqb t) l then Some (partA b t) else nth_error out q
                                      | None => nth_error out q end.
  Proof.
    intros [G1 G2]. induction l as [|t l IH]; intros Hin out Hb.
    - exists out. cbn [foldO existsb]. repeat split; auto. intros q. now destruct (nth_error (comps (loopWaves sh)) q) as [[? ?]|].
    - cbn [foldO].
      (* position of each component of t *)
      assert (Hpos : forall b : bool, let p := (if b then fst else snd) (m t) in
                (p = (-1)%Z /\ forall q, nth_error (comps (loopWaves sh)) q <> Some (t, b)) \/
                ((0 <= p)%Z /\ nth_error (comps (loopWaves sh)) (Z.to_nat p) = Some (t, b) /\ forall q, nth_error (comps (loopWaves sh)) q = Some (t, b) -> q = Z.to_nat p)).
      { intros b p. destruct (in_dec comp_eq_dec (t, b) (comps (loopWaves sh))) as [Hi|Hi].
        - destruct (In_nth_error _ _ Hi) as [j Ej]. right. assert (Hp : p = Z.of_nat j) by (apply (G1 j t b Ej)).
          rewrite Hp, Nat2Z.id. split; [lia|]. split; [exact Ej|]. intros q Eq. specialize (G1 q t b Eq). unfold p in Hp. lia.
        - left. split; [apply G2; [apply Hin; now left|exact Hi]|]. intros q Eq. apply Hi. eapply nth_error_In; eauto. }
      assert (Hlt : forall p (b : bool), nth_error (comps (loopWaves sh)) p = Some (t, b) -> p < length out).
      { intros p b E. assert (p < length (comps (loopWaves sh))) by (apply nth_error_Some; congruence). lia. }
      assert (Hst : exists o1, toStep re im m t out = Some o1 /\ length o1 = length out /\
                forall q, nth_error o1 q = match nth_error (comps (loopWaves sh)) q with Some (u, b) => if idx_eqb u t then Some (partA b u) else nth_error out q | None => nth_error out q end).
      { unfold toStep. pose proof (Hpos true) as HT; pose proof (Hpos false) as HF; clear Hpos; cbn zeta iota in HT, HF; destruct HT as [[T1 T2]|(T1 & T2 & T3)], HF as [[F1 F2]|(F1 & F2 & F3)]; destruct (m t) as [r i]; cbn [fst snd] in *.
        - subst r i. cbn [Z.leb Z.compare bnd]. exists out. repeat split; auto. intros q. destruct (nth_error (comps (loopWaves sh)) q) as [[u b]|] eqn:Eq; [|reflexivity].
          destruct (idx_eqb_spec u t); [subst|reflexivity]. destruct b; [now apply T2 in Eq|now apply F2 in Eq].
        - subst r. cbn [Z.leb Z.compare bnd]. rewrite (proj2 (Z.leb_le 0 i) F1).
          destruct (wr_spec out (Z.to_nat i) (im t) (Hlt _ _ F2)) as (v & Ev & Lv & Nv). exists v. rewrite Ev. repeat split; auto.
          intros q. rewrite Nv. destruct (Nat.eqb_spec q (Z.to_nat i)) as [->|Hne].
          + rewrite F2, idx_eqb_refl. reflexivity.
          + destruct (nth_error (comps (loopWaves sh)) q) as [[u b]|] eqn:Eq; [|reflexivity]. destruct (idx_eqb_spec u t); [subst|reflexivity]. destruct b; [now apply T2 in Eq|]. apply F3 in Eq. contradiction.
        - subst i. rewrite (proj2 (Z.leb_le 0 r) T1).
          destruct (wr_spec out (Z.to_nat r) (re t) (Hlt _ _ T2)) as (v & Ev & Lv & Nv). exists v. rewrite Ev. cbn [bnd Z.leb Z.compare]. repeat split; auto.
          intros q. rewrite Nv. destruct (Nat.eqb_spec q (Z.to_nat r)) as [->|Hne].
          + rewrite T2, idx_eqb_refl. reflexivity.
          + destruct (nth_error (comps (loopWaves sh)) q) as [[u b]|] eqn:Eq; [|reflexivity]. destruct (idx_eqb_spec u t); [subst|reflexivity]. destruct b; [|now apply F2 in Eq]. apply T3 in Eq. contradiction.
        - rewrite (proj2 (Z.leb_le 0 r) T1), (proj2 (Z.leb_le 0 i) F1).
          destruct (wr_spec out (Z.to_nat r) (re t) (Hlt _ _ T2)) as (v & Ev & Lv & Nv). rewrite Ev. cbn [bnd].
          destruct (wr_spec v (Z.to_nat i) (im t) ltac:(rewrite Lv; exact (Hlt _ _ F2))) as (v2 & Ev2 & Lv2 & Nv2). exists v2. rewrite Ev2. split; [reflexivity|]. split; [lia|].
          intros q. rewrite Nv2, Nv. destruct (Nat.eqb_spec q (Z.to_nat i)) as [->|Hne]; [|destruct (Nat.eqb_spec q (Z.to_nat r)) as [->|Hne2]].
          + rewrite F2, idx_eqb_refl. reflexivity.
          + rewrite T2, idx_eqb_refl. reflexivity.
          + destruct (nth_error (comps (loopWaves sh)) q) as [[u b]|] eqn:Eq; [|reflexivity]. destruct (idx_eqb_spec u t); [subst|reflexivity]. destruct b; [apply T3 in Eq|apply F3 in Eq]; contradiction. }
      destruct Hst as (o1 & E1 & L1 & N1). rewrite E1. cbn [bnd].
      destruct (IH (fun u Hu => Hin u (or_intror Hu)) o1 ltac:(lia)) as (o2 & E2 & L2 & N2). rewrite E2. exists o2. split; [reflexivity|]. split; [lia|].
      intros q. rewrite N2, N1. destruct (nth_error (comps (loopWaves sh)) q) as [[u b]|] eqn:Eq; [|reflexivity]. cbn [existsb].
      destruct (existsb (idx_eqb u) l), (idx_eqb u t); reflexivity.
  Qed.
  Lemma to_spec sh m flat out : goodMap sh m -> length out = Z.to_nat (nmbPars sh) ->
    copyToParArray re im sh m flat out = Some (map (fun c => partA (snd c) (fst c)) (comps (loopWaves sh)) ++ [flat]).
  Proof.
    intros Hm Hl. unfold copyToParArray. rewrite nmbPars_comps in *.
    destruct (toFold sh m (loopWaves sh) Hm (fun _ H => H) out ltac:(lia)) as (o & E & L & N). rewrite E. cbn [bnd].
    set (n := length (comps (loopWaves sh))) in *. replace (Z.to_nat (Z.of_nat (n + 1) - 1)) with n by lia.
    destruct (wr_spec o n flat ltac:(lia)) as (v & Ev & Lv & Nv). rewrite Ev. f_equal.
    apply nth_error_ext. intros q. rewrite Nv, N. destruct (Nat.eqb_spec q n) as [->|Hne].
    - rewrite nth_error_app2 by (rewrite map_length; reflexivity). rewrite map_length. fold n. now rewrite Nat.sub_diag.
    - destruct (Nat.lt_ge_cases q n).
      + rewrite nth_error_app1 by (rewrite map_length; assumption). rewrite nth_error_map.
        destruct (nth_error (comps (loopWaves sh)) q) as [[t b]|] eqn:Ec; [|apply nth_error_None in Ec; unfold n in *; lia]. 
        replace (existsb (idx_eqb t) (loopWaves sh)) with true; [reflexivity|]. symmetry. apply existsb_exists. exists t. split; [|apply idx_eqb_refl].
        apply nth_error_In in Ec. now apply comps_In in Ec.
      + destruct (nth_error (comps (loopWaves sh)) q) as [[t b]|] eqn:Ec; [assert (Hq : q < length (comps (loopWaves sh))) by (apply nth_error_Some; congruence); fold n in Hq; lia|].
        transitivity (@None A); [|symmetry]; apply nth_error_None; [lia|]. rewrite app_length, map_length. cbn [length]. unfold n in *. lia.
  Qed.
End T.
