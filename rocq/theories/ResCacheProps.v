(* C53: the cache of the resonance fit writes exactly the addressed cells. *)
From Coq Require Import String Ascii List ZArith Bool Reals Lia FunctionalExtensionality.
From Coquelicot Require Import Complex.
From Verif Require Import PathModel StrModel CGBoxModel ParticleModel AmpIntModel ResCacheModel LikSetProofs.
Import ListNotations.
Open Scope list_scope. Open Scope nat_scope.

(* all cells of the three arrays *)
Inductive cell := KCoup (i ch b m : nat) | KComp (i b m : nat) | KProd (w b m : nat).
Definition readCell (c : rcache) (k : cell) : C :=
  match k with KCoup i ch b m => cCoup c i ch b m | KComp i b m => cComp c i b m | KProd w b m => cProd c w b m end.
Definition ext (c : rcache) : nat * nat * nat * nat * nat := (xWaves c, xComps c, xChans c, xBins c, xMass c).
Definition inside (c : rcache) (k : cell) : Prop :=
  match k with
  | KCoup i ch b m => i < xComps c /\ ch < xChans c /\ b < xBins c /\ m < xMass c
  | KComp i b m => i < xComps c /\ b < xBins c /\ m < xMass c
  | KProd w b m => w < xWaves c /\ b < xBins c /\ m < xMass c
  end.

(* c' is c with the cells in S set to v *)
Definition writes (v : C) (S : cell -> bool) (c c' : rcache) : Prop :=
  (forall k, readCell c' k = if S k then v else readCell c k) /\ ext c' = ext c.

Lemma writes_comp v S1 S2 c c1 c2 : writes v S1 c c1 -> writes v S2 c1 c2 -> writes v (fun k => S1 k || S2 k) c c2.
Proof.
  intros [H1 E1] [H2 E2]. split; [|congruence]. intros k. rewrite H2, H1. destruct (S1 k), (S2 k); reflexivity.
Qed.
Lemma writes_ext v S S' c c' : (forall k, S k = S' k) -> writes v S c c' -> writes v S' c c'.
Proof. intros H [H1 E1]. split; [|exact E1]. intros k. now rewrite <- H, H1. Qed.
Lemma writes_id v c : writes v (fun _ => false) c c.
Proof. split; reflexivity. Qed.

Lemma foldO_writes {B} v (F : B -> rcache -> option rcache) (S : B -> cell -> bool) e l :
  (forall x a, In x l -> ext a = e -> exists a', F x a = Some a' /\ writes v (S x) a a') ->
  forall c, ext c = e -> exists c', foldO F l c = Some c' /\ writes v (fun k => existsb (fun x => S x k) l) c c'.
Proof.
  induction l as [|x l IH]; intros H c Hc.
  - exists c. split; [reflexivity|apply writes_id].
  - destruct (H x c (or_introl eq_refl) Hc) as (a & Ea & Wa).
    destruct (IH (fun y b Hy => H y b (or_intror Hy)) a) as (c' & Ec & Wc).
    { destruct Wa as [_ E]. congruence. }
    exists c'. cbn [foldO]. rewrite Ea. cbn [bnd]. split; [exact Ec|].
    cbn [existsb]. exact (writes_comp _ _ _ _ _ _ Wa Wc).
Qed.

Definition hit (x : option nat) (n i : nat) : bool := match x with None => i <? n | Some j => i =? j end.
Definition kCoup (i ch : nat) (fb fm : nat -> bool) (k : cell) : bool :=
  match k with KCoup i' ch' b m => (i' =? i) && (ch' =? ch) && fb b && fm m | _ => false end.
Definition kComp (i : nat) (fb fm : nat -> bool) (k : cell) : bool :=
  match k with KComp i' b m => (i' =? i) && fb b && fm m | _ => false end.
Definition kProd (fw fb fm : nat -> bool) (k : cell) : bool :=
  match k with KProd w b m => fw w && fb b && fm m | _ => false end.

Lemma ltb_t a b : a < b -> (a <? b) = true. Proof. apply Nat.ltb_lt. Qed.
Lemma ext5 a c : ext a = ext c -> xWaves a = xWaves c /\ xComps a = xComps c /\ xChans a = xChans c /\ xBins a = xBins c /\ xMass a = xMass c.
Proof. unfold ext. intros H. injection H. auto. Qed.

Lemma wrCoup_ok v i ch b m c : i < xComps c -> ch < xChans c -> b < xBins c -> m < xMass c ->
  exists c', wrCoup v i ch b m c = Some c' /\ writes v (kCoup i ch (Nat.eqb b) (Nat.eqb m)) c c'.
Proof.
  intros H1 H2 H3 H4. unfold wrCoup. rewrite !ltb_t by assumption. cbn [andb]. eexists. split; [reflexivity|].
  split; [|reflexivity]. intros [i' ch' b' m'|i' b' m'|w b' m']; cbn; try reflexivity.
  unfold upd4. rewrite (Nat.eqb_sym b b'), (Nat.eqb_sym m m'). reflexivity.
Qed.
Lemma wrComp_ok v i b m c : i < xComps c -> b < xBins c -> m < xMass c ->
  exists c', wrComp v i b m c = Some c' /\ writes v (kComp i (Nat.eqb b) (Nat.eqb m)) c c'.
Proof.
  intros H1 H3 H4. unfold wrComp. rewrite !ltb_t by assumption. cbn [andb]. eexists. split; [reflexivity|].
  split; [|reflexivity]. intros [i' ch' b' m'|i' b' m'|w b' m']; cbn; try reflexivity.
  unfold upd3. rewrite (Nat.eqb_sym b b'), (Nat.eqb_sym m m'). reflexivity.
Qed.
Lemma wrProd_ok v w b m c : w < xWaves c -> b < xBins c -> m < xMass c ->
  exists c', wrProd v w b m c = Some c' /\ writes v (kProd (Nat.eqb w) (Nat.eqb b) (Nat.eqb m)) c c'.
Proof.
  intros H1 H3 H4. unfold wrProd. rewrite !ltb_t by assumption. cbn [andb]. eexists. split; [reflexivity|].
  split; [|reflexivity]. intros [i' ch' b' m'|i' b' m'|w' b' m']; cbn; try reflexivity.
  unfold upd3. rewrite (Nat.eqb_sym b b'), (Nat.eqb_sym m m'), (Nat.eqb_sym w w'). reflexivity.
Qed.

Lemma upTo_in n i : In i (upTo n) <-> i < n.
Proof. unfold upTo. rewrite in_seq. lia. Qed.
Lemma existsb_upTo n i : existsb (fun x => Nat.eqb x i) (upTo n) = (i <? n).
Proof.
  destruct (i <? n) eqn:E.
  - apply existsb_exists. exists i. rewrite upTo_in, Nat.eqb_refl. apply Nat.ltb_lt in E. auto.
  - apply Nat.ltb_ge in E. apply not_true_iff_false. intros H. apply existsb_exists in H as (x & Hx & He).
    apply upTo_in in Hx. apply Nat.eqb_eq in He. lia.
Qed.
Lemma existsb_and {A} (f : A -> bool) (a : bool) l : existsb (fun x => a && f x) l = a && existsb f l.
Proof. induction l as [|x l IH]; cbn; [now rewrite andb_false_r|]. rewrite IH. destruct a, (f x); reflexivity. Qed.
Lemma existsb_and_r {A} (f : A -> bool) (a : bool) l : existsb (fun x => f x && a) l = existsb f l && a.
Proof. induction l as [|x l IH]; cbn; [reflexivity|]. rewrite IH. destruct a, (f x), (existsb f l); reflexivity. Qed.
Lemma existsb_false {A} (l : list A) : existsb (fun _ => false) l = false.
Proof. induction l; auto. Qed.
Lemma existsb_ext' {A} (f g : A -> bool) l : (forall x, f x = g x) -> existsb f l = existsb g l.
Proof. intros H. induction l as [|x l IH]; cbn; [reflexivity|]. now rewrite H, IH. Qed.

Definition okI (x : option nat) (n : nat) : Prop := match x with None => True | Some i => i < n end.

(* loops over one index of a family of cells *)
Lemma loop_coup_m v i ch (fb : nat -> bool) n F c :
  (forall l a, l < n -> ext a = ext c -> exists a', F l a = Some a' /\ writes v (kCoup i ch fb (Nat.eqb l)) a a') ->
  exists c', foldO F (upTo n) c = Some c' /\ writes v (kCoup i ch fb (fun m => m <? n)) c c'.
Proof.
  intros H. destruct (foldO_writes v F (fun l => kCoup i ch fb (Nat.eqb l)) (ext c) (upTo n)) with (c := c) as (c' & E & W); [|reflexivity|].
  { intros x a Hx Ha. apply H; [now apply upTo_in|exact Ha]. }
  exists c'. split; [exact E|]. eapply writes_ext; [|exact W]. intros [i' ch' b m|i' b m|w b m]; cbn; try apply existsb_false.
  now rewrite existsb_and, existsb_upTo.
Qed.
Lemma loop_coup_b v i ch (fm : nat -> bool) n F c :
  (forall l a, l < n -> ext a = ext c -> exists a', F l a = Some a' /\ writes v (kCoup i ch (Nat.eqb l) fm) a a') ->
  exists c', foldO F (upTo n) c = Some c' /\ writes v (kCoup i ch (fun b => b <? n) fm) c c'.
Proof.
  intros H. destruct (foldO_writes v F (fun l => kCoup i ch (Nat.eqb l) fm) (ext c) (upTo n)) with (c := c) as (c' & E & W); [|reflexivity|].
  { intros x a Hx Ha. apply H; [now apply upTo_in|exact Ha]. }
  exists c'. split; [exact E|]. eapply writes_ext; [|exact W]. intros [i' ch' b m|i' b m|w b m]; cbn; try apply existsb_false.
  rewrite existsb_and_r, existsb_and, existsb_upTo. reflexivity.
Qed.
Lemma loop_comp_m v i (fb : nat -> bool) n F c :
  (forall l a, l < n -> ext a = ext c -> exists a', F l a = Some a' /\ writes v (kComp i fb (Nat.eqb l)) a a') ->
  exists c', foldO F (upTo n) c = Some c' /\ writes v (kComp i fb (fun m => m <? n)) c c'.
Proof.
  intros H. destruct (foldO_writes v F (fun l => kComp i fb (Nat.eqb l)) (ext c) (upTo n)) with (c := c) as (c' & E & W); [|reflexivity|].
  { intros x a Hx Ha. apply H; [now apply upTo_in|exact Ha]. }
  exists c'. split; [exact E|]. eapply writes_ext; [|exact W]. intros [i' ch' b m|i' b m|w b m]; cbn; try apply existsb_false.
  now rewrite existsb_and, existsb_upTo.
Qed.
Lemma loop_comp_b v i (fm : nat -> bool) n F c :
  (forall l a, l < n -> ext a = ext c -> exists a', F l a = Some a' /\ writes v (kComp i (Nat.eqb l) fm) a a') ->
  exists c', foldO F (upTo n) c = Some c' /\ writes v (kComp i (fun b => b <? n) fm) c c'.
Proof.
  intros H. destruct (foldO_writes v F (fun l => kComp i (Nat.eqb l) fm) (ext c) (upTo n)) with (c := c) as (c' & E & W); [|reflexivity|].
  { intros x a Hx Ha. apply H; [now apply upTo_in|exact Ha]. }
  exists c'. split; [exact E|]. eapply writes_ext; [|exact W]. intros [i' ch' b m|i' b m|w b m]; cbn; try apply existsb_false.
  rewrite existsb_and_r, existsb_and, existsb_upTo. reflexivity.
Qed.
Lemma loop_prod_m v (fw fb : nat -> bool) n F c :
  (forall l a, l < n -> ext a = ext c -> exists a', F l a = Some a' /\ writes v (kProd fw fb (Nat.eqb l)) a a') ->
  exists c', foldO F (upTo n) c = Some c' /\ writes v (kProd fw fb (fun m => m <? n)) c c'.
Proof.
  intros H. destruct (foldO_writes v F (fun l => kProd fw fb (Nat.eqb l)) (ext c) (upTo n)) with (c := c) as (c' & E & W); [|reflexivity|].
  { intros x a Hx Ha. apply H; [now apply upTo_in|exact Ha]. }
  exists c'. split; [exact E|]. eapply writes_ext; [|exact W]. intros [i' ch' b m|i' b m|w b m]; cbn; try apply existsb_false.
  now rewrite existsb_and, existsb_upTo.
Qed.
Lemma loop_prod_b v (fw fm : nat -> bool) n F c :
  (forall l a, l < n -> ext a = ext c -> exists a', F l a = Some a' /\ writes v (kProd fw (Nat.eqb l) fm) a a') ->
  exists c', foldO F (upTo n) c = Some c' /\ writes v (kProd fw (fun b => b <? n) fm) c c'.
Proof.
  intros H. destruct (foldO_writes v F (fun l => kProd fw (Nat.eqb l) fm) (ext c) (upTo n)) with (c := c) as (c' & E & W); [|reflexivity|].
  { intros x a Hx Ha. apply H; [now apply upTo_in|exact Ha]. }
  exists c'. split; [exact E|]. eapply writes_ext; [|exact W]. intros [i' ch' b m|i' b m|w b m]; cbn; try apply existsb_false.
  rewrite existsb_and_r, existsb_and, existsb_upTo. reflexivity.
Qed.
Lemma loop_prod_w v (fb fm : nat -> bool) n F c :
  (forall l a, l < n -> ext a = ext c -> exists a', F l a = Some a' /\ writes v (kProd (Nat.eqb l) fb fm) a a') ->
  exists c', foldO F (upTo n) c = Some c' /\ writes v (kProd (fun w => w <? n) fb fm) c c'.
Proof.
  intros H. destruct (foldO_writes v F (fun l => kProd (Nat.eqb l) fb fm) (ext c) (upTo n)) with (c := c) as (c' & E & W); [|reflexivity|].
  { intros x a Hx Ha. apply H; [now apply upTo_in|exact Ha]. }
  exists c'. split; [exact E|]. eapply writes_ext; [|exact W]. intros [i' ch' b m|i' b m|w b m]; cbn; try apply existsb_false.
  rewrite !existsb_and_r, existsb_upTo. reflexivity.
Qed.

Lemma hit_some j n : hit (Some j) n = Nat.eqb j.
Proof. extensionality i. cbn. apply Nat.eqb_sym. Qed.
Lemma hit_none n : hit None n = (fun i => i <? n). Proof. reflexivity. Qed.

Lemma setCoupling_ok i ch b m v c : i < xComps c -> ch < xChans c -> okI b (xBins c) -> okI m (xMass c) ->
  exists c', setCoupling i ch b m v c = Some c' /\ writes v (kCoup i ch (hit b (xBins c)) (hit m (xMass c))) c c'.
Proof.
  intros Hi Hc Hb Hm. unfold setCoupling. destruct b as [b|], m as [m|]; cbn [okI] in *; rewrite ?hit_some, ?hit_none.
  - now apply wrCoup_ok.
  - apply loop_coup_m. intros l a Hl Ha. apply ext5 in Ha as (A1 & A2 & A3 & A4 & A5). apply wrCoup_ok; lia.
  - apply loop_coup_b. intros l a Hl Ha. apply ext5 in Ha as (A1 & A2 & A3 & A4 & A5). apply wrCoup_ok; lia.
  - apply loop_coup_b. intros l a Hl Ha. apply ext5 in Ha as (A1 & A2 & A3 & A4 & A5). rewrite <- A5.
    apply loop_coup_m. intros l' a' Hl' Ha'. apply ext5 in Ha' as (B1 & B2 & B3 & B4 & B5). apply wrCoup_ok; lia.
Qed.
Lemma setComponent_ok i b m v c : i < xComps c -> okI b (xBins c) -> okI m (xMass c) ->
  exists c', setComponent i b m v c = Some c' /\ writes v (kComp i (hit b (xBins c)) (hit m (xMass c))) c c'.
Proof.
  intros Hi Hb Hm. unfold setComponent. destruct b as [b|], m as [m|]; cbn [okI] in *; rewrite ?hit_some, ?hit_none.
  - now apply wrComp_ok.
  - apply loop_comp_m. intros l a Hl Ha. apply ext5 in Ha as (A1 & A2 & A3 & A4 & A5). apply wrComp_ok; lia.
  - apply loop_comp_b. intros l a Hl Ha. apply ext5 in Ha as (A1 & A2 & A3 & A4 & A5). apply wrComp_ok; lia.
  - apply loop_comp_b. intros l a Hl Ha. apply ext5 in Ha as (A1 & A2 & A3 & A4 & A5). rewrite <- A5.
    apply loop_comp_m. intros l' a' Hl' Ha'. apply ext5 in Ha' as (B1 & B2 & B3 & B4 & B5). apply wrComp_ok; lia.
Qed.
Lemma setProdAmp_ok w b m v c : okI w (xWaves c) -> okI b (xBins c) -> okI m (xMass c) ->
  exists c', setProdAmp w b m v c = Some c' /\ writes v (kProd (hit w (xWaves c)) (hit b (xBins c)) (hit m (xMass c))) c c'.
Proof.
  intros Hw Hb Hm. unfold setProdAmp. destruct w as [w|], b as [b|], m as [m|]; cbn [okI] in *; rewrite ?hit_some, ?hit_none.
  - now apply wrProd_ok.
  - apply loop_prod_m. intros l a Hl Ha. apply ext5 in Ha as (A1 & A2 & A3 & A4 & A5). apply wrProd_ok; lia.
  - apply loop_prod_b. intros l a Hl Ha. apply ext5 in Ha as (A1 & A2 & A3 & A4 & A5). apply wrProd_ok; lia.
  - apply loop_prod_b. intros l a Hl Ha. apply ext5 in Ha as (A1 & A2 & A3 & A4 & A5). rewrite <- A5.
    apply loop_prod_m. intros l' a' Hl' Ha'. apply ext5 in Ha' as (B1 & B2 & B3 & B4 & B5). apply wrProd_ok; lia.
  - apply loop_prod_w. intros l a Hl Ha. apply ext5 in Ha as (A1 & A2 & A3 & A4 & A5). apply wrProd_ok; lia.
  - apply loop_prod_w. intros l a Hl Ha. apply ext5 in Ha as (A1 & A2 & A3 & A4 & A5). rewrite <- A5.
    apply loop_prod_m. intros l' a' Hl' Ha'. apply ext5 in Ha' as (B1 & B2 & B3 & B4 & B5). apply wrProd_ok; lia.
  - apply loop_prod_w. intros l a Hl Ha. apply ext5 in Ha as (A1 & A2 & A3 & A4 & A5). rewrite <- A4.
    apply loop_prod_b. intros l' a' Hl' Ha'. apply ext5 in Ha' as (B1 & B2 & B3 & B4 & B5). apply wrProd_ok; lia.
  - apply loop_prod_w. intros l a Hl Ha. apply ext5 in Ha as (A1 & A2 & A3 & A4 & A5). rewrite <- A4, <- A5.
    apply loop_prod_b. intros l' a' Hl' Ha'. apply ext5 in Ha' as (B1 & B2 & B3 & B4 & B5). rewrite <- B5.
    apply loop_prod_m. intros l'' a'' Hl'' Ha''. apply ext5 in Ha'' as (D1 & D2 & D3 & D4 & D5). apply wrProd_ok; lia.
Qed.

(* ---------------- specification ---------------- *)
(* an index argument selects position i: the marker "all" selects every position *)
Definition selects (x : option nat) (i : nat) : Prop := match x with None => True | Some j => i = j end.
(* a set call and the cells it addresses *)
Inductive setcall := SCoup (i ch : nat) (b m : option nat) (v : C) | SComp (i : nat) (b m : option nat) (v : C) | SProd (w b m : option nat) (v : C).
Definition addresses (s : setcall) (k : cell) : Prop :=
  match s, k with
  | SCoup i ch b m _, KCoup i' ch' b' m' => i' = i /\ ch' = ch /\ selects b b' /\ selects m m'
  | SComp i b m _, KComp i' b' m' => i' = i /\ selects b b' /\ selects m m'
  | SProd w b m _, KProd w' b' m' => selects w w' /\ selects b b' /\ selects m m'
  | _, _ => False
  end.
Definition value (s : setcall) : C := match s with SCoup _ _ _ _ v => v | SComp _ _ _ v => v | SProd _ _ _ v => v end.
Definition inRange (s : setcall) (c : rcache) : Prop :=
  match s with
  | SCoup i ch b m _ => i < xComps c /\ ch < xChans c /\ okI b (xBins c) /\ okI m (xMass c)
  | SComp i b m _ => i < xComps c /\ okI b (xBins c) /\ okI m (xMass c)
  | SProd w b m _ => okI w (xWaves c) /\ okI b (xBins c) /\ okI m (xMass c)
  end.
Definition doSet (s : setcall) (c : rcache) : option rcache :=
  match s with
  | SCoup i ch b m v => setCoupling i ch b m v c
  | SComp i b m v => setComponent i b m v c
  | SProd w b m v => setProdAmp w b m v c
  end.

Lemma hit_iff x n i : i < n -> hit x n i = true <-> selects x i.
Proof. intros H. destruct x; unfold hit, selects; [apply Nat.eqb_eq|rewrite Nat.ltb_lt; tauto]. Qed.

(* every set call inside the extents succeeds, sets all addressed cells to the value and leaves all
   other cells of all three arrays alone *)
Theorem C53_set_exact : forall s c, inRange s c -> exists c', doSet s c = Some c' /\ ext c' = ext c /\
  forall k, inside c k -> (addresses s k -> readCell c' k = value s) /\ (~ addresses s k -> readCell c' k = readCell c k).
Proof.
  intros s c H. destruct s as [i ch b m v|i b m v|w b m v]; cbn [inRange doSet value addresses] in *.
  - destruct H as (H1 & H2 & H3 & H4). destruct (setCoupling_ok i ch b m v c H1 H2 H3 H4) as (c' & E & W & X).
    exists c'. split; [exact E|]. split; [exact X|]. intros k Hk. rewrite W. destruct k as [i' ch' b' m'|i' b' m'|w' b' m']; cbn [kCoup]; [|tauto|tauto].
    cbn in Hk. destruct Hk as (K1 & K2 & K3 & K4). rewrite <- (hit_iff b (xBins c) b'), <- (hit_iff m (xMass c) m'), <- (Nat.eqb_eq i'), <- (Nat.eqb_eq ch') by assumption.
    destruct (i' =? i), (ch' =? ch), (hit b (xBins c) b'), (hit m (xMass c) m'); cbn; split; intros; try reflexivity; intuition congruence.
  - destruct H as (H1 & H3 & H4). destruct (setComponent_ok i b m v c H1 H3 H4) as (c' & E & W & X).
    exists c'. split; [exact E|]. split; [exact X|]. intros k Hk. rewrite W. destruct k as [i' ch' b' m'|i' b' m'|w' b' m']; cbn [kComp]; [tauto| |tauto].
    cbn in Hk. destruct Hk as (K1 & K3 & K4). rewrite <- (hit_iff b (xBins c) b'), <- (hit_iff m (xMass c) m'), <- (Nat.eqb_eq i') by assumption.
    destruct (i' =? i), (hit b (xBins c) b'), (hit m (xMass c) m'); cbn; split; intros; try reflexivity; intuition congruence.
  - destruct H as (H1 & H3 & H4). destruct (setProdAmp_ok w b m v c H1 H3 H4) as (c' & E & W & X).
    exists c'. split; [exact E|]. split; [exact X|]. intros k Hk. rewrite W. destruct k as [i' ch' b' m'|i' b' m'|w' b' m']; cbn [kProd]; [tauto|tauto|].
    cbn in Hk. destruct Hk as (K1 & K3 & K4). rewrite <- (hit_iff b (xBins c) b'), <- (hit_iff m (xMass c) m'), <- (hit_iff w (xWaves c) w') by assumption.
    destruct (hit w (xWaves c) w'), (hit b (xBins c) b'), (hit m (xMass c) m'); cbn; split; intros; try reflexivity; intuition congruence.
Qed.


Lemma inRange_ext s c d : ext d = ext c -> inRange s c -> inRange s d.
Proof. intros H. apply ext5 in H as (A1 & A2 & A3 & A4 & A5). destruct s; cbn; rewrite ?A1, ?A2, ?A3, ?A4, ?A5; auto. Qed.
Lemma inside_ext k c d : ext d = ext c -> inside c k -> inside d k.
Proof. intros H. apply ext5 in H as (A1 & A2 & A3 & A4 & A5). destruct k; cbn; rewrite ?A1, ?A2, ?A3, ?A4, ?A5; auto. Qed.
Lemma sets_ext c0 h : forall d, ext d = ext c0 -> Forall (fun s => inRange s c0) h ->
  exists c, foldO doSet h d = Some c /\ ext c = ext c0.
Proof.
  induction h as [|s h IH]; intros d Hd H.
  - exists d. split; [reflexivity|exact Hd].
  - apply Forall_cons_iff in H as [H1 H2]. destruct (C53_set_exact s d) as (d' & E & X & _); [now apply inRange_ext with c0|].
    destruct (IH d') as (c & Ec & Xc); [congruence|exact H2|]. exists c. cbn [foldO]. rewrite E. cbn [bnd]. auto.
Qed.
Lemma addresses_dec s k : {addresses s k} + {~ addresses s k}.
Proof.
  destruct s as [i ch b m v|i b m v|w b m v], k as [i' ch' b' m'|i' b' m'|w' b' m']; cbn; try (right; tauto).
  - destruct (Nat.eq_dec i' i), (Nat.eq_dec ch' ch), b as [b|], m as [m|]; cbn;
      try destruct (Nat.eq_dec b' b); try destruct (Nat.eq_dec m' m); (left; tauto) || (right; tauto).
  - destruct (Nat.eq_dec i' i), b as [b|], m as [m|]; cbn;
      try destruct (Nat.eq_dec b' b); try destruct (Nat.eq_dec m' m); (left; tauto) || (right; tauto).
  - destruct w as [w|], b as [b|], m as [m|]; cbn; try destruct (Nat.eq_dec w' w);
      try destruct (Nat.eq_dec b' b); try destruct (Nat.eq_dec m' m); (left; tauto) || (right; tauto).
Qed.

(* every history of set calls on a new cache: a cell holds the value of the last call that addressed
   it, and 0 if there was none *)
Theorem C53_last_write : forall nw nc nch nb nm h, Forall (fun s => inRange s (newCache nw nc nch nb nm)) h ->
  exists c, foldO doSet h (newCache nw nc nch nb nm) = Some c /\ ext c = (nw, nc, nch, nb, nm) /\
  forall k, inside c k ->
    (forall h1 s h2, h = h1 ++ s :: h2 -> addresses s k -> Forall (fun s' => ~ addresses s' k) h2 -> readCell c k = value s) /\
    (Forall (fun s' => ~ addresses s' k) h -> readCell c k = RtoC 0).
Proof.
  intros nw nc nch nb nm h. set (c0 := newCache nw nc nch nb nm). intros H.
  assert (Q : forall h, Forall (fun s => inRange s c0) h -> forall c, foldO doSet h c0 = Some c -> forall k, inside c0 k ->
    (forall h1 s h2, h = h1 ++ s :: h2 -> addresses s k -> Forall (fun s' => ~ addresses s' k) h2 -> readCell c k = value s) /\
    (Forall (fun s' => ~ addresses s' k) h -> readCell c k = RtoC 0)).
  { clear h H. induction h as [|s h IH] using rev_ind; intros H c Hc k Hk.
    - injection Hc as <-. split; [intros h1 s h2 E; destruct h1; discriminate E|]. intros _. now destruct k.
    - apply Forall_app in H as [H Hs]. apply Forall_cons_iff in Hs as [Hs _].
      destruct (sets_ext c0 h c0 eq_refl H) as (d & Ed & Xd).
      rewrite foldO_app, Ed in Hc. cbn [bnd foldO] in Hc.
      destruct (C53_set_exact s d) as (d' & E & X & G); [now apply inRange_ext with c0|].
      rewrite E in Hc. cbn [bnd] in Hc. injection Hc as <-.
      destruct (G k ltac:(now apply inside_ext with c0)) as [G1 G2]. destruct (IH H d Ed k Hk) as [I1 I2]. split.
      + intros h1 s' h2 Eh Ha Hn. destruct (exists_last (l := s' :: h2)) as (l' & z & El); [discriminate|].
        rewrite El, app_assoc in Eh. apply app_inj_tail in Eh as [-> ->]. destruct l' as [|y l'].
        * cbn in El. injection El as <- _. now apply G1.
        * cbn in El. injection El as <- El. subst h2. apply Forall_app in Hn as [Hn Hz]. apply Forall_cons_iff in Hz as [Hz _].
          rewrite (G2 Hz). now apply (I1 h1 s' l').
      + intros Hn. apply Forall_app in Hn as [Hn Hz]. apply Forall_cons_iff in Hz as [Hz _]. rewrite (G2 Hz). now apply I2. }
  destruct (sets_ext c0 h c0 eq_refl H) as (c & Ec & Xc). exists c. split; [exact Ec|]. split; [exact Xc|].
  intros k Hk. apply (Q h H c Ec). now apply inside_ext with c.
Qed.

Example C53_ex : Forall (fun s => inRange s (newCache 3 2 4 2 5))
  [SProd None None None (RtoC 1); SCoup 1 3 None (Some 4) (RtoC 2); SProd (Some 2) (Some 1) None (RtoC 3); SComp 0 None None (RtoC 4)].
Proof. repeat (apply Forall_cons || apply Forall_nil); cbn; lia. Qed.
