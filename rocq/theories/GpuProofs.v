(* Proofs about GpuModel: kernel launches are deterministic, strided sums, grids. *)
From Coq Require Import List ZArith Reals Bool Lia Lra Permutation.
From Coquelicot Require Import Complex.
From Verif Require Import ArrayModel ArraySpec ArrayProofs CGBoxModel CGBoxProofs FitErrModel LikParModel LikModel SumAccProofs LikSetProofs GpuModel.
Import ListNotations.
Open Scope nat_scope.

(* all executions of m end with the value v *)
Definition det {A} (m : runs A) (v : A) : Prop := forall r, m r <-> r = Some v.
(* all executions of m are undefined *)
Definition undef {A} (m : runs A) : Prop := forall r, m r <-> r = None.
Lemma rbind_det {A B} (m : runs A) a (f : A -> runs B) r : det m a -> (rbind m f r <-> f a r).
Proof.
  intros H. unfold rbind. split.
  - intros [[H1 _]|(x & H1 & H2)]; [now apply H in H1|]. apply H in H1. congruence.
  - intros Hf. right. exists a. split; [now apply H|exact Hf].
Qed.
Lemma rbind_undef {A B} (m : runs A) (f : A -> runs B) : undef m -> undef (rbind m f).
Proof.
  intros H r. unfold rbind. split.
  - intros [[_ H1]|(x & H1 & H2)]; [exact H1|]. apply H in H1. discriminate.
  - intros ->. left. split; [now apply H|reflexivity].
Qed.
Lemma det_lift {A} (x : option A) v : x = Some v -> det (rlift x) v.
Proof. intros -> r. reflexivity. Qed.
Lemma undef_lift {A} (x : option A) : x = None -> undef (rlift x).
Proof. intros -> r. reflexivity. Qed.

(* ---- interleavings ---- *)
Lemma interleaving_perm {W} (ls : list (list W)) r : interleaving ls r -> Permutation r (concat ls).
Proof.
  induction 1 as [ls H|pre x l post r H IH].
  - induction H as [|l ls -> _ IH]; [constructor|]. cbn. exact IH.
  - rewrite concat_app in *. cbn [concat] in *. rewrite <- app_comm_cons.
    apply Permutation_cons_app. exact IH.
Qed.
Lemma interleaving_concat {W} (ls : list (list W)) : forall pre, Forall (fun l => l = []) pre -> interleaving (pre ++ ls) (concat ls).
Proof.
  induction ls as [|l ls IH]; intros pre Hp.
  - cbn. apply il_done. now rewrite app_nil_r.
  - induction l as [|x l IHl].
    + cbn [concat app]. replace (pre ++ [] :: ls) with ((pre ++ [[]]) ++ ls) by (now rewrite <- app_assoc).
      apply IH. apply Forall_app. split; [exact Hp|repeat constructor].
    + cbn [concat app] in *. apply il_step. exact IHl.
Qed.

(* ---- device arrays ---- *)
Lemma dwrite_spec {T} (w : nat * T) a : fst w < length a -> exists a', dwrite w a = Some a' /\ length a' = length a
  /\ dread a' (fst w) = Some (snd w) /\ forall j, j <> fst w -> dread a' j = dread a j.
Proof.
  intros H. unfold dwrite. destruct (wr_spec a (fst w) (Some (snd w)) H) as (a' & E & _). exists a'. split; [exact E|].
  split; [now rewrite (wr_length _ _ _ _ E)|]. unfold dread. split; [now rewrite (rd_wr_same _ _ _ _ E)|].
  intros j Hj. now rewrite (rd_wr_other _ _ _ _ _ E Hj).
Qed.
Lemma dwrites_spec {T} (l : list (nat * T)) : forall a, NoDup (map fst l) -> (forall w, In w l -> fst w < length a) ->
  exists a', foldO dwrite l a = Some a' /\ length a' = length a /\ (forall w, In w l -> dread a' (fst w) = Some (snd w))
    /\ forall j, ~ In j (map fst l) -> rd a' j = rd a j.
Proof.
  induction l as [|w l IH]; intros a HN Hr.
  - exists a. repeat split. intros w [].
  - cbn [map] in HN. apply NoDup_cons_iff in HN as [Hw HN].
    assert (Hlt := Hr w (or_introl eq_refl)). cbn [foldO].
    destruct (wr_spec a (fst w) (Some (snd w)) Hlt) as (a1 & E & _). unfold dwrite at 1. rewrite E. cbn [bnd].
    assert (L1 := wr_length _ _ _ _ E).
    destruct (IH a1 HN) as (a' & E' & L & R & O). { intros v Hv. rewrite L1. apply Hr. now right. }
    exists a'. split; [exact E'|]. split; [congruence|]. split.
    + intros v [<-|Hv]; [|now apply R]. unfold dread. rewrite O by exact Hw. now rewrite (rd_wr_same _ _ _ _ E).
    + cbn [map In]. intros j Hj. rewrite O by (intros h; apply Hj; now right). apply (rd_wr_other _ _ _ _ _ E). intros ->. apply Hj. now left.
Qed.
Lemma list_ext {A} (a b : list A) : length a = length b -> (forall i, i < length a -> rd a i = rd b i) -> a = b.
Proof.
  revert b. induction a as [|x a IH]; intros [|y b] L H; try discriminate; [reflexivity|].
  assert (H0 := H 0 ltac:(cbn; lia)). cbn in H0. injection H0 as ->. f_equal. apply IH; [cbn in L; lia|].
  intros i Hi. exact (H (S i) ltac:(cbn; lia)).
Qed.
Lemma dwrites_perm {T} (l l' : list (nat * T)) a : NoDup (map fst l) -> (forall w, In w l -> fst w < length a) -> Permutation l' l ->
  foldO dwrite l' a = foldO dwrite l a.
Proof.
  intros HN Hr HP. assert (HN' : NoDup (map fst l')). { eapply Permutation_NoDup; [|exact HN]. apply Permutation_map. now symmetry. }
  destruct (dwrites_spec l a HN Hr) as (a1 & E1 & L1 & R1 & O1).
  destruct (dwrites_spec l' a HN') as (a2 & E2 & L2 & R2 & O2). { intros w Hw. apply Hr. eapply Permutation_in; eauto. }
  rewrite E1, E2. f_equal. apply list_ext; [congruence|]. intros i Hi. rewrite L2 in Hi.
  destruct (in_dec Nat.eq_dec i (map fst l)) as [H|H].
  - apply in_map_iff in H as (w & <- & Hw). assert (A1 := R1 w Hw). assert (A2 := R2 w ltac:(eapply Permutation_in; [symmetry|]; eauto)).
    unfold dread in *. destruct (rd a1 (fst w)) as [c|]; [|discriminate]. destruct (rd a2 (fst w)) as [d|]; [|discriminate]. cbn in *. congruence.
  - rewrite O1 by exact H. apply O2. intros H2. apply H. eapply Permutation_in; [|exact H2]. now apply Permutation_map.
Qed.

(* ---- launches ---- *)
Definition gridOk (dv : device) (k : kernel) (grid : nat * nat) : Prop :=
  1 <= fst grid <= dvMaxGrid dv /\ 1 <= snd grid <= dvMaxThreads dv k.
Lemma collect_some {A B} (f : A -> option B) (g : A -> B) l : (forall x, In x l -> f x = Some (g x)) -> collect f l = Some (map g l).
Proof.
  induction l as [|x l IH]; intros H; [reflexivity|]. cbn [collect map]. rewrite H by now left. cbn [bnd].
  rewrite IH by (intros; apply H; now right). reflexivity.
Qed.
Lemma launch_fold {W Mem} dv k grid (thread : nat -> nat -> option (list W)) (apply : W -> Mem -> option Mem) mem (ws : nat -> list W) m' :
  gridOk dv k grid -> (forall id, id < fst grid * snd grid -> thread id (fst grid * snd grid) = Some (ws id)) ->
  (forall order, Permutation order (flat_map ws (seq 0 (fst grid * snd grid))) -> foldO apply order mem = Some m') ->
  det (launch dv k grid thread apply mem) m'.
Proof.
  intros [Hb Ht] Hth HF r. unfold launch. destruct grid as [b t]. cbn [fst snd] in *.
  replace ((1 <=? b) && (b <=? dvMaxGrid dv) && (1 <=? t) && (t <=? dvMaxThreads dv k)) with true
    by (symmetry; repeat (apply andb_true_intro; split); apply Nat.leb_le; lia).
  rewrite (collect_some _ ws) by (intros id Hid; apply in_seq in Hid; apply Hth; lia).
  assert (EC : concat (map ws (seq 0 (b * t))) = flat_map ws (seq 0 (b * t))) by (symmetry; apply flat_map_concat_map).
  split.
  - intros (order & Hi & ->). apply HF. apply interleaving_perm in Hi. now rewrite EC in Hi.
  - intros ->. exists (concat (map ws (seq 0 (b * t)))). split; [exact (interleaving_concat _ [] (Forall_nil _))|]. symmetry. apply HF. now rewrite EC.
Qed.
Lemma launch_det {T} dv k grid thread (mem : devArray T) (ws : nat -> list (nat * T)) :
  gridOk dv k grid -> (forall id, id < fst grid * snd grid -> thread id (fst grid * snd grid) = Some (ws id)) ->
  NoDup (map fst (flat_map ws (seq 0 (fst grid * snd grid)))) ->
  (forall id w, id < fst grid * snd grid -> In w (ws id) -> fst w < length mem) ->
  exists mem', det (launch dv k grid thread dwrite mem) mem' /\ length mem' = length mem
    /\ (forall id w, id < fst grid * snd grid -> In w (ws id) -> dread mem' (fst w) = Some (snd w)).
Proof.
  intros Hg Hth HN Hr. set (l := flat_map ws (seq 0 (fst grid * snd grid))) in *.
  assert (Hr' : forall w, In w l -> fst w < length mem).
  { intros w Hw. apply in_flat_map in Hw as (id & Hid & Hw). apply in_seq in Hid. apply (Hr id); [lia|exact Hw]. }
  destruct (dwrites_spec l mem HN Hr') as (a & E & L & R & _). exists a. split; [|split; [exact L|]].
  - apply (launch_fold _ _ _ _ _ _ ws); auto. intros order HP. fold l in HP. rewrite <- E. now apply dwrites_perm.
  - intros id w Hid Hw. apply R. apply in_flat_map. exists id. split; [apply in_seq; lia|exact Hw].
Qed.
Lemma launch_undef {W Mem} dv k grid (thread : nat -> nat -> option (list W)) (apply : W -> Mem -> option Mem) mem id :
  id < fst grid * snd grid -> thread id (fst grid * snd grid) = None -> undef (launch dv k grid thread apply mem).
Proof.
  intros Hid Hth r. unfold launch. destruct grid as [b t]. cbn [fst snd] in *.
  destruct (_ && _); [|reflexivity].
  assert (E : collect (fun id0 => thread id0 (b * t)) (seq 0 (b * t)) = None).
  { assert (Hin : In id (seq 0 (b * t))) by (apply in_seq; lia). revert Hin. generalize (seq 0 (b * t)). intros l. induction l as [|x l IH]; [intros []|].
    intros [->|H]; cbn [collect]; [now rewrite Hth|]. destruct (thread x (b * t)); [cbn [bnd]|reflexivity]. now rewrite IH. }
  now rewrite E.
Qed.

(* ---- monoids and compensated sums ---- *)
Record monoid {T} (ar : arith T) : Prop := Monoid {
  mo_assoc : forall a b c, plus ar (plus ar a b) c = plus ar a (plus ar b c);
  mo_comm : forall a b, plus ar a b = plus ar b a;
  mo_zero : forall a, plus ar a (zero ar) = a;
  mo_good : exists good : T * T -> Prop, good (zero ar, zero ar) /\
    forall v s, good s -> good (compensatedSum ar v s) /\ fst (compensatedSum ar v s) = plus ar (fst s) v }.
Definition goodD (s : double * double) : Prop := fst s = None \/ snd s = Some 0%R.
Lemma goodD_step v s : goodD s -> goodD (compensatedSum arD v s) /\ fst (compensatedSum arD v s) = dadd (fst s) v.
Proof.
  destruct s as [s c]. unfold goodD, compensatedSum, arD; cbn [fst snd plus minus zero]. destruct s as [x|].
  - intros [H|H]; [discriminate|]. subst c. destruct v as [y|]; cbn; [|split; [now left|reflexivity]]. split.
    + right. f_equal. ring.
    + f_equal. ring.
  - intros _. cbn. split; [now left|reflexivity].
Qed.
Lemma monoidD : monoid arD.
Proof.
  split; cbn.
  - intros [a|] [b|] [c|]; cbn; try reflexivity. f_equal. ring.
  - intros [a|] [b|]; cbn; try reflexivity. f_equal. ring.
  - intros [a|]; cbn; [|reflexivity]. f_equal. ring.
  - exists goodD. split; [now right|]. apply goodD_step.
Qed.
Definition halves (s : cplx * cplx) : (double * double) * (double * double) := ((fst (fst s), fst (snd s)), (snd (fst s), snd (snd s))).
Lemma comp_halves v s : halves (compensatedSum arC v s) = (compensatedSum arD (fst v) (fst (halves s)), compensatedSum arD (snd v) (snd (halves s))).
Proof. destruct v, s as [[? ?] [? ?]]. reflexivity. Qed.
Lemma monoidC : monoid arC.
Proof.
  split; cbn [plus arC zero].
  - intros [a b] [c d] [e f]. unfold cadd; cbn. f_equal; apply (mo_assoc _ monoidD).
  - intros [a b] [c d]. unfold cadd; cbn. f_equal; apply (mo_comm _ monoidD).
  - intros [a b]. unfold cadd; cbn. f_equal; apply (mo_zero _ monoidD).
  - exists (fun s => goodD (fst (halves s)) /\ goodD (snd (halves s))). split; [split; now right|].
    intros v s [H1 H2]. rewrite comp_halves. destruct (goodD_step (fst v) _ H1) as [A1 A2]. destruct (goodD_step (snd v) _ H2) as [B1 B2].
    split; [split; assumption|]. assert (E := comp_halves v s). apply (f_equal (fun p => (fst (fst p), fst (snd p)))) in E. cbn [fst snd] in E.
    rewrite A2, B2 in E. cbn [halves fst snd] in E. rewrite (surjective_pairing (fst (compensatedSum arC v s))). rewrite E. reflexivity.
Qed.

Section Mono.
  Context {T : Type} (ar : arith T) (M : monoid ar).
  (* sum of F over a list of indices *)
  Fixpoint lsum {I} (F : I -> T) (l : list I) : T := match l with [] => zero ar | i :: l' => plus ar (F i) (lsum F l') end.
  Lemma plus_zero_l a : plus ar (zero ar) a = a. Proof. rewrite (mo_comm _ M). apply (mo_zero _ M). Qed.
  Lemma lsum_app {I} (F : I -> T) l1 l2 : lsum F (l1 ++ l2) = plus ar (lsum F l1) (lsum F l2).
  Proof. induction l1 as [|x l IH]; cbn; [now rewrite plus_zero_l|]. rewrite IH. now rewrite (mo_assoc _ M). Qed.
  Lemma lsum_ext {I} (F G : I -> T) l : (forall i, In i l -> F i = G i) -> lsum F l = lsum G l.
  Proof. induction l as [|x l IH]; intros H; [reflexivity|]. cbn. rewrite H by now left. rewrite IH by (intros; apply H; now right). reflexivity. Qed.
  Lemma plus_swap a b c : plus ar a (plus ar b c) = plus ar b (plus ar a c).
  Proof. rewrite <- !(mo_assoc _ M). now rewrite (mo_comm _ M a b). Qed.
  Lemma plus_4 a b c d : plus ar (plus ar a b) (plus ar c d) = plus ar (plus ar a c) (plus ar b d).
  Proof. rewrite !(mo_assoc _ M). f_equal. apply plus_swap. Qed.
  Lemma lsum_zero {I} (l : list I) : lsum (fun _ => zero ar) l = zero ar.
  Proof. induction l as [|x l IH]; [reflexivity|]. cbn. now rewrite IH, plus_zero_l. Qed.
  Lemma lsum_plus {I} (F G : I -> T) l : lsum (fun i => plus ar (F i) (G i)) l = plus ar (lsum F l) (lsum G l).
  Proof. induction l as [|x l IH]; cbn; [now rewrite plus_zero_l|]. rewrite IH. apply plus_4. Qed.
  (* every index belongs to exactly one residue class *)
  Lemma lsum_classes (F : nat -> T) s l : 0 < s ->
    lsum (fun t => lsum F (filter (fun j => j mod s =? t) l)) (seq 0 s) = lsum F l.
  Proof.
    intros Hs. induction l as [|x l IH]; [cbn; apply lsum_zero|].
    rewrite (lsum_ext _ (fun t => plus ar (if x mod s =? t then F x else zero ar) (lsum F (filter (fun j => j mod s =? t) l)))).
    2:{ intros t _. cbn [filter]. destruct (x mod s =? t); cbn [lsum]; [reflexivity|now rewrite plus_zero_l]. }
    rewrite lsum_plus, IH. cbn [lsum]. f_equal.
    assert (Hx : x mod s < s) by (apply Nat.mod_upper_bound; lia).
    assert (ES : seq 0 s = seq 0 (x mod s) ++ x mod s :: seq (S (x mod s)) (s - S (x mod s))).
    { replace (seq 0 s) with (seq 0 (x mod s + S (s - S (x mod s)))) by (f_equal; lia). rewrite seq_app. reflexivity. }
    rewrite ES, lsum_app. cbn [lsum]. rewrite Nat.eqb_refl.
    rewrite (lsum_ext _ (fun _ => zero ar)). 2:{ intros t Ht. apply in_seq in Ht. destruct (Nat.eqb_spec (x mod s) t); [lia|reflexivity]. }
    rewrite lsum_zero, plus_zero_l.
    rewrite (lsum_ext _ (fun _ => zero ar)). 2:{ intros t Ht. apply in_seq in Ht. destruct (Nat.eqb_spec (x mod s) t); [lia|reflexivity]. }
    rewrite lsum_zero. apply (mo_zero _ M).
  Qed.

  (* compensated summation in a loop *)
  Lemma comp_fold {I} (body : I -> T * T -> option (T * T)) (F : I -> T) l :
    (forall i s, In i l -> body i s = Some (compensatedSum ar (F i) s)) ->
    exists c, foldO body l (zero ar, zero ar) = Some (lsum F l, c) /\ forall v, fst (compensatedSum ar v (lsum F l, c)) = plus ar (lsum F l) v.
  Proof.
    intros H. destruct (mo_good _ M) as (good & G0 & GS).
    assert (HH : forall l' s, (forall i, In i l' -> In i l) -> good s -> exists s', foldO body l' s = Some s' /\ good s' /\ fst s' = plus ar (fst s) (lsum F l')).
    { induction l' as [|i l' IH]; intros s Hl Hs.
      - exists s. split; [reflexivity|]. split; [exact Hs|]. cbn. now rewrite (mo_zero _ M).
      - cbn [foldO]. rewrite H by (apply Hl; now left). cbn [bnd]. destruct (GS (F i) s Hs) as [H1 H2].
        destruct (IH _ (fun j Hj => Hl j (or_intror Hj)) H1) as (s' & E & H3 & H4). exists s'. split; [exact E|]. split; [exact H3|].
        rewrite H4, H2. cbn [lsum]. apply (mo_assoc _ M). }
    destruct (HH l (zero ar, zero ar) (fun _ h => h) G0) as ([x c] & E & G & E2). cbn [fst] in E2. rewrite plus_zero_l in E2. subst x. exists c. split; [exact E|].
    intros v. apply (GS v _ G).
  Qed.
End Mono.

(* ---- strided loops ---- *)
Lemma foldO_ext {A B} (f g : B -> A -> option A) l a : (forall x a, In x l -> f x a = g x a) -> foldO f l a = foldO g l a.
Proof.
  revert a. induction l as [|x l IH]; intros a H; [reflexivity|]. cbn [foldO]. rewrite H by now left. destruct (g x a); [cbn [bnd]|reflexivity].
  apply IH. intros y b Hy. apply H. now right.
Qed.
Lemma filter_none {A} (p : A -> bool) l : (forall x, In x l -> p x = false) -> filter p l = [].
Proof. induction l as [|x l IH]; intros H; [reflexivity|]. cbn. rewrite H by now left. apply IH. intros; apply H; now right. Qed.
Lemma mod_next i s d : 0 < s -> 0 < d < s -> (i + d) mod s <> i mod s.
Proof.
  intros Hs Hd E. assert (H1 := Nat.div_mod_eq i s). assert (H2 := Nat.div_mod_eq (i + d) s). rewrite E in H2.
  destruct (Nat.le_gt_cases ((i + d) / s) (i / s)) as [H|H]; [assert (s * ((i + d) / s) <= s * (i / s)) by nia; lia|].
  assert (s * (i / s) + s <= s * ((i + d) / s)) by nia. lia.
Qed.
Lemma strided_list {A} (f : nat -> A -> option A) n s t : 0 < s -> forall fuel i a, n - i <= fuel -> i mod s = t ->
  strided fuel f i n s a = foldO f (filter (fun j => j mod s =? t) (seq i (n - i))) a.
Proof.
  intros Hs. induction fuel as [|k IH]; intros i a Hf Hi; cbn [strided].
  - destruct (Nat.ltb_spec i n); [lia|]. replace (n - i) with 0 by lia. reflexivity.
  - destruct (Nat.ltb_spec i n) as [Hlt|Hge]; [|replace (n - i) with 0 by lia; reflexivity].
    replace (n - i) with (S (n - i - 1)) by lia. cbn [seq filter]. rewrite Hi, Nat.eqb_refl. cbn [foldO].
    destruct (f i a) as [a'|]; [cbn [bnd]|reflexivity].
    rewrite IH; [|lia|]. 2:{ replace (i + s) with (i + 1 * s) by lia. rewrite Nat.mod_add by lia. exact Hi. }
    f_equal. set (m := n - i - 1). destruct (Nat.le_gt_cases m (s - 1)) as [Hm|Hm].
    + replace (n - (i + s)) with 0 by lia. cbn [seq filter]. symmetry. apply filter_none. intros j Hj. apply in_seq in Hj.
      apply Nat.eqb_neq. replace j with (i + (j - i)) by lia. rewrite <- Hi. apply mod_next; lia.
    + replace m with ((s - 1) + (n - (i + s))) by lia. rewrite seq_app, filter_app.
      rewrite (filter_none _ (seq (S i) (s - 1))). 2:{ intros j Hj. apply in_seq in Hj. apply Nat.eqb_neq. replace j with (i + (j - i)) by lia. rewrite <- Hi. apply mod_next; lia. }
      cbn [app]. now replace (S i + (s - 1)) with (i + s) by lia.
Qed.
Lemma strided_class {A} (f : nat -> A -> option A) n s t a : t < s ->
  strided n f t n s a = foldO f (filter (fun j => j mod s =? t) (seq 0 n)) a.
Proof.
  intros Ht. rewrite (strided_list f n s t) by (try lia; now apply Nat.mod_small).
  f_equal. destruct (Nat.le_gt_cases t n) as [Hn|Hn].
  - replace (seq 0 n) with (seq 0 (t + (n - t))) by (f_equal; lia). rewrite seq_app, filter_app, (filter_none _ (seq 0 t)).
    + now rewrite Nat.add_0_l.
    + intros j Hj. apply in_seq in Hj. apply Nat.eqb_neq. rewrite Nat.mod_small; lia.
  - replace (n - t) with 0 by lia. cbn [seq filter]. symmetry. apply filter_none. intros j Hj. apply in_seq in Hj. apply Nat.eqb_neq. rewrite Nat.mod_small; lia.
Qed.

(* ---- grids ---- *)
Definition deviceOk (dv : device) : Prop :=
  1 <= dvWarp dv /\ 1 <= dvMultiProc dv <= dvMaxGrid dv /\
  forall k, dvWarp dv <= dvMaxThreads dv k /\ dvMultiProc dv * dvMaxThreads dv k <= dvWarp dv * dvMaxGrid dv.
Lemma ceil_bounds a b : 0 < b -> 0 < a -> let q := if 0 <? a mod b then a / b + 1 else a / b in a <= q * b /\ 1 <= q /\ (forall c, a <= c * b -> q <= c).
Proof.
  intros Hb Ha. cbn zeta. assert (E := Nat.div_mod_eq a b). assert (a mod b < b) by (apply Nat.mod_upper_bound; lia).
  destruct (Nat.ltb_spec 0 (a mod b)); repeat split; try nia; intros c Hc; nia.
Qed.
Lemma round_down m w : 1 <= w -> w < m -> w <= m / w * w <= m.
Proof. intros Hw Hm. assert (E := Nat.div_mod_eq m w). assert (m mod w < w) by (apply Nat.mod_upper_bound; lia). assert (1 <= m / w) by (apply Nat.div_le_lower_bound; lia). nia. Qed.
Lemma grid_spec dv k n : deviceOk dv -> n <= dvWarp dv * dvMaxGrid dv -> exists grid,
  estimateOptimumKernelGrid dv k n = Some grid /\ gridOk dv k grid /\ n <= fst grid * snd grid
  /\ (n = 0 -> fst grid * snd grid <= dvWarp dv * dvMaxGrid dv).
Proof.
  intros (Hw & Hp & Hk) Hn. destruct (Hk k) as [Hkw Hkt]. unfold estimateOptimumKernelGrid.
  destruct (Nat.eqb_spec (dvWarp dv) 0); [lia|]. set (w := dvWarp dv) in *. set (m := dvMaxThreads dv k) in *. set (B := dvMultiProc dv) in *.
  set (maxT := if w <? m then m / w * w else m).
  assert (HT : w <= maxT <= m). { unfold maxT. destruct (Nat.ltb_spec w m); [now apply round_down|lia]. }
  destruct (Nat.eqb_spec n 0) as [->|Hn0].
  - exists (B, maxT). split; [reflexivity|]. unfold gridOk; cbn [fst snd]. split; [lia|]. split; [lia|]. intros _. nia.
  - destruct (Nat.eqb_spec maxT 0); [lia|]. destruct (Nat.eqb_spec B 0); [lia|]. cbn [orb].
    destruct (Nat.leb_spec B (n / maxT)) as [H|H].
    + destruct (ceil_bounds n maxT ltac:(lia) ltac:(lia)) as (C1 & C2 & C3). eexists. split; [reflexivity|]. unfold gridOk; cbn [fst snd].
      split; [|split; [exact C1|lia]]. split; [|lia]. split; [exact C2|]. apply C3. nia.
    + set (t1 := if 0 <? n mod B then n / B + 1 else n / B). set (t := if w <? t1 then t1 / w * w else w).
      destruct (ceil_bounds n B ltac:(lia) ltac:(lia)) as (A1 & A2 & A3). fold t1 in A1, A2, A3.
      assert (Hlt : n < B * maxT). { assert (E := Nat.div_mod_eq n maxT). assert (n mod maxT < maxT) by (apply Nat.mod_upper_bound; lia). nia. }
      assert (Ht1 : t1 <= maxT) by (apply A3; nia).
      assert (Ht : w <= t <= m). { unfold t. destruct (Nat.ltb_spec w t1); [|lia]. assert (R := round_down t1 w Hw ltac:(lia)). lia. }
      destruct (ceil_bounds n t ltac:(lia) ltac:(lia)) as (C1 & C2 & C3). eexists. split; [reflexivity|]. unfold gridOk; cbn [fst snd].
      split; [|split; [exact C1|lia]]. split; [|lia]. split; [exact C2|]. apply C3. nia.
Qed.
