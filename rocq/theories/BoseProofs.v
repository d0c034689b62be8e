(* Proofs for C51 and C66. *)
From Coq Require Import String Ascii List ZArith Bool Reals Lia Permutation Sorted.
From Coquelicot Require Import Complex.
From Verif Require Import PathModel StrModel CGBoxModel BoseModel.
Import ListNotations.
Open Scope list_scope. Open Scope nat_scope.

(* ---------------- next_permutation enumerates all permutations in order ---------------- *)
Fixpoint picksFrom (pre t : list nat) : list (nat * list nat) :=
  match t with [] => [] | x :: t' => (x, pre ++ t') :: picksFrom (pre ++ [x]) t' end.
Fixpoint lexPerms (n : nat) (l : list nat) : list (list nat) :=
  match n with 0 => [[]] | S n' => flat_map (fun p => map (cons (fst p)) (lexPerms n' (snd p))) (picksFrom [] l) end.

Fixpoint linked (L : list (list nat)) (e : list nat * bool) : Prop :=
  match L with
  | [] => False
  | a :: t => match t with [] => nextPerm a = e | b :: _ => nextPerm a = (b, true) /\ linked t e end
  end.
Lemma linked_cons a b t e : linked (a :: b :: t) e <-> nextPerm a = (b, true) /\ linked (b :: t) e.
Proof. reflexivity. Qed.
Lemma linked_app L1 b L2 e : linked L1 (b, true) -> linked (b :: L2) e -> linked (L1 ++ b :: L2) e.
Proof.
  induction L1 as [|a L1 IH]; intros H1 H2; [destruct H1|]. destruct L1 as [|a' L1].
  - cbn in H1. cbn [app]. apply linked_cons. auto.
  - apply linked_cons in H1 as [H H1]. cbn [app] in *. apply linked_cons. auto.
Qed.
Lemma linked_map x L stop : linked L (stop, false) ->
  linked (map (cons x) L) (match swapGreater x stop with Some (y, s) => (y :: s, true) | None => (stop ++ [x], false) end).
Proof.
  induction L as [|a L IH]; intros H; [destruct H|]. destruct L as [|b L].
  - cbn in H. cbn. rewrite H. reflexivity.
  - apply linked_cons in H as [H1 H2]. cbn [map]. apply linked_cons. split; [|now apply IH]. cbn [nextPerm]. now rewrite H1.
Qed.
Definition asc (l : list nat) : Prop := StronglySorted lt l.
Lemma asc_mid pre x t : asc (pre ++ x :: t) -> asc (pre ++ t) /\ Forall (fun z => z < x) pre /\ Forall (fun z => x < z) t.
Proof.
  unfold asc. induction pre as [|y pre IH]; intros H.
  - cbn in H. inversion H; subst. auto.
  - cbn in H. inversion H as [|? ? H1 H2]; subst. destruct (IH H1) as (A & B & D). apply Forall_app in H2 as [F1 F2]. apply Forall_cons_iff in F2 as [F2 F3].
    cbn [app]. split; [|split; [|exact D]].
    + constructor; [exact A|]. apply Forall_app. auto.
    + constructor; auto.
Qed.
Lemma swapGreater_pre x pre t : Forall (fun z => z < x) pre -> swapGreater x (pre ++ t) = match swapGreater x t with Some (z, t') => Some (z, pre ++ t') | None => None end.
Proof.
  induction pre as [|y pre IH]; intros H; [cbn; now destruct (swapGreater x t) as [[z t']|]|].
  apply Forall_cons_iff in H as [H1 H2]. cbn [app swapGreater]. rewrite (proj2 (Nat.ltb_ge x y)) by lia. rewrite IH by exact H2. now destruct (swapGreater x t) as [[z t']|].
Qed.
Lemma lexPerms_linked n : forall l, length l = n -> asc l -> linked (lexPerms n l) (l, false) /\ exists T, lexPerms n l = l :: T.
Proof.
  induction n as [|n IH]; intros l Hl Ha.
  - destruct l; [|discriminate]. cbn. split; [reflexivity|eauto].
  - cbn [lexPerms].
    assert (G : forall t pre, t <> [] -> length (pre ++ t) = S n -> asc (pre ++ t) ->
      linked (flat_map (fun p => map (cons (fst p)) (lexPerms n (snd p))) (picksFrom pre t)) (pre ++ t, false) /\
      exists T, flat_map (fun p => map (cons (fst p)) (lexPerms n (snd p))) (picksFrom pre t) = (hd 0 t :: pre ++ tl t) :: T).
    { induction t as [|x t IHt]; intros pre Hne Hlen Hasc; [congruence|]. cbn [picksFrom flat_map fst snd hd tl].
      destruct (asc_mid pre x t Hasc) as (A & B & D). destruct (IH (pre ++ t)) as [L1 [T1 E1]].
      { rewrite app_length in *. cbn in Hlen. lia. }
      { exact A. }
      split; [|rewrite E1; cbn; eauto].
      pose proof (linked_map x _ _ L1) as M. rewrite swapGreater_pre in M by exact B. destruct t as [|y t].
      - cbn [swapGreater] in M. cbn [picksFrom flat_map]. rewrite !app_nil_r in *. exact M.
      - apply Forall_cons_iff in D as [D1 D2]. cbn [swapGreater] in M. rewrite (proj2 (Nat.ltb_lt x y) D1) in M.
        destruct (IHt (pre ++ [x])) as [L2 [T2 E2]]; [discriminate|now rewrite <- app_assoc|now rewrite <- app_assoc|].
        cbn [hd tl] in E2. rewrite <- app_assoc in L2, E2. cbn [app] in L2, E2. rewrite E2 in *. apply linked_app; [exact M|exact L2]. }
    destruct l as [|x l]; [discriminate|]. destruct (G (x :: l) [] ltac:(discriminate) Hl Ha) as [L [T E]]. split; [exact L|]. cbn [hd tl app] in E. eauto.
Qed.
Lemma picksFrom_in pre t x r : In (x, r) (picksFrom pre t) -> exists t1 t2, t = t1 ++ x :: t2 /\ r = pre ++ t1 ++ t2.
Proof.
  revert pre. induction t as [|y t IH]; intros pre H; [destruct H|]. cbn in H. destruct H as [H|H].
  - injection H as -> <-. exists [], t. auto.
  - apply IH in H as (t1 & t2 & -> & ->). exists (y :: t1), t2. cbn. rewrite <- app_assoc. auto.
Qed.
Lemma picksFrom_mem pre t1 x t2 : In (x, pre ++ t1 ++ t2) (picksFrom pre (t1 ++ x :: t2)).
Proof.
  revert pre. induction t1 as [|y t1 IH]; intros pre; [now left|]. right. specialize (IH (pre ++ [y])). now rewrite <- app_assoc in IH.
Qed.
Lemma lexPerms_in n : forall l p, length l = n -> (In p (lexPerms n l) <-> Permutation l p).
Proof.
  induction n as [|n IH]; intros l p Hl.
  - destruct l; [|discriminate]. cbn. split; [intros [<-|[]]; constructor|]. intros H. apply Permutation_nil in H. now left.
  - cbn [lexPerms]. rewrite in_flat_map. split.
    + intros ([x r] & Hp & H). cbn [fst snd] in H. apply picksFrom_in in Hp as (t1 & t2 & -> & ->). apply in_map_iff in H as (q & <- & H).
      apply IH in H; [|cbn [app]; rewrite app_length in *; cbn [length] in *; lia]. cbn in H. symmetry. apply Permutation_cons_app. now symmetry.
    + intros H. destruct p as [|x p]; [apply Permutation_sym, Permutation_nil in H; subst; discriminate|].
      assert (Hx : In x l) by (apply (Permutation_in x (Permutation_sym H)); now left). apply in_split in Hx as (t1 & t2 & ->).
      exists (x, t1 ++ t2). split; [apply (picksFrom_mem [] t1 x t2)|]. cbn [fst snd]. apply in_map. apply IH.
      * rewrite app_length in *. cbn in Hl. lia.
      * symmetry in H. apply Permutation_cons_app_inv in H. now symmetry.
Qed.
Lemma picksFrom_heads pre t : map fst (picksFrom pre t) = t.
Proof. revert pre. induction t as [|x t IH]; intros pre; cbn; [reflexivity|]. now rewrite IH. Qed.
Lemma NoDup_app2 {A} (l1 l2 : list A) : NoDup l1 -> NoDup l2 -> (forall x, In x l1 -> ~ In x l2) -> NoDup (l1 ++ l2).
Proof.
  induction l1 as [|x l IH]; intros H1 H2 H; [exact H2|]. apply NoDup_cons_iff in H1 as [Hx H1]. cbn. constructor.
  - intros X. apply in_app_iff in X as [X|X]; [tauto|]. apply (H x); [now left|exact X].
  - apply IH; auto. intros y Hy. apply H. now right.
Qed.
Lemma NoDup_flat_map_heads {A B} (f : B -> list (list A)) (h : B -> A) l : NoDup (map h l) -> (forall x, In x l -> NoDup (f x)) ->
  NoDup (flat_map (fun p => map (cons (h p)) (f p)) l).
Proof.
  induction l as [|x l IH]; intros HN H; [constructor|]. cbn [map] in HN. apply NoDup_cons_iff in HN as [H1 H2]. cbn [flat_map]. apply NoDup_app2.
  - apply FinFun.Injective_map_NoDup; [intros a b E; now injection E|]. apply H. now left.
  - apply IH; [exact H2|]. intros y Hy. apply H. now right.
  - intros z Hz Hz'. apply in_map_iff in Hz as (q & <- & _). apply in_flat_map in Hz' as (y & Hy & Hz). apply in_map_iff in Hz as (q' & E & _). injection E as E _.
    apply H1. rewrite <- E. now apply in_map.
Qed.
Lemma lexPerms_nodup n : forall l, length l = n -> NoDup l -> NoDup (lexPerms n l).
Proof.
  induction n as [|n IH]; intros l Hl HN; [repeat constructor; intros []|]. cbn [lexPerms]. apply NoDup_flat_map_heads with (h := fst).
  - now rewrite picksFrom_heads.
  - intros [x r] Hp. cbn [snd]. apply picksFrom_in in Hp as (t1 & t2 & -> & ->). cbn [app]. apply IH.
    + rewrite app_length in *. cbn in Hl. lia.
    + now apply NoDup_remove_1 in HN.
Qed.
Lemma lexPerms_length n : forall l, length l = n -> length (lexPerms n l) = fact n.
Proof.
  induction n as [|n IH]; intros l Hl; [reflexivity|]. cbn [lexPerms].
  assert (G : forall t pre, length (pre ++ t) = S n -> length (flat_map (fun p => map (cons (fst p)) (lexPerms n (snd p))) (picksFrom pre t)) = length t * fact n).
  { induction t as [|x t IHt]; intros pre Hlen; [reflexivity|]. cbn [picksFrom flat_map fst snd length]. rewrite app_length, map_length, IHt, IH.
    - lia.
    - rewrite app_length in *. cbn in Hlen. lia.
    - rewrite <- app_assoc. exact Hlen. }
  rewrite (G l [] Hl), Hl. reflexivity.
Qed.
Lemma asc_NoDup l : asc l -> NoDup l.
Proof.
  induction l as [|x l IH]; intros H; [constructor|]. inversion H as [|? ? H1 H2]; subst. constructor; [|now apply IH].
  intros X. rewrite Forall_forall in H2. specialize (H2 x X). lia.
Qed.

(* ---------------- the do-while loop ---------------- *)
Lemma permLoop_collect {X Y} (get : X -> list nat) (put : list nat -> X -> X) (g : X -> list Y) (body : X * list Y -> option (X * list Y)) :
  forall L fuel x acc stop, linked L (stop, false) -> length L <= fuel -> (exists T, L = get x :: T) ->
  (forall q, In q L -> get (put q x) = q) -> (forall l q, In q L -> put l (put q x) = put l x) -> put (get x) x = x ->
  (forall q acc, In q L -> body (put q x, acc) = Some (put q x, acc ++ g (put q x))) ->
  permLoop fuel (fun s => get (fst s)) (fun l s => (put l (fst s), snd s)) body (x, acc) = Some (put stop x, acc ++ flat_map (fun q => g (put q x)) L).
Proof.
  intros L. 
  assert (G : forall L0, incl L0 L -> forall fuel x q acc stop, linked L0 (stop, false) -> length L0 <= fuel -> (exists T, L0 = q :: T) ->
    (forall q, In q L -> get (put q x) = q) -> (forall l q, In q L -> put l (put q x) = put l x) ->
    (forall q acc, In q L -> body (put q x, acc) = Some (put q x, acc ++ g (put q x))) ->
    permLoop fuel (fun s => get (fst s)) (fun l s => (put l (fst s), snd s)) body (put q x, acc) = Some (put stop x, acc ++ flat_map (fun q => g (put q x)) L0)).
  { induction L0 as [|a L0 IH]; intros Hi fuel x q acc stop HL Hf HT H1 H2 Hb; [destruct HL|].
    destruct HT as [T ET]. injection ET as -> <-. destruct fuel as [|fuel]; [cbn in Hf; lia|]. cbn [permLoop].
    assert (Hq : In q L) by (apply Hi; now left). rewrite Hb by exact Hq. cbn [bnd fst snd]. rewrite H1 by auto.
    destruct L0 as [|b L0].
    - cbn in HL. rewrite HL. rewrite H2 by exact Hq. cbn [flat_map]. now rewrite app_nil_r.
    - apply linked_cons in HL as [HN HL]. rewrite HN, H2 by exact Hq. cbn [flat_map]. rewrite app_assoc. apply (IH ltac:(intros z Hz; apply Hi; now right) fuel x b); auto.
      + cbn in *. lia.
      + eauto. }
  intros fuel x acc stop HL Hf HT H1 H2 Hx Hb. rewrite <- Hx at 1. apply (G L (incl_refl L)); auto.
Qed.

Lemma setNth_app {A} (pre : list A) x y t : setNth (length pre) y (pre ++ x :: t) = pre ++ y :: t.
Proof. induction pre as [|z pre IH]; cbn; [reflexivity|]. now rewrite IH. Qed.
Lemma nth_mid {A} (pre : list A) x t d : nth (length pre) (pre ++ x :: t) d = x.
Proof. rewrite app_nth2, Nat.sub_diag by lia. reflexivity. Qed.
Lemma fact_le n m : n <= m -> fact n <= fact m. Proof. apply fact_le. Qed.

Fixpoint prodPerms (rest : list (list nat)) : list (list (list nat)) :=
  match rest with [] => [[]] | l :: t => flat_map (fun q => map (cons q) (prodPerms t)) (lexPerms (length l) l) end.

Section Gen.
Variables (n : nat) (orig : list (list nat)) (fuel : nat) (bm : list (list nat) -> list nat).
Lemma genBose_ok : forall rest pre acc r, length rest = S r -> Forall asc rest -> Forall (fun l => fact (length l) <= fuel) rest ->
  (forall qs, In qs (map (app pre) (prodPerms rest)) -> buildMap n orig qs = Some (bm qs)) ->
  genBose n orig fuel r (length pre) (pre ++ rest, acc) = Some (pre ++ rest, acc ++ map (fun qs => bm (pre ++ qs)) (prodPerms rest)).
Proof.
  induction rest as [|l rest IH]; intros pre acc r Hr Ha Hf Hb; [discriminate|]. apply Forall_cons_iff in Ha as [Ha1 Ha2]. apply Forall_cons_iff in Hf as [Hf1 Hf2].
  destruct (lexPerms_linked (length l) l eq_refl Ha1) as [HL [T HT]].
  assert (P : forall q x, nth (length pre) (setNth (length pre) q (pre ++ x :: rest)) [] = q) by (intros; now rewrite setNth_app, nth_mid).
  set (g := fun x : list (list nat) => match r with 0 => [bm x] | S _ => map (fun qs => bm (firstn (length pre + 1) x ++ qs)) (prodPerms rest) end).
  assert (HB : forall q acc, In q (lexPerms (length l) l) ->
    (match r with
     | 0 => do pm <- buildMap n orig (setNth (length pre) q (pre ++ l :: rest)); Some (setNth (length pre) q (pre ++ l :: rest), acc ++ [pm])
     | S r' => genBose n orig fuel r' (length pre + 1) (setNth (length pre) q (pre ++ l :: rest), acc)
     end) = Some (setNth (length pre) q (pre ++ l :: rest), acc ++ g (setNth (length pre) q (pre ++ l :: rest)))).
  { intros q acc0 Hq. rewrite setNth_app. unfold g. destruct r as [|r'].
    - destruct rest; [|discriminate]. rewrite Hb; [reflexivity|]. apply in_map. cbn [prodPerms]. apply in_flat_map. exists q. split; [exact Hq|]. now left.
    - replace (length pre + 1) with (length (pre ++ [q])) by (rewrite app_length; reflexivity).
      replace (pre ++ q :: rest) with ((pre ++ [q]) ++ rest) by (now rewrite <- app_assoc).
      rewrite (IH (pre ++ [q]) acc0 r'); [|now injection Hr|exact Ha2|exact Hf2|].
      + do 2 f_equal. f_equal. apply map_ext. intros qs. rewrite firstn_app, firstn_all, Nat.sub_diag. cbn [firstn]. now rewrite app_nil_r.
      + intros qs Hqs. apply Hb. apply in_map_iff in Hqs as (qs' & <- & Hqs). rewrite <- app_assoc. apply in_map. cbn [prodPerms app]. apply in_flat_map.
        exists q. split; [exact Hq|]. now apply in_map. }
  assert (E : genBose n orig fuel r (length pre) (pre ++ l :: rest, acc) =
    permLoop fuel (fun s => nth (length pre) (fst s) []) (fun l s => (setNth (length pre) l (fst s), snd s))
      (fun s => match r with 0 => do pm <- buildMap n orig (fst s); Some (fst s, snd s ++ [pm]) | S r' => genBose n orig fuel r' (length pre + 1) s end) (pre ++ l :: rest, acc)).
  { destruct r; reflexivity. }
  rewrite E. clear E.
  rewrite (permLoop_collect (fun x => nth (length pre) x []) (fun l x => setNth (length pre) l x) g _ (lexPerms (length l) l) fuel (pre ++ l :: rest) acc l).
  - rewrite setNth_app. do 2 f_equal. f_equal. cbn [prodPerms]. 
    assert (M : forall qs, incl qs (lexPerms (length l) l) -> flat_map (fun q => g (setNth (length pre) q (pre ++ l :: rest))) qs =
      map (fun qs => bm (pre ++ qs)) (flat_map (fun q => map (cons q) (prodPerms rest)) qs)).
    { clear - Hr. induction qs as [|q qs IHq]; intros Hi; [reflexivity|]. cbn [flat_map]. rewrite map_app, IHq by (intros z Hz; apply Hi; now right). f_equal.
      rewrite setNth_app. unfold g. rewrite map_map. destruct r as [|r'].
      - destruct rest; [reflexivity|discriminate].
      - apply map_ext. intros x. f_equal. rewrite firstn_app. replace (length pre + 1 - length pre) with 1 by lia. rewrite firstn_all2 by lia. cbn [firstn]. now rewrite <- app_assoc. }
    apply M, incl_refl.
  - exact HL.
  - now rewrite lexPerms_length.
  - rewrite nth_mid, HT. eauto.
  - intros q _. apply P.
  - intros l' q _. now rewrite !setNth_app.
  - now rewrite nth_mid, setNth_app.
  - intros q acc0 Hq. cbn [fst snd]. apply (HB q acc0 Hq).
Qed.
End Gen.

Lemma prodPerms_in rest : forall qs, In qs (prodPerms rest) <-> Forall2 (@Permutation nat) rest qs.
Proof.
  induction rest as [|l t IH]; intros qs.
  - cbn. split; [intros [<-|[]]; constructor|]. intros H. inversion H. now left.
  - cbn [prodPerms]. rewrite in_flat_map. split.
    + intros (q & Hq & H). apply in_map_iff in H as (qs' & <- & H). apply lexPerms_in in Hq; [|reflexivity]. constructor; [exact Hq|now apply IH].
    + intros H. inversion H as [|? q ? qs' H1 H2]; subst. exists q. split; [now apply lexPerms_in|]. apply in_map. now apply IH.
Qed.
Lemma NoDup_flat_map_heads2 {A} (ls : list A) (R : list (list A)) : NoDup ls -> NoDup R -> NoDup (flat_map (fun q => map (cons q) R) ls).
Proof. intros H1 H2. apply (NoDup_flat_map_heads (fun _ => R) (fun q => q)); [now rewrite map_id|auto]. Qed.
Lemma prodPerms_nodup rest : Forall (@NoDup nat) rest -> NoDup (prodPerms rest).
Proof.
  induction rest as [|l t IH]; intros H; [repeat constructor; intros []|]. apply Forall_cons_iff in H as [H1 H2]. cbn [prodPerms].
  apply NoDup_flat_map_heads2; [now apply lexPerms_nodup|now apply IH].
Qed.
Lemma prodPerms_hd rest : Forall asc rest -> exists T, prodPerms rest = rest :: T.
Proof.
  induction rest as [|l t IH]; intros H; [cbn; eauto|]. apply Forall_cons_iff in H as [H1 H2]. destruct (IH H2) as [T E].
  destruct (lexPerms_linked (length l) l eq_refl H1) as [_ [T' E']]. cbn [prodPerms]. rewrite E', E. cbn. eauto.
Qed.
Lemma prodPerms_length rest : INR (length (prodPerms rest)) = fold_right (fun l a => (INR (fact (length l)) * a)%R) 1%R rest.
Proof.
  induction rest as [|l t IH]; [reflexivity|]. cbn [prodPerms fold_right]. rewrite <- IH, <- (lexPerms_length (length l) l eq_refl), <- mult_INR. f_equal.
  clear IH. induction (lexPerms (length l) l) as [|q qs IHq]; [reflexivity|]. cbn [flat_map length]. rewrite app_length, map_length, IHq. lia.
Qed.

(* ---------------- the map of a combination ---------------- *)
Definition pairs (orig new : list (list nat)) : list (nat * nat) := flat_map (fun e => List.combine (fst e) (snd e)) (List.combine orig new).
Definition bmap (n : nat) (orig new : list (list nat)) : list nat := fold_left (fun pm oq => setNth (fst oq) (snd oq) pm) (pairs orig new) (repeat 0 n).
Lemma combine_nth_seq (o q : list nat) : length q = length o -> map (fun j => (nth j o 0, nth j q 0)) (List.seq 0 (length o)) = List.combine o q.
Proof.
  revert q. induction o as [|x o IH]; intros q H; [reflexivity|]. destruct q as [|y q]; [discriminate|]. cbn [length List.seq map List.combine nth]. f_equal.
  rewrite <- seq_shift, map_map. cbn [nth]. apply IH. now injection H.
Qed.
Lemma fold_left_map {A B X} (f : X -> B -> X) (h : A -> B) l : forall a, fold_left (fun x i => f x (h i)) l a = fold_left f (map h l) a.
Proof. induction l as [|x l IH]; intros a; [reflexivity|]. cbn. apply IH. Qed.
Lemma buildMap_ok n orig new : Forall2 (fun o q => length q = length o) orig new -> buildMap n orig new = Some (bmap n orig new).
Proof.
  unfold buildMap, bmap, pairs. generalize (repeat 0 n). intros pm0 H. revert pm0. induction H as [|o q orig new H1 H2 IH]; intros pm0; [reflexivity|].
  cbn [List.combine foldO fst snd flat_map]. rewrite H1, Nat.eqb_refl. cbn [bnd]. rewrite IH. f_equal. rewrite fold_left_app. f_equal.
  rewrite (fold_left_map (fun pm (oq : nat * nat) => setNth (fst oq) (snd oq) pm) (fun j => (nth j o 0, nth j q 0))).
  now rewrite combine_nth_seq.
Qed.
Lemma setNth_length {A} i (v : A) l : length (setNth i v l) = length l.
Proof. revert i. induction l as [|x l IH]; intros [|i]; cbn; auto. Qed.
Lemma setNth_nth {A} i (v : A) l j d : i < length l -> nth j (setNth i v l) d = if j =? i then v else nth j l d.
Proof.
  revert i j. induction l as [|x l IH]; intros i j H; [cbn in H; lia|]. destruct i as [|i], j as [|j]; cbn; try reflexivity. apply IH. cbn in H. lia.
Qed.
Lemma fold_set_length (l : list (nat * nat)) : forall pm, length (fold_left (fun pm oq => setNth (fst oq) (snd oq) pm) l pm) = length pm.
Proof. induction l as [|x l IH]; intros pm; [reflexivity|]. cbn. now rewrite IH, setNth_length. Qed.
Lemma fold_set_nth (l : list (nat * nat)) : forall pm, NoDup (map fst l) -> Forall (fun o => o < length pm) (map fst l) -> forall o q, In (o, q) l ->
  nth o (fold_left (fun pm oq => setNth (fst oq) (snd oq) pm) l pm) 0 = q.
Proof.
  induction l as [|[o' q'] l IH]; intros pm HN HF o q Hin; [destruct Hin|]. cbn [map fst] in HN, HF. apply NoDup_cons_iff in HN as [H1 H2]. apply Forall_cons_iff in HF as [F1 F2].
  cbn [fold_left fst snd]. destruct Hin as [E|Hin].
  - injection E as -> ->. clear IH. assert (G : forall l pm, ~ In o (map fst l) -> Forall (fun o => o < length pm) (map fst l) -> nth o (fold_left (fun pm (oq : nat * nat) => setNth (fst oq) (snd oq) pm) l pm) 0 = nth o pm 0).
    { clear. induction l as [|[o' q'] l IH]; intros pm Hn HF; [reflexivity|]. cbn [map fst] in *. apply Forall_cons_iff in HF as [F1 F2]. cbn [fold_left fst snd].
      rewrite IH; [|intros X; apply Hn; now right|now rewrite setNth_length]. rewrite setNth_nth by exact F1.
      destruct (o =? o') eqn:E; [|reflexivity]. apply Nat.eqb_eq in E. exfalso. apply Hn. now left. }
    rewrite G; [|exact H1|now rewrite setNth_length]. rewrite setNth_nth by exact F1. now rewrite Nat.eqb_refl.
  - apply IH; [exact H2|now rewrite setNth_length|exact Hin].
Qed.
Lemma combine_fst {A B} (a : list A) (b : list B) : length b = length a -> map fst (List.combine a b) = a.
Proof. revert b. induction a as [|x a IH]; intros [|y b] H; cbn in *; try reflexivity; try discriminate. f_equal. apply IH. lia. Qed.
Lemma combine_snd {A B} (a : list A) (b : list B) : length b = length a -> map snd (List.combine a b) = b.
Proof. revert b. induction a as [|x a IH]; intros [|y b] H; cbn in *; try reflexivity; try discriminate. f_equal. apply IH. lia. Qed.
Lemma pairs_fst orig new : Forall2 (fun o q => length q = length o) orig new -> map fst (pairs orig new) = concat orig.
Proof. intros H. unfold pairs. induction H as [|o q orig new H1 H2 IH]; [reflexivity|]. cbn [List.combine flat_map fst snd concat]. now rewrite map_app, combine_fst, IH. Qed.
Lemma pairs_snd orig new : Forall2 (fun o q => length q = length o) orig new -> map snd (pairs orig new) = concat new.
Proof. intros H. unfold pairs. induction H as [|o q orig new H1 H2 IH]; [reflexivity|]. cbn [List.combine flat_map fst snd concat]. now rewrite map_app, combine_snd, IH. Qed.

(* ---------------- index lists by name ---------------- *)
Definition occ (names : list str) (k : nat) (nm : str) : list nat := filter (fun i => str_eqb (nth i names []) nm) (List.seq 0 k).
Definition idxMap (names : list str) (k : nat) : list (str * list nat) :=
  fold_left (fun m i => let nm := nth i names [] in m_set nm ((match m_find nm m with Some l => l | None => [] end) ++ [i]) m) (List.seq 0 k) [].
Lemma idxMap_ok names k : StronglySorted key_lt (idxMap names k) /\
  forall nm, m_find nm (idxMap names k) = match occ names k nm with [] => None | l => Some l end.
Proof.
  induction k as [|k [S F]]; [split; [constructor|reflexivity]|]. unfold idxMap, occ in *. rewrite seq_S, fold_left_app. cbn [fold_left Nat.add].
  set (m := fold_left _ (List.seq 0 k) []) in *. split; [now apply m_set_sorted|]. intros nm. rewrite m_find_set by exact S. rewrite filter_app. cbn [filter].
  rewrite (str_eqb_sym (nth k names []) nm). destruct (str_eqb nm (nth k names [])) eqn:E.
  - apply str_eqb_eq in E. subst nm. rewrite F. destruct (filter _ (List.seq 0 k)) as [|x l]; reflexivity.
  - rewrite app_nil_r. apply F.
Qed.
