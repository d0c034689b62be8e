From Coq Require Import List Arith Lia.
From Verif Require Import ArrayModel ArraySpec.
Import ListNotations.

Lemma product_cons a l : product (a :: l) = a * product l.
Proof. reflexivity. Qed.

Lemma rd_mid {A} (pre : list A) x post : rd (pre ++ x :: post) (length pre) = Some x.
Proof. unfold rd. rewrite nth_error_app2 by lia. now rewrite Nat.sub_diag. Qed.
Lemma wr_mid {A} (pre : list A) y x post : wr (pre ++ y :: post) (length pre) x = Some (pre ++ x :: post).
Proof. induction pre; cbn; [reflexivity|]. now rewrite IHpre. Qed.

Lemma nmbElements_gen dims : forall pre acc,
  fold_left (fun acc i => match acc, rd (pre ++ dims) i with Some a, Some d => Some (a * d) | _, _ => None end)
            (seq (length pre) (length dims)) (Some acc) = Some (acc * product dims).
Proof.
  induction dims as [|d ds IH]; intros pre acc; cbn [length seq fold_left].
  - cbn. f_equal; lia.
  - rewrite rd_mid.
    specialize (IH (pre ++ [d]) (acc * d)). rewrite <- app_assoc in IH. cbn [app] in IH.
    rewrite app_length in IH. cbn [length] in IH. rewrite Nat.add_1_r in IH. rewrite IH.
    rewrite product_cons. f_equal; lia.
Qed.

Lemma nmbElements_correct d ds : nmbElements (d :: ds) (length (d :: ds)) = Some (product (d :: ds)).
Proof.
  unfold nmbElements. cbn [length]. replace (S (length ds) - 1) with (length ds) by lia.
  exact (nmbElements_gen ds [d] d).
Qed.

Lemma i2o_gen dims : forall idx prei pred acc, length prei = length pred -> length idx = length dims ->
  fold_left (fun acc i => match acc, rd (pred ++ dims) i, rd (prei ++ idx) i with
               | Some a, Some d, Some x => Some (a * d + x) | _, _, _ => None end)
            (seq (length pred) (length dims)) (Some acc) = Some (acc * product dims + rowMajor dims idx).
Proof.
  induction dims as [|d ds IH]; intros [|x xs] prei pred acc Hl Hl2; try discriminate; cbn [length seq fold_left].
  - cbn. f_equal; lia.
  - rewrite rd_mid.
    assert (rd (prei ++ x :: xs) (length pred) = Some x) as -> by (rewrite <- Hl; apply rd_mid).
    specialize (IH xs (prei ++ [x]) (pred ++ [d]) (acc * d + x)).
    rewrite <- !app_assoc in IH. cbn [app] in IH. rewrite !app_length in IH. cbn [length] in IH.
    rewrite !Nat.add_1_r in IH. rewrite IH; [|lia|cbn in Hl2; lia].
    cbn [rowMajor]. rewrite product_cons. f_equal; lia.
Qed.

Lemma i2o_correct d ds idx : length idx = length (d :: ds) ->
  indicesToOffset idx (d :: ds) (length (d :: ds)) = Some (rowMajor (d :: ds) idx).
Proof.
  destruct idx as [|x xs]; [discriminate|]. intros H. unfold indicesToOffset. cbn [length].
  replace (S (length ds) - 1) with (length ds) by lia.
  cbn [length] in H. exact (i2o_gen ds xs [x] [d] x eq_refl ltac:(lia)).
Qed.

Lemma inBox_length dims idx : inBox dims idx -> length idx = length dims.
Proof. unfold inBox. induction 1; cbn; lia. Qed.

Lemma rowMajor_bound dims : forall idx, inBox dims idx -> rowMajor dims idx < product dims.
Proof.
  unfold inBox. induction dims as [|d ds IH]; intros idx H; inversion H; subst; cbn [rowMajor].
  - cbn. lia.
  - rewrite product_cons. specialize (IH _ H4). nia.
Qed.

Lemma rowMajor_inj dims : forall a b, inBox dims a -> inBox dims b -> rowMajor dims a = rowMajor dims b -> a = b.
Proof.
  unfold inBox. induction dims as [|d ds IH]; intros a b Ha Hb; inversion Ha; inversion Hb; subst; [reflexivity|].
  cbn [rowMajor]. intros E.
  pose proof (rowMajor_bound ds _ H3). pose proof (rowMajor_bound ds _ H8).
  assert (y = y0) by nia. subst. f_equal. apply IH; auto. lia.
Qed.

Lemma rowMajor_lex dims : forall a b, inBox dims a -> inBox dims b ->
  (rowMajor dims a < rowMajor dims b <-> lexLt a b).
Proof.
  unfold inBox. induction dims as [|d ds IH]; intros a b Ha Hb; inversion Ha; inversion Hb; subst; cbn [rowMajor lexLt].
  - lia.
  - specialize (IH _ _ H3 H8).
    pose proof (rowMajor_bound ds _ H3). pose proof (rowMajor_bound ds _ H8).
    destruct (lt_eq_lt_dec y y0) as [[?|?]|?].
    + split; [auto|]. nia.
    + subst. rewrite <- IH. split; [right; split; lia|]. intros [?|[_ ?]]; lia.
    + split; [nia|]. intros [?|[? ?]]; lia.
Qed.

(* offsetToIndices: process extents from the last one to the second *)
Lemma o2i_gen dims : Forall (fun d => 0 < d) dims -> forall pred prei junk post off,
  length prei = length pred -> length junk = length dims ->
  exists tl, inBox dims tl
   /\ fold_left (offsetStep (pred ++ dims)) (rev (seq (length pred) (length dims))) (Some (off, prei ++ junk ++ post))
      = Some (off / product dims, prei ++ tl ++ post)
   /\ rowMajor dims tl = off mod product dims.
Proof.
  induction dims as [|d ds IH]; intros Hpos pred prei junk post off Hl Hl2.
  - exists []. destruct junk; [|discriminate]. split; [constructor|]. split.
    + cbn [length seq rev fold_left app product fold_right]. now rewrite Nat.div_1_r.
    + cbn [product fold_right rowMajor]. now rewrite Nat.mod_1_r.
  - destruct junk as [|j js]; [discriminate|]. inversion Hpos; subst.
    cbn [length seq]. cbn [rev]. rewrite fold_left_app.
    destruct (IH H2 (pred ++ [d]) (prei ++ [j]) js post off) as (tl & Hb & Hf & Hr).
    { rewrite !app_length. cbn; lia. } { cbn in Hl2; lia. }
    rewrite <- !app_assoc in Hf. cbn [app] in Hf. rewrite app_length in Hf. cbn [length] in Hf.
    rewrite Nat.add_1_r in Hf.
    replace (prei ++ (j :: js) ++ post) with (prei ++ j :: js ++ post) by reflexivity.
    rewrite Hf. cbn [fold_left]. unfold offsetStep. rewrite rd_mid.
    destruct d as [|d']; [lia|]. rewrite <- Hl. rewrite wr_mid.
    exists ((off / product ds) mod (S d') :: tl).
    assert (0 < product ds) as Hp.
    { clear - H2. induction ds; cbn; [lia|]. inversion H2; subst. specialize (IHds H3). unfold product in *. cbn. nia. }
    split; [|split].
    + constructor; [|exact Hb]. apply Nat.mod_upper_bound. lia.
    + cbn [app]. rewrite product_cons. f_equal. f_equal. rewrite Nat.div_div by lia. f_equal. lia.
    + cbn [rowMajor]. rewrite Hr. rewrite product_cons.
      rewrite (Nat.mul_comm (S d')). rewrite Nat.mod_mul_r by lia. lia.
Qed.

Lemma o2i_correct d ds off junk :
  Forall (fun x => 0 < x) ds -> length junk = length (d :: ds) ->
  exists i tl, offsetToIndices off (d :: ds) (length (d :: ds)) junk = Some (i :: tl)
    /\ inBox ds tl /\ i = off / product ds /\ rowMajor (d :: ds) (i :: tl) = off.
Proof.
  intros Hpos Hl. destruct junk as [|j js]; [discriminate|]. cbn [length] in Hl.
  destruct (o2i_gen ds Hpos [d] [j] js [] off eq_refl ltac:(lia)) as (tl & Hb & Hf & Hr).
  exists (off / product ds), tl.
  unfold offsetToIndices. cbn [length]. replace (S (length ds) - 1) with (length ds) by lia.
  rewrite !app_nil_r in Hf. cbn [app length] in Hf. rewrite Hf. cbn [wr].
  split; [reflexivity|]. split; [exact Hb|]. split; [reflexivity|].
  cbn [rowMajor]. rewrite Hr.
  assert (0 < product ds) as Hp.
  { clear - Hpos. induction ds; cbn; [lia|]. inversion Hpos; subst. specialize (IHds H2). unfold product in *. cbn. nia. }
  rewrite Nat.mul_comm. symmetry. apply Nat.div_mod. lia.
Qed.
