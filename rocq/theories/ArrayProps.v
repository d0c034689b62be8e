(* Property C06: addressing of pseudo-n-dimensional arrays. *)
From Coq Require Import List Arith Lia.
From Verif Require Import ArrayModel ArraySpec ArrayProofs.
Import ListNotations.

(* the allocated size is the product of the extents *)
Theorem C06_nmbElements_is_product :
  forall dims, dims <> [] -> nmbElements dims (length dims) = Some (product dims).
Proof. intros [|d ds] H; [congruence|]. apply nmbElements_correct. Qed.

(* in-range index tuples are mapped, row-major, into the array; distinct tuples to
   distinct offsets; lexicographic order of tuples is the order of offsets *)
Theorem C06_indices_to_offset_row_major :
  forall dims, dims <> [] ->
  (forall idx, inBox dims idx ->
     indicesToOffset idx dims (length dims) = Some (rowMajor dims idx) /\ rowMajor dims idx < product dims)
  /\ (forall a b, inBox dims a -> inBox dims b ->
     indicesToOffset a dims (length dims) = indicesToOffset b dims (length dims) -> a = b)
  /\ (forall a b oa ob, inBox dims a -> inBox dims b ->
     indicesToOffset a dims (length dims) = Some oa -> indicesToOffset b dims (length dims) = Some ob ->
     (oa < ob <-> lexLt a b)).
Proof.
  intros [|d ds] H; [congruence|].
  split; [|split].
  - intros idx Hb. split; [apply i2o_correct; now apply inBox_length|now apply rowMajor_bound].
  - intros a b Ha Hb. rewrite !i2o_correct by (now apply inBox_length).
    intros E. injection E as E. exact (rowMajor_inj (d :: ds) a b Ha Hb E).
  - intros a b oa ob Ha Hb. rewrite !i2o_correct by (now apply inBox_length).
    intros [= <-] [= <-]. exact (rowMajor_lex (d :: ds) a b Ha Hb).
Qed.

(* every offset inside the array has indices in range, and they lead back to it *)
Theorem C06_offset_to_indices_inverse :
  forall dims, dims <> [] -> Forall (fun d => 0 < d) dims ->
  forall buf, length buf = length dims ->
  (forall off, off < product dims ->
     exists idx, offsetToIndices off dims (length dims) buf = Some idx /\ inBox dims idx
       /\ indicesToOffset idx dims (length dims) = Some off)
  /\ (forall idx, inBox dims idx ->
     exists off, indicesToOffset idx dims (length dims) = Some off
       /\ offsetToIndices off dims (length dims) buf = Some idx).
Proof.
  intros [|d ds] H Hpos buf Hl; [congruence|]. inversion Hpos; subst.
  assert (A : forall off, off < product (d :: ds) ->
     exists idx, offsetToIndices off (d :: ds) (length (d :: ds)) buf = Some idx /\ inBox (d :: ds) idx
       /\ indicesToOffset idx (d :: ds) (length (d :: ds)) = Some off).
  { intros off Hoff. destruct (o2i_correct d ds off buf H3 Hl) as (i & tl & E & Hb & Hi & Hr).
    assert (inBox (d :: ds) (i :: tl)) as Hbox.
    { constructor; [|exact Hb]. subst i. rewrite product_cons in Hoff. apply Nat.div_lt_upper_bound; [|lia].
      intros E0. rewrite E0 in Hoff. lia. }
    exists (i :: tl). split; [exact E|]. split; [exact Hbox|].
    rewrite i2o_correct by now apply inBox_length. now rewrite Hr. }
  split; [exact A|].
  intros idx Hb. exists (rowMajor (d :: ds) idx).
  assert (indicesToOffset idx (d :: ds) (length (d :: ds)) = Some (rowMajor (d :: ds) idx)) as E
    by (apply i2o_correct; now apply inBox_length).
  split; [exact E|].
  destruct (A _ (rowMajor_bound _ _ Hb)) as (idx' & E1 & Hb' & E2).
  rewrite E1. f_equal. rewrite i2o_correct in E2 by now apply inBox_length.
  injection E2 as E2. eapply rowMajor_inj; eauto.
Qed.

(* an offset outside the array is not reported: the excess ends up in index 0 *)
Theorem C06_overflowing_offset_gives_out_of_range_first_index :
  forall d ds buf off, Forall (fun x => 0 < x) (d :: ds) -> length buf = length (d :: ds) ->
  product (d :: ds) <= off ->
  exists i tl, offsetToIndices off (d :: ds) (length (d :: ds)) buf = Some (i :: tl) /\ d <= i /\ inBox ds tl.
Proof.
  intros d ds buf off Hpos Hl Hoff. inversion Hpos; subst.
  destruct (o2i_correct d ds off buf H2 Hl) as (i & tl & E & Hb & Hi & Hr).
  exists i, tl. split; [exact E|]. split; [|exact Hb]. subst i.
  apply Nat.div_le_lower_bound.
  - clear - H2. induction ds; cbn; [lia|]. inversion H2; subst. specialize (IHds H3). unfold product in *. cbn. nia.
  - rewrite product_cons in Hoff. lia.
Qed.

(* without dimensions every function reads outside the arrays it was given *)
Theorem C06_zero_dimensions_undefined :
  forall idx off buf, nmbElements [] 0 = None /\ indicesToOffset [] [] 0 = None
                      /\ offsetToIndices off [] 0 buf = None /\ (idx = [] -> indicesToOffset idx [] 0 = None).
Proof. intros. repeat split. now intros ->. Qed.

Example C06_ex : inBox [2; 3; 4] [1; 0; 2] /\ indicesToOffset [1; 0; 2] [2; 3; 4] 3 = Some 14
  /\ offsetToIndices 14 [2; 3; 4] 3 [9; 9; 9] = Some [1; 0; 2].
Proof. split; [repeat constructor|split; reflexivity]. Qed.

Print Assumptions C06_offset_to_indices_inverse.
Print Assumptions C06_indices_to_offset_row_major.
Print Assumptions C06_nmbElements_is_product.
Print Assumptions C06_overflowing_offset_gives_out_of_range_first_index.
Print Assumptions C06_zero_dimensions_undefined.
