(* C84: the sampler. *)
From Coq Require Import List ZArith Reals Bool Lia Lra Psatz.
From Verif Require Import ArrayModel CGBoxModel PhysModel PhysProps PhaseModel PhaseSpec PhaseProofs PhaseProofs2 PhaseProofs3 PhaseProofs4 PhaseProps PhaseProps2 PhaseProps4 FrameModel ProdModel SampleModel SampleSpec.
From Verif Require Import LikSetProofs.
Import ListNotations.
Open Scope R_scope.

Lemma made_ok ms range s : made ms range s -> (2 <= length ms)%nat /\ fst range <= snd range /\ iMasses s = ms /\ iSum s = sumR ms
  /\ iPars s = parLoop (fst range) (snd range) (nth 0 ms 0) (tl ms).
Proof.
  induction 1 as [model beam tp target recoil s E|b s _ IH|f s _ IH|ok st s _ IH]; [|exact IH|exact IH|exact IH].
  unfold newSampler in E. destruct (length ms <? 2)%nat eqn:EL; [discriminate|]. apply Nat.ltb_ge in EL. destruct range as [a b]. unfold rltb in E. destruct (Rlt_dec b a) as [|LE]; [discriminate|].
  rewrite (rd_nth ms 0 0) in E by lia. cbn [bnd] in E. injection E as <-. cbn [iMasses iSum iPars fst snd]. split; [exact EL|]. split; [lra|]. split; [reflexivity|]. split; [|reflexivity].
  assert (forall l a, fold_left Rplus l a = a + sumR l) as K.
  { induction l as [|x l IH]; intros a0; cbn [fold_left sumR fold_right]; [unfold sumR; cbn; lra|]. rewrite IH. unfold sumR. cbn [fold_right]. lra. }
  rewrite K. lra.
Qed.
Lemma collect (f : nat -> option R) (h : nat -> R) k : forall a l, (forall i, (a <= i < a + k)%nat -> f i = Some (h i)) ->
  foldO (fun part l => do M <- f part; Some (l ++ [M])) (seq a k) l = Some (l ++ map h (seq a k)).
Proof.
  induction k as [|k IH]; intros a l H; cbn [seq foldO map]; [now rewrite app_nil_r|]. rewrite (H a) by lia. cbn [bnd]. rewrite IH by (intros; apply H; lia). now rewrite <- app_assoc.
Qed.
Lemma massesOk_ok : forall rest masses prev, length rest = length masses -> exists b, massesOk prev rest masses = Some b
  /\ (b = true <-> forall i, (i < length rest)%nat -> nth i (prev :: masses) 0 + nth i rest 0 <= nth i masses 0).
Proof.
  induction rest as [|m rest IH]; intros [|M masses] prev L; cbn in L; try discriminate; cbn [massesOk].
  - exists true. split; [reflexivity|]. split; [intros _ i Hi; cbn in Hi; lia|reflexivity].
  - unfold rltb. destruct (Rlt_dec M (prev + m)) as [LT|GE].
    + exists false. split; [reflexivity|]. split; [discriminate|]. intros H. specialize (H 0%nat ltac:(cbn; lia)). cbn [nth] in H. lra.
    + destruct (IH masses M ltac:(lia)) as (b & E & Q). exists b. split; [exact E|]. rewrite Q. split.
      * intros H [|i] Hi; cbn [nth length] in *; [lra|]. apply H. lia.
      * intros H i Hi. specialize (H (S i) ltac:(cbn; lia)). cbn [nth] in H. exact H.
Qed.
Definition base : gen := setKinematicsType BLOCK (setWeightType S_U_CHUNG newGen).
Lemma pm_len ms pars : (1 <= length ms)%nat -> length (pointMasses ms pars) = length ms.
Proof. intros H. unfold pointMasses. cbn [length]. rewrite map_length, seq_length. lia. Qed.
Lemma pm_nth ms pars i : (1 <= i < length ms)%nat -> nth i (pointMasses ms pars) 0 = nth (3 * i - 3) pars 0.
Proof.
  intros H. unfold pointMasses. destruct i as [|i]; [lia|]. cbn [nth].
  assert (forall (f : nat -> R) a k j, (j < k)%nat -> nth j (map f (seq a k)) 0 = f (a + j)%nat) as K.
  { intros f a k. revert a. induction k as [|k IH]; intros a j Hj; [lia|]. cbn [seq map]. destruct j as [|j]; cbn [nth]; [f_equal; lia|]. rewrite IH by lia. f_equal. lia. }
  rewrite K by lia. f_equal.
Qed.
Lemma init_ok ms range s pars angles : made ms range s -> isPoint ms pars ->
  exists r, initializeNBodyPhaseSpace pars angles s = Some r
  /\ match r with
     | None => ~ allowedMasses ms (pointMasses ms pars)
     | Some g => allowedMasses ms (pointMasses ms pars) /\ usedForSameType ms g /\ gWT g = S_U_CHUNG /\ gKT g = BLOCK /\ gM g = pointMasses ms pars
         /\ (angles = true -> forall i, (1 <= i < length ms)%nat -> nth i (gCos g) 0 = pointCos ms pars i /\ nth i (gPhi g) 0 = pointPhi ms pars i)
     end.
Proof.
  intros HM HP. destruct (made_ok ms range s HM) as (N & RG & EM & ES & EP). unfold isPoint in HP. set (n := length ms) in *.
  unfold initializeNBodyPhaseSpace. unfold nPart. rewrite EM. fold n. destruct (setDecay_ok ms base N) as (g0 & E0 & C0 & W0 & K0). fold base. rewrite E0. cbn [bnd negb].
  rewrite (rd_nth ms 0 0) by (fold n; lia). cbn [bnd].
  rewrite (collect (fun part => rd pars (3 * part - 3)) (fun part => nth (3 * part - 3) pars 0)) by (intros i Hi; apply rd_nth; lia).
  cbn [bnd app]. change (nth 0 ms 0 :: map (fun part => nth (3 * part - 3) pars 0) (seq 1 (n - 1))) with (pointMasses ms pars). set (Ms := pointMasses ms pars).
  assert (length Ms = n) as LM by (apply pm_len; fold n; lia).
  destruct (massesOk_ok (tl ms) (tl Ms) (nth 0 ms 0)) as (b & Eb & Qb).
  { destruct ms; [cbn in n; lia|]. destruct Ms; [cbn in LM; lia|]. cbn in *. lia. }
  rewrite Eb. cbn [bnd].
  assert (b = true <-> allowedMasses ms Ms) as QA.
  { rewrite Qb. assert (nth 0 Ms 0 = nth 0 ms 0) as M0 by reflexivity. assert (length (tl ms) = (n - 1)%nat) as LT by (destruct ms; [cbn in n; lia|]; cbn in *; lia).
    assert (forall i, nth i (nth 0 ms 0 :: tl Ms) 0 = nth i Ms 0) as N1 by (intros i; unfold Ms, pointMasses; reflexivity).
    assert (forall (l : list R) i, nth i (tl l) 0 = nth (S i) l 0) as N2 by (intros [|x l] i; cbn [tl nth]; [now destruct i|reflexivity]).
    split.
    - intros H. split; [fold n; exact LM|]. split; [exact M0|]. fold n. intros i Hi. specialize (H (i - 1)%nat ltac:(lia)). rewrite N1, !N2 in H. replace (S (i - 1)) with i in H by lia. exact H.
    - intros (_ & _ & H) i Hi. rewrite N1, !N2. specialize (H (S i) ltac:(fold n; lia)). replace (S i - 1)%nat with i in H by lia. exact H. }
  destruct b; cbn [negb].
  2: { exists None. split; [reflexivity|]. intros Q. apply QA in Q. discriminate. }
  unfold setMasses. rewrite (co_n ms g0 C0). fold n. rewrite LM, Nat.eqb_refl. cbn [negb bnd].
  pose proof (proj1 QA eq_refl) as AM.
  assert (usedForSameType ms (withM Ms g0)) as U1.
  { exists base, g0, 0%nat, (fun _ => 0), [CMasses Ms], 0%nat, 0%nat. split; [exact E0|]. split; [constructor; [reflexivity|constructor]|]. split; [constructor; [exact I|constructor]|].
    cbn [foldO doCall]. unfold setMasses. rewrite (co_n ms g0 C0). fold n. rewrite LM, Nat.eqb_refl. reflexivity. }
  destruct angles.
  - rewrite (collect (fun part => rd pars (3 * part - 2)) (fun part => nth (3 * part - 2) pars 0)) by (intros i Hi; apply rd_nth; lia).
    cbn [bnd]. rewrite (collect (fun part => rd pars (3 * part - 1)) (fun part => nth (3 * part - 1) pars 0)) by (intros i Hi; apply rd_nth; lia).
    cbn [bnd app]. set (cs := 0 :: map (fun part => nth (3 * part - 2) pars 0) (seq 1 (n - 1))). set (ps := 0 :: map (fun part => nth (3 * part - 1) pars 0) (seq 1 (n - 1))).
    assert (length cs = n /\ length ps = n) as [LC LP] by (unfold cs, ps; cbn [length]; rewrite !map_length, seq_length; lia).
    unfold setAngles. cbn [withM gN]. rewrite (co_n ms g0 C0). fold n. rewrite LC, LP, Nat.eqb_refl. cbn [negb bnd].
    eexists. split; [reflexivity|]. cbv beta iota. split; [exact AM|]. split.
    { exists base, g0, 0%nat, (fun _ => 0), [CMasses Ms; CAngles cs ps], 0%nat, 0%nat. split; [exact E0|]. split; [repeat constructor|]. split; [repeat constructor|].
      cbn [foldO doCall]. unfold setMasses. rewrite (co_n ms g0 C0). fold n. rewrite LM, Nat.eqb_refl. cbn [negb bnd foldO doCall]. unfold setAngles. cbn [withM gN]. rewrite (co_n ms g0 C0). fold n. rewrite LC, LP, Nat.eqb_refl. reflexivity. }
    split; [exact W0|]. split; [exact K0|]. split; [reflexivity|]. intros _ i Hi. cbn [withAngles gCos gPhi]. unfold cs, ps, pointCos, pointPhi.
    assert (forall (f : nat -> R) a k j, (j < k)%nat -> nth j (map f (seq a k)) 0 = f (a + j)%nat) as K.
    { intros f a k. revert a. induction k as [|k IH]; intros a j Hj; [lia|]. cbn [seq map]. destruct j as [|j]; cbn [nth]; [f_equal; lia|]. rewrite IH by lia. f_equal. lia. }
    destruct i as [|i]; [lia|]. cbn [nth]. rewrite !K by lia. split; f_equal; lia.
  - eexists. split; [reflexivity|]. cbv beta iota. split; [exact AM|]. split; [exact U1|]. split; [exact W0|]. split; [exact K0|]. split; [reflexivity|discriminate].
Qed.
