(* Properties C09 (Wigner d-function and its cache) and C56 (factorial cache). *)
From Coq Require Import ZArith Reals List Bool Lia Lra Factorial.
From Verif Require Import SpinModel SpinSpec SpinProofs CGModel CGSpec CGProofs DFuncModel DFuncSpec DFuncProofs.
Import ListNotations.
Open Scope Z_scope.

(* arguments for which d^j_{mn} exists and the implementation has room *)
Definition dValid (op : dOp) : Prop :=
  match op with DSetUse _ => True | DCall j m n _ => j < 41 /\ isProjOf j m /\ isProjOf j n end.
(* the answers Wigner's formula gives to the calls of a history *)
Definition wignerAnswers (ops : list dOp) : list dOutcome :=
  flat_map (fun op => match op with DSetUse _ => [] | DCall j m n t => [DVal (wignerD j m n t)] end) ops.

(* the cache is never switched off: every answer is Wigner's value, for every angle
   (negative ones included) and whatever was asked before *)
Theorem C09_cache_on_transparent :
  forall ops, Forall dValid ops -> ~ In (DSetUse false) ops ->
  dRun dInit ops = wignerAnswers ops.
Proof. intros. apply dRun_on; auto. apply dInv_init. Qed.

(* the cache may be switched off as long as nothing has been cached yet *)
Theorem C09_off_before_first_use_transparent :
  forall ops1 ops2, Forall dValid ops1 -> Forall dValid ops2 ->
  ~ In (DSetUse true) ops1 -> ~ In (DSetUse false) ops2 ->
  dRun dInit (DSetUse false :: ops1 ++ DSetUse true :: ops2)
  = wignerAnswers ops1 ++ wignerAnswers ops2.
Proof.
  intros ops1 ops2 H1 H2 N1 N2. cbn [dRun].
  destruct (dRun_off_then ops1 (DSetUse true :: ops2) (dSetUse dInit false)) as (s' & E & Hn & Hu); auto.
  rewrite E. cbn [dRun].
  rewrite dRun_on; auto. intros x y z e He. cbn in He. rewrite Hn in He. discriminate.
Qed.

(* switching the cache off after an entry has been filled corrupts that entry: the
   next cached call returns twice the right value, for all quantum numbers *)
Theorem C09_toggling_refuted :
  forall j m n theta, 1 <= j < 41 -> isProjOf j m -> isProjOf j n ->
  dRun dInit [DCall j m n theta; DSetUse false; DCall j m n theta; DSetUse true; DCall j m n theta]
  = [DVal (wignerD j m n theta); DVal (wignerD j m n theta); DVal (2 * wignerD j m n theta)%R].
Proof.
  intros j m n theta Hj Hm Hn.
  destruct (proj_params j m Hm) as (a & b & Ha & Hb & Ejab & ->).
  destruct (proj_params j n Hn) as (c & d & Hc & Hd & Ejcd & ->).
  assert (exists a' b' c' d', (if isNeg theta then (c - d, a - b) else (a - b, c - d)) = (a' - b', c' - d')
     /\ 0 <= a' /\ 0 <= b' /\ 0 <= c' /\ 0 <= d' /\ a' + b' = j /\ c' + d' = j
     /\ (if isNeg theta then dFresh j (c - d) (a - b) else dFresh j (a - b) (c - d)) = dFresh j (a' - b') (c' - d'))
    as (a' & b' & c' & d' & E & Ha' & Hb' & Hc' & Hd' & Hj1 & Hj2 & EF).
  { destruct (isNeg theta); [exists c, d, a, b|exists a, b, c, d]; repeat split; auto; lia. }
  pose proof (h1 a' b' 0 0) as H1. pose proof (h2 a' b' c' d' ltac:(lia)) as H2. cbv zeta in H1, H2.
  rewrite Hj1 in H1, H2.
  pose proof (dFresh_some a' b' c' d' Ha' Hb' Hc' Hd' ltac:(lia)) as Hf. cbv zeta in Hf. rewrite Hj1 in Hf.
  set (e := {| eSign := _; eRad := _; eTerms := _ |}) in Hf.
  set (th := if isNeg theta then Rabs (theta / 2) else (theta / 2)%R).
  assert (entryVal e (cos th) (sin th) = wignerD j (a - b) (c - d) theta) as Hv.
  { rewrite Ejab. apply theta_cases; auto; try lia. rewrite <- Ejab. rewrite EF. exact Hf. }
  assert (forall s, dCall s j (a - b) (c - d) theta =
    match (if dUse s then dCache s j a' c' else None) with
    | Some e => (s, DVal (entryVal e (cos th) (sin th)))
    | None =>
        let old := if dUse s then Some emptyEntry else dCache s j a' c' in
        let new := match old with None => None
                   | Some o => Some {| eSign := eSign e; eRad := eRad e; eTerms := eTerms o ++ eTerms e |} end in
        ({| dUse := dUse s; dCache := dUpd (dCache s) j a' c' new |}, DVal (entryVal e (cos th) (sin th)))
    end) as Hcall.
  { intros s. unfold dCall.
    replace (41 <=? j) with false by (symmetry; apply Z.leb_gt; lia).
    replace ((j <? 0) || (j <? Z.abs (a - b)) || (j <? Z.abs (c - d))) with false.
    2:{ symmetry. rewrite !orb_false_iff, !Z.ltb_ge. lia. }
    destruct (Z.eqb_spec j 0); [lia|]. rewrite E, H1, H2, Hf. reflexivity. }
  cbn [dRun]. rewrite (Hcall dInit). cbn [dUse dCache dInit emptyEntry eTerms app].
  rewrite Hcall. cbn [dUse dCache dSetUse]. 
  assert (forall c0 x, dUpd c0 j a' c' x j a' c' = x) as Hupd by (intros; unfold dUpd; now rewrite !Z.eqb_refl).
  rewrite !Hupd. rewrite Hcall. cbn [dUse dCache dSetUse]. rewrite !Hupd. cbn [eTerms].
  rewrite entryVal_double. rewrite Hv.
  replace {| eSign := eSign e; eRad := eRad e; eTerms := eTerms e |} with e by (now destruct e).
  rewrite Hv. reflexivity.
Qed.

(* arguments without meaning abort: too large spin, negative spin, |m| > j *)
Theorem C09_illegal_arguments_abort :
  forall s j m n theta, 41 <= j \/ j < 0 \/ j < Z.abs m \/ j < Z.abs n ->
  dCall s j m n theta = (s, DTerm).
Proof.
  intros s j m n theta H. unfold dCall. destruct (Z.leb_spec 41 j); [reflexivity|].
  replace ((j <? 0) || (j <? Z.abs m) || (j <? Z.abs n)) with true; [reflexivity|].
  symmetry. rewrite !orb_true_iff, !Z.ltb_lt. destruct H as [H|[H|[H|H]]]; auto. lia.
Qed.

(* ... but a half-integer projection of an integer spin is not detected, and it even
   poisons the cache entry of the legal neighbour: d^2_{00}(0) = 1, but after asking for
   the non-existing d^2_{1/2,0}(0) the function returns sqrt(8)/4 for it *)
Theorem C09_parity_mismatch_poisons_cache_refuted :
  exists v, dRun dInit [DCall 4 1 0 0%R; DCall 4 0 0 0%R] = [DVal v; DVal v] /\ v <> wignerD 4 0 0 0%R.
Proof.
  exists (sqrt 8 / 4)%R.
  assert (isNeg 0%R = false) as Hneg by (unfold isNeg; destruct (Rlt_dec 0 0); [lra|reflexivity]).
  assert (Hz : (0 / 2)%R = 0%R) by lra.
  assert (forall x, entryVal {| eSign := 1; eRad := x; eTerms := [(0, 4, 4); (2, 2, -1); (4, 0, 4)] |} 1%R 0%R
          = (sqrt (IZR x) / 4)%R) as Hev.
  { intros x. unfold entryVal, termVal. cbn [eSign eRad eTerms map fold_right].
    assert (powerRZ 0 4 = 0%R) as -> by (simpl; ring). assert (powerRZ 0 2 = 0%R) as -> by (simpl; ring).
    assert (powerRZ 1 4 = 1%R) as -> by (simpl; ring). assert (powerRZ 1 2 = 1%R) as -> by (simpl; ring).
    change (powerRZ 0 0) with 1%R. change (powerRZ 1 0) with 1%R. field. }
  assert (dFresh 4 1 0 = Some {| eSign := 1; eRad := 8; eTerms := [(0, 4, 4); (2, 2, -1); (4, 0, 4)] |}) as HA by reflexivity.
  assert (dFresh 4 0 0 = Some {| eSign := 1; eRad := 16; eTerms := [(0, 4, 4); (2, 2, -1); (4, 0, 4)] |}) as HB by reflexivity.
  split.
  - cbn [dRun]. unfold dCall at 1. rewrite Hneg, Hz. 
    change (41 <=? 4) with false. change ((4 <? 0) || (4 <? Z.abs 1) || (4 <? Z.abs 0)) with false. change (4 =? 0) with false.
    cbv iota. rewrite HA. cbn [dUse dInit dCache emptyEntry eTerms app eSign eRad].
    unfold dCall. rewrite Hneg, Hz.
    change (41 <=? 4) with false. change ((4 <? 0) || (4 <? Z.abs 0) || (4 <? Z.abs 0)) with false. change (4 =? 0) with false.
    cbv iota. cbn [dUse dCache].
    change ((4 + 1) ÷ 2) with 2. change ((4 + 0) ÷ 2) with 2.
    assert (forall c0 x, dUpd c0 4 2 2 x 4 2 2 = x) as Hupd by reflexivity. rewrite Hupd.
    rewrite cos_0, sin_0. rewrite Hev. reflexivity.
  - pose proof (entry_is_wigner 2 2 2 2 ltac:(lia) ltac:(lia) ltac:(lia) ltac:(lia) eq_refl 0%R _ HB) as H.
    change (2 + 2) with 4 in H. change (2 - 2) with 0 in H. rewrite <- H, Hz, cos_0, sin_0, Hev.
    assert (sqrt 16 = 4)%R as -> by (replace 16%R with (4 * 4)%R by lra; apply sqrt_square; lra).
    intros E. assert (sqrt 8 = 4)%R as E2 by lra.
    assert (sqrt 8 * sqrt 8 = 8)%R as E3 by (apply sqrt_sqrt; lra). rewrite E2 in E3. lra.
Qed.

(* symmetry under inversion of the angle and the value at angle 0 *)
Theorem C09_angle_inversion :
  forall j m n theta, isProjOf j m -> isProjOf j n -> wignerD j n m (- theta) = wignerD j m n theta.
Proof.
  intros j m n theta Hm Hn.
  destruct (proj_params j m Hm) as (a & b & Ha & Hb & Ejab & ->).
  destruct (proj_params j n Hn) as (c & d & Hc & Hd & Ejcd & ->). rewrite Ejab. apply wignerD_swap; lia.
Qed.

Example C09_ex : dValid (DCall 3 (-1) 3 (1/2)%R) /\ dRun dInit [DCall 0 0 0 1%R] = [DVal 1%R]
  /\ Forall dValid [DCall 3 (-1) 3 (1/2)%R; DCall 40 2 0 0%R].
Proof.
  assert (isProjOf 3 (-1)) by (split; [lia|exists 1; lia]).
  assert (isProjOf 3 3) by (split; [lia|exists 3; lia]).
  assert (isProjOf 40 2) by (split; [lia|exists 21; lia]).
  assert (isProjOf 40 0) by (split; [lia|exists 20; lia]).
  split; [split; [lia|auto]|split; [reflexivity|]].
  apply Forall_cons; [split; [lia|auto]|]. apply Forall_cons; [split; [lia|auto]|]. apply Forall_nil.
Qed.

(* ------------------------------------------------------------------ C56 *)
(* For every history of calls the factorial cache answers n!, and it aborts exactly at
   the first request whose value (or a smaller factorial needed on the way) exceeds the
   largest value of the target type. *)
Fixpoint facReference (maxT : Z) (ns : list nat) : list (option Z) :=
  match ns with
  | [] => []
  | n :: r => if maxT <? Z.of_nat (fact n) then [None]
              else Some (Z.of_nat (fact n)) :: facReference maxT r
  end.

Theorem C56_factorial_cache_transparent :
  forall maxT ns, 1 <= maxT -> facRun maxT [1] ns = facReference maxT ns.
Proof.
  intros maxT ns Hmax.
  assert (forall ns cache, facInv cache -> (forall i, (i < length cache)%nat -> Z.of_nat (fact i) <= maxT) ->
          facRun maxT cache ns = facReference maxT ns) as H.
  { clear ns. induction ns as [|n r IH]; intros cache Hc Hb; cbn [facRun facReference]; [reflexivity|].
    unfold facCall. destruct (Nat.leb_spec (length cache) n) as [Hle|Hgt].
    - pose proof (facFill_spec maxT (S n - length cache) cache Hc) as HF.
      destruct (facFill maxT cache (length cache) (S n - length cache)) as [c|]; cbn [bindO].
      + destruct HF as (I1 & I2 & I3). pose proof I1 as [_ I4]. rewrite (I4 n) by lia.
        assert (Z.of_nat (fact n) <= maxT) as Hn by (apply I3; lia).
        destruct (Z.ltb_spec maxT (Z.of_nat (fact n))); [lia|]. f_equal. apply IH; [exact I1|].
        intros i Hi. destruct (le_lt_dec (length cache) i); [apply I3; lia|now apply Hb].
      + destruct HF as (i & Hi & Hm).
        assert (Z.of_nat (fact i) <= Z.of_nat (fact n)) by (apply inj_le; apply fact_le; lia).
        destruct (Z.ltb_spec maxT (Z.of_nat (fact n))); [reflexivity|lia].
    - pose proof Hc as [_ Hn]. rewrite (Hn n) by lia. specialize (Hb n ltac:(lia)) as Hbn.
      destruct (Z.ltb_spec maxT (Z.of_nat (fact n))); [lia|]. f_equal. now apply IH. }
  apply H.
  - split; [cbn; lia|]. intros [|i] Hi; [reflexivity|cbn in Hi; lia].
  - intros [|i] Hi; cbn in *; lia.
Qed.

Example C56_ex : facRun 1000 [1] [3; 5; 2; 7; 1]%nat = [Some 6; Some 120; Some 2; None].
Proof. reflexivity. Qed.

Print Assumptions C09_cache_on_transparent.
Print Assumptions C09_off_before_first_use_transparent.
Print Assumptions C09_toggling_refuted.
Print Assumptions C09_parity_mismatch_poisons_cache_refuted.
Print Assumptions C09_illegal_arguments_abort.
Print Assumptions C09_angle_inversion.
Print Assumptions C56_factorial_cache_transparent.
