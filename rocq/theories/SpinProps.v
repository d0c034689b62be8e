(* Properties C01 - C05: spin algebra and Clebsch-Gordan coefficients. *)
From Coq Require Import ZArith QArith Bool List Sorted Lia.
From Verif Require Import SpinModel SpinSpec SpinProofs CGModel CGSpec CGProofs.
Import ListNotations.
Open Scope Z_scope.

(* ------------------------------------------------------------------ C01 *)
Theorem C01_spinStatesCanCouple_iff_triangle :
  forall j1 j2 J, spinsCanCouple j1 j2 J = true <-> couples j1 j2 J.
Proof. exact spinsCanCouple_correct. Qed.

Theorem C01_getSpinRange_endpoints :
  forall j1 j2,
  (0 <= j1 -> 0 <= j2 ->
     exists lo hi, getSpinRange j1 j2 = ((lo, hi), true)
       /\ couples j1 j2 lo /\ couples j1 j2 hi
       /\ forall J, couples j1 j2 J -> lo <= J <= hi)
  /\ ((j1 < 0 \/ j2 < 0) -> exists lo hi, getSpinRange j1 j2 = ((lo, hi), false) /\ hi < lo).
Proof. exact getSpinRange_correct. Qed.

Theorem C01_projection_check :
  forall j m, spinAndProjAreCompatible j m = true <-> isProjOf j m.
Proof. exact spinProj_correct. Qed.

Example C01_ex : spinsCanCouple 3 4 5 = true /\ spinsCanCouple 3 4 4 = false
                 /\ getSpinRange 3 4 = ((1, 7), true) /\ spinAndProjAreCompatible 3 (-1) = true.
Proof. repeat split. Qed.

(* ------------------------------------------------------------------ C02 *)
Theorem C02_restricted_loop_exact :
  forall j1 j2 lo hi, 0 <= j1 -> 0 <= j2 ->
  let visited := spinLoop (fst (getSpinRangeDemanded j1 j2 (lo, hi))) in
  (forall S, In S visited <-> couples j1 j2 S /\ lo <= S <= hi)
  /\ StronglySorted Z.lt visited.
Proof.
  intros. split.
  - exact (demanded_loop j1 j2 lo hi H H0).
  - apply loopStep2_sorted.
Qed.

Theorem C02_restricted_range_valid_flag :
  forall j1 j2 lo hi,
  snd (getSpinRangeDemanded j1 j2 (lo, hi)) = true <-> exists S, couples j1 j2 S /\ lo <= S <= hi.
Proof. exact demanded_valid. Qed.

Theorem C02_negative_spin_empty_loop :
  forall j1 j2 d, j1 < 0 \/ j2 < 0 -> spinLoop (fst (getSpinRangeDemanded j1 j2 d)) = [].
Proof.
  intros j1 j2 [lo hi] H. unfold getSpinRangeDemanded, getSpinRange.
  replace ((j1 <? 0) || (j2 <? 0)) with true by lia. reflexivity.
Qed.

Example C02_ex : spinLoop (fst (getSpinRangeDemanded 4 6 (3, 7))) = [4; 6].
Proof. reflexivity. Qed.

(* ------------------------------------------------------------------ C03 *)
Theorem C03_jpc_exotic_iff_not_quark_model :
  forall J P C, 0 <= J -> isSign P -> isSign C ->
  (jpcIsExotic (2 * J) P C = true <-> ~ quarkModelJPC J P C).
Proof. exact jpcIsExotic_correct. Qed.

Theorem C03_igjp_exotic_iff_not_quark_model :
  forall I G J P, 0 <= I -> 0 <= J -> isSign P -> isSign G ->
  (igjpIsExotic (2 * I) G (2 * J) P = true <-> ~ quarkModelIGJP I G J P).
Proof. exact igjpIsExotic_correct. Qed.

(* half-integer or negative spins and undefined parities are never called exotic *)
Theorem C03_undefined_never_exotic :
  forall J P C, (P = 0 \/ C = 0 \/ J < 0 \/ exists k, J = 2 * k + 1) -> jpcIsExotic J P C = false.
Proof.
  intros J P C H. unfold jpcIsExotic, isOdd.
  assert ((P =? 0) || (C =? 0) || (J <? 0) || Z.odd J = true) as ->; [|reflexivity].
  rewrite !orb_true_iff. destruct H as [->|[->|[H|[k ->]]]]; auto.
  - left; right; lia.
  - right. apply odd_2k1.
Qed.

Example C03_ex : jpcIsExotic 2 (-1) 1 = true (* 1-+ *) /\ jpcIsExotic 4 (-1) 1 = false (* 2-+ *)
  /\ jpcIsExotic 0 (-1) (-1) = true (* 0-- *) /\ igjpIsExotic 2 (-1) 2 (-1) = true.
Proof. repeat split. Qed.

(* ------------------------------------------------------------------ C04 *)
(* [v] is the Clebsch-Gordan coefficient according to Wigner's formula *)
Definition isWignerValue (v : cgVal) (j1 m1 j2 m2 J M : Z) : Prop :=
  (cgAdmissible j1 m1 j2 m2 J M ->
     exists s, (s == sumQ (Z.to_nat (J + M + 1)) (wignerTerm j1 m1 j2 m2 J M))%Q
       /\ ((s == 0)%Q /\ v = CGZero
           \/ ~ (s == 0)%Q /\ v = CGRoot (wignerPrefactor j1 m1 j2 m2 J M) s))
  /\ (~ cgAdmissible j1 m1 j2 m2 J M -> v = CGZero).

Lemma reference_isWigner j1 m1 j2 m2 J M :
  exists v, cgReference j1 m1 j2 m2 J M = CGVal v /\ isWignerValue v j1 m1 j2 m2 J M.
Proof.
  unfold cgReference, isWignerValue.
  destruct (_ && (m1 + m2 =? M)) eqn:E.
  - assert (Hadm : cgAdmissible j1 m1 j2 m2 J M).
    { rewrite !andb_true_iff in E. destruct E as ((((E1 & E2) & E3) & E4) & E5).
      apply spinProj_correct in E1, E2, E3. apply spinsCanCouple_correct in E4.
      split; [exact E1|split; [exact E2|split; [exact E3|split; [exact E4|lia]]]]. }
    destruct (cgDirect_spec _ _ _ _ _ _ Hadm) as (s & Hs & ->).
    destruct (Qeq_bool s 0) eqn:Eq.
    + apply Qeq_bool_iff in Eq. exists CGZero. split; [reflexivity|]. split; [|reflexivity].
      intros _. exists s. tauto.
    + apply Qeq_bool_neq in Eq. exists (CGRoot (wignerPrefactor j1 m1 j2 m2 J M) s). split; [reflexivity|]. split; [|tauto].
      intros _. exists s. tauto.
  - exists CGZero. split; [reflexivity|]. split; [|reflexivity].
    intros (H1 & H2 & H3 & H4 & H5). exfalso.
    apply spinProj_correct in H1, H2, H3. apply spinsCanCouple_correct in H4.
    rewrite H1, H2, H3, H4 in E. cbn in E. lia.
Qed.

(* every history in which all spins are below the limit answers every call, and
   every answer is Wigner's value, whatever happened before *)
Theorem C04_cache_transparent_for_every_history :
  forall ops,
  (forall j1 m1 j2 m2 J M, In (OpCall j1 m1 j2 m2 J M) ops -> j1 < 18 /\ j2 < 18 /\ J < 18) ->
  Forall2 (fun call o => exists v, o = CGVal v /\
             let '(j1,m1,j2,m2,J,M) := call in isWignerValue v j1 m1 j2 m2 J M)
          (opCalls ops) (cgRun cgInit ops).
Proof.
  intros ops H. rewrite cgRun_complete.
  - induction (opCalls ops) as [|[[[[[j1 m1] j2] m2] J] M] l IH]; constructor; [apply reference_isWigner|exact IH].
  - apply cgInv_init.
  - intros j1 m1 j2 m2 J M Hin. apply (H j1 m1 j2 m2 J M).
    unfold opCalls in Hin. apply in_flat_map in Hin. destruct Hin as (op & Hop & Hin).
    destruct op; [|destruct Hin]. destruct Hin as [[= <- <- <- <- <- <-]|[]]. exact Hop.
Qed.

(* single calls: an abort happens only with the cache on and too large spins *)
Theorem C04_abort_only_for_large_spins :
  forall j1 m1 j2 m2 J M b,
  snd (cgCall (cgSetUse cgInit b) j1 m1 j2 m2 J M) = CGTerminate ->
  b = true /\ (18 <= j1 \/ 18 <= j2 \/ 18 <= J).
Proof.
  intros. destruct (cgCall _ _ _ _ _ _ _) as [s o] eqn:E.
  assert (Hi : cgInv (cgSetUse cgInit b)) by (intros ? ? ? ? ? ? _ Hc; discriminate Hc).
  destruct (cgCall_inv _ _ _ _ _ _ _ _ _ Hi E) as (_ & _ & Ht & _). exact (Ht H).
Qed.

Theorem C04_cache_cells_in_bounds_and_distinct :
  (forall j1 m1 j2 m2 J, 0 <= j1 < 18 -> Z.abs m1 <= j1 -> 0 <= j2 < 18 -> Z.abs m2 <= j2 -> 0 <= J < 36 ->
     0 <= cgOffset j1 m1 j2 m2 J < 18 * 35 * 18 * 35 * 36)
  /\ (forall j1 m1 j2 m2 J j1' m1' j2' m2' J',
     0 <= j1 < 18 -> Z.abs m1 <= j1 -> 0 <= j2 < 18 -> Z.abs m2 <= j2 -> 0 <= J < 36 ->
     0 <= j1' < 18 -> Z.abs m1' <= j1' -> 0 <= j2' < 18 -> Z.abs m2' <= j2' -> 0 <= J' < 36 ->
     cgOffset j1 m1 j2 m2 J = cgOffset j1' m1' j2' m2' J' ->
     (j1, m1, j2, m2, J) = (j1', m1', j2', m2', J')).
Proof.
  split.
  - intros. apply (cgOffset_bounds j1 m1 j2 m2 J). unfold inCacheRange. tauto.
  - intros. assert (j1 = j1' /\ m1 = m1' /\ j2 = j2' /\ m2 = m2' /\ J = J') as (-> & -> & -> & -> & ->); [|reflexivity].
    apply cgOffset_inj; unfold inCacheRange; tauto.
Qed.

Example C04_ex :  (* (1/2 1/2 1/2 -1/2 | 1 0) = sqrt(1/2), asked three times, cache toggled *)
  cgRun cgInit [OpCall 1 1 1 (-1) 2 0; OpCall 1 1 1 (-1) 2 0; OpSetUse false; OpCall 1 1 1 (-1) 2 0]
  = [CGVal (CGRoot (3 # 6) (1 # 1)); CGVal (CGRoot (3 # 6) (1 # 1)); CGVal (CGRoot (3 # 6) (1 # 1))].
Proof. vm_compute. reflexivity. Qed.

(* ------------------------------------------------------------------ C05 *)
Theorem C05_selection_rules :
  forall s j1 m1 j2 m2 J M A sum,
  snd (cgCall s j1 m1 j2 m2 J M) = CGVal (CGRoot A sum) ->
  isProjOf j1 m1 /\ isProjOf j2 m2 /\ isProjOf J M /\ m1 + m2 = M /\ couples j1 j2 J.
Proof.
  intros s j1 m1 j2 m2 J M A sum H. unfold cgCall in H.
  destruct (cgUse s && _); [discriminate H|].
  destruct (spinAndProjAreCompatible j1 m1) eqn:E1; [|discriminate H].
  destruct (spinAndProjAreCompatible j2 m2) eqn:E2; [|discriminate H].
  destruct (spinAndProjAreCompatible J M) eqn:E3; [|discriminate H].
  destruct (spinsCanCouple j1 j2 J) eqn:E4; [|discriminate H].
  destruct (m1 + m2 =? M) eqn:E5; [|discriminate H].
  apply spinProj_correct in E1, E2, E3. apply spinsCanCouple_correct in E4.
  split; [exact E1|split; [exact E2|split; [exact E3|split; [lia|exact E4]]]].
Qed.

(* coupling of isospin states as used by the vertex check: true only if the
   selection rules hold, and true exactly if Wigner's sum does not vanish *)
Theorem C05_spinStatesCanCouple_with_projections :
  forall j1 m1 j2 m2 J M, j1 < 18 -> j2 < 18 -> J < 18 ->
  exists b, spinStatesCanCouple j1 m1 j2 m2 J M = Some b /\
   (b = true <-> cgAdmissible j1 m1 j2 m2 J M /\
                 ~ (sumQ (Z.to_nat (J + M + 1)) (wignerTerm j1 m1 j2 m2 J M) == 0)%Q).
Proof.
  intros j1 m1 j2 m2 J M H1 H2 H3. unfold spinStatesCanCouple.
  destruct (cgCall cgInit j1 m1 j2 m2 J M) as [s o] eqn:E. cbn [snd].
  destruct (cgCall_inv _ _ _ _ _ _ _ _ _ cgInv_init E) as (_ & _ & Ht & Hv).
  assert (Ho : o <> CGTerminate) by (intros ->; destruct (Ht eq_refl) as [_ ?]; lia).
  destruct (reference_isWigner j1 m1 j2 m2 J M) as (v & Hr & Hw1 & Hw2).
  rewrite (Hv Ho), Hr. clear Hr Hv Ht Ho E.
  assert (Hdec : cgAdmissible j1 m1 j2 m2 J M \/ ~ cgAdmissible j1 m1 j2 m2 J M).
  { destruct (spinAndProjAreCompatible j1 m1) eqn:E1; [|right; intros (Ha & _); apply spinProj_correct in Ha; congruence].
    destruct (spinAndProjAreCompatible j2 m2) eqn:E2; [|right; intros (_ & Ha & _); apply spinProj_correct in Ha; congruence].
    destruct (spinAndProjAreCompatible J M) eqn:E3; [|right; intros (_ & _ & Ha & _); apply spinProj_correct in Ha; congruence].
    destruct (spinsCanCouple j1 j2 J) eqn:E4; [|right; intros (_ & _ & _ & Ha & _); apply spinsCanCouple_correct in Ha; congruence].
    destruct (Z.eq_dec (m1 + m2) M); [left|right; intros (_ & _ & _ & _ & Ha); contradiction].
    apply spinProj_correct in E1, E2, E3. apply spinsCanCouple_correct in E4. repeat (split; [assumption|]). assumption. }
  destruct Hdec as [Ha|Ha].
  - destruct (Hw1 Ha) as (s' & Hs & [[Hz ->]|[Hz ->]]).
    + exists false. split; [reflexivity|]. split; [discriminate|]. intros [_ Hn]. exfalso. apply Hn. rewrite <- Hs. exact Hz.
    + exists true. split; [reflexivity|]. split; [intros _|reflexivity]. split; [exact Ha|]. rewrite <- Hs. exact Hz.
  - rewrite (Hw2 Ha). exists false. split; [reflexivity|]. split; [discriminate|]. tauto.
Qed.

Example C05_ex : spinStatesCanCouple 2 0 2 0 2 0 = Some false  (* (1 0 1 0 | 1 0) = 0 accidentally *)
  /\ spinStatesCanCouple 2 2 2 (-2) 4 0 = Some true /\ spinStatesCanCouple 18 0 2 0 2 0 = None.
Proof. repeat split; vm_compute; reflexivity. Qed.

Print Assumptions C01_spinStatesCanCouple_iff_triangle.
Print Assumptions C01_getSpinRange_endpoints.
Print Assumptions C02_restricted_loop_exact.
Print Assumptions C03_jpc_exotic_iff_not_quark_model.
Print Assumptions C03_igjp_exotic_iff_not_quark_model.
Print Assumptions C04_cache_transparent_for_every_history.
Print Assumptions C04_cache_cells_in_bounds_and_distinct.
Print Assumptions C05_selection_rules.
Print Assumptions C05_spinStatesCanCouple_with_projections.
