From Coq Require Import ZArith Bool List Lia Sorted.
From Verif Require Import SpinModel SpinSpec.
Import ListNotations.
Open Scope Z_scope.

Lemma odd_div2 z : Z.odd z = true -> exists k, z = 2 * k + 1.
Proof. intros H. apply Z.odd_spec in H. destruct H as [k H]. exists k; lia. Qed.
Lemma odd_false_div2 z : Z.odd z = false -> exists k, z = 2 * k.
Proof.
  intros H. rewrite <- Z.negb_even in H. apply negb_false_iff in H.
  apply Z.even_spec in H. destruct H as [k H]. exists k; lia.
Qed.
Lemma odd_2k1 k : Z.odd (2 * k + 1) = true.
Proof. apply Z.odd_spec. exists k; lia. Qed.
Lemma odd_2k k : Z.odd (2 * k) = false.
Proof. rewrite <- Z.negb_even. apply negb_false_iff, Z.even_spec. exists k; lia. Qed.

(* destruct every Z.odd test in the goal/hypotheses *)
Ltac odd_cases :=
  repeat match goal with
  | |- context [Z.odd ?x] => let E := fresh "E" in destruct (Z.odd x) eqn:E
  | H : context [Z.odd ?x] |- _ =>
      match type of H with
      | Z.odd x = true => fail 1
      | Z.odd x = false => fail 1
      | _ => let E := fresh "E" in destruct (Z.odd x) eqn:E
      end
  end;
  repeat match goal with
  | H : Z.odd _ = true |- _ => apply odd_div2 in H; destruct H
  | H : Z.odd _ = false |- _ => apply odd_false_div2 in H; destruct H
  end.

Lemma spinsCanCouple_correct j1 j2 J : spinsCanCouple j1 j2 J = true <-> couples j1 j2 J.
Proof.
  unfold spinsCanCouple, getSpinRange, couples, isOdd.
  destruct ((j1 <? 0) || (j2 <? 0)) eqn:Eneg; cbn [negb fst snd].
  - rewrite orb_true_iff, !Z.ltb_lt in Eneg. split; [discriminate|lia].
  - rewrite orb_false_iff, !Z.ltb_ge in Eneg.
    destruct ((J <? Z.abs (j1 - j2)) || (J >? j1 + j2)) eqn:E.
    + rewrite orb_true_iff, Z.ltb_lt, Z.gtb_lt in E. split; [discriminate|].
      intros (_ & _ & k & Hk & -> & Hle). lia.
    + rewrite orb_false_iff, Z.ltb_ge, Z.gtb_ltb, Z.ltb_ge in E.
      destruct (Z.odd (j1 + j2 - J)) eqn:Eo.
      * apply odd_div2 in Eo. destruct Eo as [k Hk].
        split; [discriminate|]. intros (_ & _ & k' & Hk' & HJ & Hle). lia.
      * apply odd_false_div2 in Eo. destruct Eo as [k Hk]. split; [intros _|reflexivity].
        repeat split; try lia. exists ((J - Z.abs (j1 - j2)) / 2).
        assert (exists q, J - Z.abs (j1 - j2) = 2 * q) as [q Hq].
        { destruct (Z.abs_spec (j1 - j2)) as [[? ->]|[? ->]].
          - exists (j2 - k); lia.
          - exists (j1 - k); lia. }
        replace (J - Z.abs (j1 - j2)) with (q * 2) by lia.
        rewrite Z.div_mul by lia. lia.
Qed.

Lemma getSpinRange_correct j1 j2 :
  (0 <= j1 -> 0 <= j2 ->
     exists lo hi, getSpinRange j1 j2 = ((lo, hi), true)
       /\ couples j1 j2 lo /\ couples j1 j2 hi
       /\ forall J, couples j1 j2 J -> lo <= J <= hi)
  /\ ((j1 < 0 \/ j2 < 0) -> exists lo hi, getSpinRange j1 j2 = ((lo, hi), false) /\ hi < lo).
Proof.
  unfold getSpinRange. split.
  - intros H1 H2. replace ((j1 <? 0) || (j2 <? 0)) with false by lia.
    exists (Z.abs (j1 - j2)), (j1 + j2). split; [reflexivity|]. unfold couples. repeat split; try lia.
    + exists 0. lia.
    + exists (Z.min j1 j2). lia.
    + destruct H as (_ & _ & k & ?); lia.
    + destruct H as (_ & _ & k & ?); lia.
  - intros H. replace ((j1 <? 0) || (j2 <? 0)) with true by lia. exists 0, (-1). split; [reflexivity|lia].
Qed.

Lemma loopStep2_In fuel s smax x :
  In x (loopStep2 fuel s smax) <->
  exists k, 0 <= k < Z.of_nat fuel /\ x = s + 2 * k /\ x <= smax.
Proof.
  revert s. induction fuel as [|f IH]; intros s; cbn [loopStep2].
  - split; [intros []|intros (k & Hk & _); lia].
  - destruct (s <=? smax) eqn:E.
    + cbn [In]. rewrite IH. split.
      * intros [<-|(k & Hk & -> & Hle)].
        -- exists 0; lia.
        -- exists (k + 1); lia.
      * intros (k & Hk & -> & Hle). destruct (Z.eq_dec k 0) as [->|].
        -- left; lia.
        -- right. exists (k - 1); lia.
    + split; [intros []|]. intros (k & Hk & -> & Hle). lia.
Qed.

Lemma spinLoop_In r x :
  In x (spinLoop r) <-> exists k, 0 <= k /\ x = fst r + 2 * k /\ x <= snd r.
Proof.
  unfold spinLoop. rewrite loopStep2_In. split.
  - intros (k & ? & ?); exists k; lia.
  - intros (k & ? & ? & ?); exists k; split; [|lia]. lia.
Qed.

Lemma loopStep2_sorted fuel s smax :
  StronglySorted Z.lt (loopStep2 fuel s smax).
Proof.
  revert s. induction fuel as [|f IH]; intros s; cbn [loopStep2]; [constructor|].
  destruct (s <=? smax); constructor; [apply IH|].
  apply Forall_forall. intros x Hx. apply loopStep2_In in Hx. destruct Hx as (k & ?); lia.
Qed.

Lemma largerEqual_spec q lo :
  let r := spinQnLargerEqual q lo in
  q <= r /\ lo <= r /\ (exists k, r = q + 2 * k) /\
  (forall x k, x = q + 2 * k -> q <= x -> lo <= x -> r <= x).
Proof.
  unfold spinQnLargerEqual, isEven, isOdd. cbv zeta.
  destruct (Z.odd q) eqn:E1; destruct (Z.odd lo) eqn:E2; cbn [negb];
  repeat match goal with
  | H : Z.odd _ = true |- _ => apply odd_div2 in H; destruct H
  | H : Z.odd _ = false |- _ => apply odd_false_div2 in H; destruct H
  end; subst; repeat split; try lia;
  match goal with |- exists _, Z.max ?a ?b = _ =>
     destruct (Z.max_spec a b) as [[? ->]|[? ->]];
     [eexists ((b - a) / 2) | exists 0]; try lia end.
  all: match goal with |- context [?z / 2] =>
       pose proof (Z.div_mod z 2 ltac:(lia)); pose proof (Z.mod_pos_bound z 2 ltac:(lia)) end; lia.
Qed.

Lemma smallerEqual_spec q hi :
  let r := spinQnSmallerEqual q hi in
  r <= q /\ r <= hi /\ (exists k, r = q + 2 * k) /\
  (forall x k, x = q + 2 * k -> x <= q -> x <= hi -> x <= r).
Proof.
  unfold spinQnSmallerEqual, isEven, isOdd. cbv zeta.
  destruct (Z.odd q) eqn:E1; destruct (Z.odd hi) eqn:E2; cbn [negb];
  repeat match goal with
  | H : Z.odd _ = true |- _ => apply odd_div2 in H; destruct H
  | H : Z.odd _ = false |- _ => apply odd_false_div2 in H; destruct H
  end; subst; repeat split; try lia;
  match goal with |- exists _, Z.min ?a ?b = _ =>
     destruct (Z.min_spec a b) as [[? ->]|[? ->]];
     [exists 0 | eexists ((b - a) / 2)]; try lia end.
  all: match goal with |- context [?z / 2] =>
       pose proof (Z.div_mod z 2 ltac:(lia)); pose proof (Z.mod_pos_bound z 2 ltac:(lia)) end; lia.
Qed.

Lemma demanded_loop j1 j2 lo hi :
  0 <= j1 -> 0 <= j2 ->
  forall S, In S (spinLoop (fst (getSpinRangeDemanded j1 j2 (lo, hi)))) <->
            couples j1 j2 S /\ lo <= S <= hi.
Proof.
  intros H1 H2 S. unfold getSpinRangeDemanded, getSpinRange.
  replace ((j1 <? 0) || (j2 <? 0)) with false by lia. cbn [negb fst snd].
  rewrite spinLoop_In. cbn [fst snd].
  pose proof (largerEqual_spec (Z.abs (j1 - j2)) lo) as Hl.
  pose proof (smallerEqual_spec (j1 + j2) hi) as Hs. cbv zeta in Hl, Hs.
  set (l := spinQnLargerEqual _ _) in *. set (s := spinQnSmallerEqual _ _) in *.
  destruct Hl as (Hl1 & Hl2 & (kl & Hl3) & Hl4). destruct Hs as (Hs1 & Hs2 & (ks & Hs3) & Hs4).
  unfold couples. split.
  - intros (k & Hk & -> & Hle). repeat split; try lia. exists (kl + k). lia.
  - intros ((_ & _ & k & Hk & HS & Hle) & Hr).
    assert (Hk': exists k', S = j1 + j2 + 2 * k').
    { destruct (Z.abs_spec (j1 - j2)) as [[? Ha]|[? Ha]];
        [exists (k - j2)|exists (k - j1)]; lia. }
    destruct Hk' as [k' Hk'].
    specialize (Hl4 S k ltac:(lia) ltac:(lia) ltac:(lia)).
    specialize (Hs4 S k' ltac:(lia) ltac:(lia) ltac:(lia)).
    exists (k - kl). lia.
Qed.

Lemma demanded_valid j1 j2 lo hi :
  snd (getSpinRangeDemanded j1 j2 (lo, hi)) = true <->
  exists S, couples j1 j2 S /\ lo <= S <= hi.
Proof.
  destruct (Z_lt_ge_dec j1 0) as [Hn|H1].
  { unfold getSpinRangeDemanded, getSpinRange. replace (j1 <? 0) with true by lia. cbn.
    split; [discriminate|]. intros (S & (? & _) & _). lia. }
  destruct (Z_lt_ge_dec j2 0) as [Hn|H2].
  { unfold getSpinRangeDemanded, getSpinRange. replace (j2 <? 0) with true by lia. rewrite orb_true_r. cbn.
    split; [discriminate|]. intros (S & (_ & ? & _) & _). lia. }
  setoid_rewrite <- (demanded_loop j1 j2 lo hi ltac:(lia) ltac:(lia)).
  setoid_rewrite spinLoop_In.
  unfold getSpinRangeDemanded, getSpinRange.
  replace ((j1 <? 0) || (j2 <? 0)) with false by lia. cbn [negb fst snd].
  split.
  - intros H. apply Z.leb_le in H. eexists. exists 0. split; [lia|]. split; [reflexivity|]. lia.
  - intros (S & k & Hk & -> & Hle). apply Z.leb_le. lia.
Qed.

Lemma minusOnePow_odd n : minusOnePow n = powMinusOne n.
Proof. unfold minusOnePow, powMinusOne. rewrite <- Z.negb_even. now destruct (Z.even n). Qed.

Lemma powMinusOne_sign n : isSign (powMinusOne n).
Proof. unfold powMinusOne, isSign. destruct (Z.odd n); auto. Qed.

Lemma powMinusOne_add a b : powMinusOne (a + b) = powMinusOne a * powMinusOne b.
Proof.
  unfold powMinusOne. rewrite Z.odd_add. destruct (Z.odd a), (Z.odd b); reflexivity.
Qed.
Lemma powMinusOne_0 : powMinusOne 0 = 1. Proof. reflexivity. Qed.
Lemma powMinusOne_1 : powMinusOne 1 = -1. Proof. reflexivity. Qed.

Lemma quot2_even J2 : 0 <= J2 -> Z.odd J2 = false -> J2 = 2 * Z.quot J2 2 /\ 0 <= Z.quot J2 2.
Proof.
  intros H1 H2. apply odd_false_div2 in H2. destruct H2 as [k ->].
  rewrite Z.mul_comm, Z.quot_mul by lia. lia.
Qed.

(* existence of a quark-model assignment, common to JPC and IGJP *)
Lemma qm_exists J P X :
  0 <= J -> isSign P -> isSign X ->
  ((exists L S, 0 <= L /\ (S = 0 \/ S = 1) /\ Z.abs (L - S) <= J <= L + S
       /\ P = powMinusOne (L + 1) /\ X = powMinusOne (L + S))
   <-> (if (J =? 0) && ((P =? -1) && (X =? -1)) then true
        else if (X =? - P) && negb (P =? powMinusOne (J + 1)) then true else false) = false).
Proof.
  intros HJ HP HX.
  assert (Hs : isSign (powMinusOne J)) by apply powMinusOne_sign.
  split.
  - intros (L & S & HL & HS & Hr & Hp & Hx).
    rewrite powMinusOne_add, powMinusOne_1 in Hp. rewrite powMinusOne_add in Hx.
    rewrite powMinusOne_add, powMinusOne_1.
    assert (HsL : isSign (powMinusOne L)) by apply powMinusOne_sign.
    destruct HS as [-> | ->].
    + assert (L = J) by lia. subst L. rewrite powMinusOne_0 in Hx.
      destruct HsL as [E|E]; rewrite E in *; subst P X.
      * destruct (J =? 0); reflexivity.
      * destruct (J =? 0) eqn:E0; [|reflexivity].
        assert (J = 0) by lia. subst J. discriminate E.
    + rewrite powMinusOne_1 in Hx. assert (HXP : X = P) by lia. clear Hx. subst X.
      replace (P =? - P) with false by (unfold isSign in HP; lia).
      rewrite andb_false_l.
      destruct ((J =? 0) && ((P =? -1) && (P =? -1))) eqn:E0; [|reflexivity].
      exfalso. assert (J = 0 /\ P = -1) as [-> ->] by lia.
      assert (L = 1) by lia. subst L. discriminate Hp.
  - destruct ((J =? 0) && ((P =? -1) && (X =? -1))) eqn:E0; [discriminate|].
    destruct ((X =? - P) && negb (P =? powMinusOne (J + 1))) eqn:E1; [discriminate|].
    intros _. rewrite powMinusOne_add, powMinusOne_1 in E1.
    destruct (Z.eq_dec X (-P)) as [->|Hne].
    + (* S = 0, L = J *)
      assert (P = powMinusOne J * -1).
      { destruct (P =? powMinusOne J * -1) eqn:E; [lia|].
        rewrite andb_false_iff in E1. destruct E1 as [E1|E1]; [lia|discriminate]. }
      exists J, 0. rewrite !powMinusOne_add, powMinusOne_1, powMinusOne_0. repeat split; try lia.
    + assert (X = P) by (unfold isSign in *; lia). subst X.
      (* S = 1; L = J if P = (-1)^(J+1), L = J+1 otherwise *)
      destruct (Z.eq_dec P (powMinusOne J * -1)) as [Hp|Hp].
      * destruct (Z.eq_dec J 0) as [->|HJ0].
        { exfalso. rewrite powMinusOne_0 in Hp. subst P. discriminate E0. }
        exists J, 1. rewrite !powMinusOne_add, powMinusOne_1. repeat split; try lia.
      * exists (J + 1), 1. rewrite !powMinusOne_add, powMinusOne_1. unfold isSign in *. repeat split; lia.
Qed.

Lemma jpcIsExotic_correct J P C :
  0 <= J -> isSign P -> isSign C ->
  (jpcIsExotic (2 * J) P C = true <-> ~ quarkModelJPC J P C).
Proof.
  intros HJ HP HC. unfold jpcIsExotic, isOdd.
  replace (P =? 0) with false by (unfold isSign in *; lia).
  replace (C =? 0) with false by (unfold isSign in *; lia).
  replace (2 * J <? 0) with false by lia. rewrite odd_2k. cbn [orb].
  rewrite Z.mul_comm, Z.quot_mul by lia.
  unfold quarkModelJPC. setoid_rewrite minusOnePow_odd.
  rewrite (qm_exists J P C HJ HP HC).
  match goal with |- ?x = true <-> _ => destruct x; intuition congruence end.
Qed.

Lemma igjpIsExotic_correct I G J P :
  0 <= I -> 0 <= J -> isSign P -> isSign G ->
  (igjpIsExotic (2 * I) G (2 * J) P = true <-> ~ quarkModelIGJP I G J P).
Proof.
  intros HI HJ HP HG. unfold igjpIsExotic, isOdd.
  replace (P =? 0) with false by (unfold isSign in *; lia).
  replace (G =? 0) with false by (unfold isSign in *; lia).
  replace (2 * J <? 0) with false by lia. replace (2 * I <? 0) with false by lia.
  rewrite !odd_2k. cbn [orb].
  rewrite (Z.mul_comm 2 I), (Z.mul_comm 2 J), !Z.quot_mul by lia.
  unfold quarkModelIGJP. setoid_rewrite minusOnePow_odd.
  assert (HsI : isSign (powMinusOne I)) by apply powMinusOne_sign.
  assert (HX : isSign (powMinusOne I * G)) by (unfold isSign in *; lia).
  pose proof (qm_exists J P (powMinusOne I * G) HJ HP HX) as Hq.
  assert (Heq : (exists L S, 0 <= L /\ (S = 0 \/ S = 1) /\ Z.abs (L - S) <= J <= L + S
       /\ P = powMinusOne (L + 1) /\ powMinusOne I * G = powMinusOne (L + S))
     <-> (exists L S, 0 <= L /\ (S = 0 \/ S = 1) /\ Z.abs (L - S) <= J <= L + S
       /\ P = powMinusOne (L + 1) /\ G = powMinusOne (I + L + S))).
  { split; intros (L & S & ? & ? & ? & ? & Hg); exists L, S; repeat split; try tauto; try lia.
    - rewrite <- Z.add_assoc, powMinusOne_add, <- Hg. destruct HsI as [-> | ->]; lia.
    - rewrite <- Z.add_assoc, powMinusOne_add in Hg. rewrite Hg. destruct HsI as [-> | ->]; lia. }
  rewrite <- Heq, Hq.
  rewrite (powMinusOne_add I 1), powMinusOne_1.
  assert (E1 : (J =? 0) && ((P =? -1) && (G =? powMinusOne I * P)) = (J =? 0) && ((P =? -1) && (powMinusOne I * G =? -1))).
  { destruct (P =? -1) eqn:E; [|now rewrite !andb_false_l].
    assert (P = -1) by lia. subst P. destruct HsI as [-> | ->]; f_equal; f_equal; lia. }
  assert (E2 : (G =? powMinusOne I * -1 * P) = (powMinusOne I * G =? - P)).
  { destruct HsI as [-> | ->]; lia. }
  rewrite E1, E2. match goal with |- ?x = true <-> _ => destruct x; intuition congruence end.
Qed.

Lemma spinProj_correct j m : spinAndProjAreCompatible j m = true <-> isProjOf j m.
Proof.
  unfold spinAndProjAreCompatible, isProjOf, isEven, isOdd.
  rewrite !andb_true_iff, !Z.leb_le, negb_true_iff. split.
  - intros ((H1 & H2) & H3). apply odd_false_div2 in H3. destruct H3 as [k Hk].
    split; [lia|]. exists (j - k). lia.
  - intros (H1 & k & Hk & ->). repeat split; try lia.
    replace (j - (- j + 2 * k)) with (2 * (j - k)) by lia. apply odd_2k.
Qed.
