(* Proofs for C83: the object after a history of calls, and the sums. *)
From Coq Require Import String Ascii List ZArith Bool Reals Lia Lra.
From Coquelicot Require Import Complex.
From Verif Require Import PathModel StrModel ParticleModel ParticleProps FitResultModel AmpIntModel AmpIntProofs IntensModel IntensSpec.
Import ListNotations.
Open Scope list_scope.
Open Scope nat_scope.

Lemma put_length {A} (l : list A) i x : length (put l i x) = length l.
Proof. revert i. induction l as [|y l IH]; intros [|i]; cbn; congruence. Qed.
Lemma put_nth {A} (l : list A) i x j : nth_error (put l i x) j = if j =? i then (if j <? length l then Some x else None) else nth_error l j.
Proof.
  revert i j. induction l as [|y l IH]; intros i j; cbn [put].
  - destruct j; destruct (_ =? i); reflexivity.
  - destruct i as [|i], j as [|j]; cbn [nth_error length Nat.eqb]; [reflexivity|reflexivity|reflexivity|]. rewrite IH. change (S j <? S (length l)) with (j <? length l). reflexivity.
Qed.
Lemma findStr_nth w l i : findStr w l = Some i -> nth_error l i = Some w.
Proof.
  revert i. induction l as [|x l IH]; intros i; cbn [findStr]; [discriminate|]. destruct (str_eqb x w) eqn:E.
  - intros [= <-]. apply str_eqb_eq in E. now subst.
  - destruct (findStr w l) as [k|]; [|discriminate]. intros [= <-]. cbn. now apply IH.
Qed.
Lemma findStr_in w l : In w l -> exists i, findStr w l = Some i.
Proof.
  induction l as [|x l IH]; intros H; [destruct H|]. cbn [findStr]. destruct (str_eqb x w) eqn:E; [eauto|].
  destruct H as [->|H]; [now rewrite str_eqb_refl in E|]. destruct (IH H) as (i & ->). eauto.
Qed.
Fixpoint incr (l : list Z) : Prop := match l with [] => True | x :: r => (forall y, In y r -> (x < y)%Z) /\ incr r end.
Lemma setInsert_in x l y : incr l -> In y (setInsert x l) <-> y = x \/ In y l.
Proof.
  induction l as [|z l IH]; intros H; cbn [setInsert]; [cbn; intuition|]. destruct H as [H1 H2]. specialize (IH H2).
  destruct (Z.ltb_spec x z); [cbn; intuition|]. destruct (Z.ltb_spec z x); [cbn; rewrite IH; cbn; intuition|].
  assert (x = z) as -> by lia. cbn. intuition.
Qed.
Lemma setInsert_incr x l : incr l -> incr (setInsert x l).
Proof.
  induction l as [|z l IH]; intros H; cbn [setInsert]; [cbn; intuition; contradiction|]. pose proof H as [H1 H2].
  destruct (Z.ltb_spec x z) as [L|L].
  - split; [|exact H]. intros y [<-|K]; [exact L|]. specialize (H1 y K). lia.
  - destruct (Z.ltb_spec z x) as [L2|L2]; [|exact H]. split; [|now apply IH]. intros y K. apply setInsert_in in K; [|exact H2]. destruct K as [E|K]; [lia|now apply H1].
Qed.
Lemma incr_nodup l : incr l -> NoDup l.
Proof. induction l as [|x l IH]; intros H; constructor; destruct H as [H1 H2]; [|now apply IH]. intros K. specialize (H1 x K). lia. Qed.

(* ---- loading integrals ---- *)
Lemma loadLoop_length mat todo : forall i ps ok ps', loadLoop mat i todo ps = Some (ok, ps') -> length ps' = length ps.
Proof.
  induction todo as [|w todo IH]; intros i ps ok ps'; cbn [loadLoop]; [now intros [= _ <-]|].
  destruct (str_eqb w (lit "flat")); [intros H; apply IH in H; now rewrite put_length in H|].
  destruct (negb (containsWave mat w)); [now intros [= _ <-]|].
  destruct (waveIndex mat w) as [k|]; cbn [bindP]; [|discriminate]. destruct (nmbEvents mat =? 0)%Z; [discriminate|].
  destruct (element mat k k) as [x|]; cbn [bindP]; [|discriminate]. destruct (PhaseModel.osqrt (Re x)) as [r|]; cbn [bindP]; [|discriminate].
  intros H. apply IH in H. now rewrite put_length in H.
Qed.
Lemma osqrt_val x r : PhaseModel.osqrt x = Some r -> r = sqrt x.
Proof. unfold PhaseModel.osqrt. destruct (PhysModel.rltb x 0); [discriminate|congruence]. Qed.
Lemma loadLoop_ok mat todo : forall i ps ps', length ps = i + length todo -> loadLoop mat i todo ps = Some (true, ps') -> ps' = firstn i ps ++ map (normIn mat) todo.
Proof.
  induction todo as [|w todo IH]; intros i ps ps' L; cbn [loadLoop].
  - intros [= <-]. cbn in *. rewrite app_nil_r. symmetry. apply firstn_all2. lia.
  - assert (forall r, put ps i r = firstn i ps ++ r :: skipn (S i) ps) as PE.
    { intros r. clear -L. revert i L. induction ps as [|y ps IHp]; intros i L; [cbn in L; lia|]. destruct i; [reflexivity|]. cbn [put firstn skipn app]. f_equal. apply IHp. cbn in *. lia. }
    assert (forall r, loadLoop mat (S i) todo (put ps i r) = Some (true, ps') -> r = normIn mat w -> ps' = firstn i ps ++ map (normIn mat) (w :: todo)) as K.
    { intros r H E. apply IH in H; [|rewrite put_length; cbn in L; lia]. rewrite H, PE. cbn [map]. rewrite E.
      rewrite firstn_app, firstn_firstn, firstn_length. replace (Nat.min (S i) i) with i by lia. replace (S i - Nat.min i (length ps)) with 1 by (cbn in L; lia). cbn [firstn]. now rewrite <- app_assoc. }
    destruct (str_eqb w (lit "flat")) eqn:EF; [intros H; apply (K 1%R H); unfold normIn; now rewrite EF|].
    destruct (containsWave mat w) eqn:EC; cbn [negb]; [|discriminate].
    destruct (waveIndex mat w) as [k|] eqn:EW; cbn [bindP]; [|discriminate]. destruct (nmbEvents mat =? 0)%Z; [discriminate|].
    destruct (element mat k k) as [x|] eqn:EE; cbn [bindP]; [|discriminate]. destruct (PhaseModel.osqrt (Re x)) as [r|] eqn:ES; cbn [bindP]; [|discriminate].
    intros H. apply (K r H). unfold normIn. rewrite EF, EW, EE. now apply osqrt_val.
Qed.
Lemma resizeR_length n l : length (resizeR n l) = n.
Proof. unfold resizeR. rewrite app_length, firstn_length, repeat_length. lia. Qed.

(* ---- initialising amplitudes ---- *)
Definition slotInit (fx : bool) (de : list str) (s : slot) : slot := Slot (slAmp s) (fx || slCut s) de.
(* what initLoop does to the elements *)
Lemma initLoop_elems fx de todo : forall i names amps ok amps', initLoop fx de i todo names amps = Some (ok, amps') ->
  length amps' = length amps
  /\ (forall j, j < i -> nth_error amps' j = nth_error amps j)
  /\ (forall j x, nth_error amps j = Some x -> nth_error amps' j = Some x \/ exists s, x = Some s /\ nth_error amps' j = Some (Some (slotInit fx de s)))
  /\ (ok = true -> forall k w, nth_error todo k = Some w ->
        (w = lit "flat" /\ nth_error amps' (i + k) = Some None) \/ (w <> lit "flat" /\ exists s, nth_error amps (i + k) = Some (Some s) /\ nth_error amps' (i + k) = Some (Some (slotInit fx de s)))).
Proof.
  induction todo as [|w todo IH]; intros i names amps ok amps'; cbn [initLoop].
  - intros [= <- <-]. repeat split; auto. intros _ [|k] w; discriminate.
  - destruct (nth_error amps i) as [a|] eqn:EA; cbn [bindP]; [|discriminate].
    destruct (str_eqb w (lit "flat")) eqn:EF.
    + destruct a as [s|]; [intros [= <- <-]; repeat split; auto; discriminate|]. intros H. apply IH in H. destruct H as (L & B & C & D). split; [exact L|]. split; [intros j Hj; apply B; lia|]. split; [exact C|].
      intros E [|k] w'; cbn [nth_error].
      * intros [= <-]. left. apply str_eqb_eq in EF. split; [exact EF|]. rewrite Nat.add_0_r, B by lia. exact EA.
      * intros K. rewrite <- Nat.add_succ_comm. now apply D.
    + destruct a as [s|]; [|intros [= <- <-]; repeat split; auto; discriminate].
      set (names' := if _ && fx then _ else names). fold (slotInit fx de s). set (am := put amps i (Some (slotInit fx de s))).
      assert (forall j, nth_error am j = if j =? i then Some (Some (slotInit fx de s)) else nth_error amps j) as PN.
      { intros j. unfold am. rewrite put_nth. destruct (Nat.eqb_spec j i) as [->|]; [|reflexivity]. assert (i < length amps) by (apply nth_error_Some; congruence). now destruct (Nat.ltb_spec i (length amps)); [|lia]. }
      assert (length am = length amps) as PL by apply put_length.
      assert (forall j x, nth_error amps j = Some x -> nth_error am j = Some x \/ exists s', x = Some s' /\ nth_error am j = Some (Some (slotInit fx de s'))) as PC.
      { intros j x HX. rewrite PN. destruct (Nat.eqb_spec j i) as [->|]; [|now left]. right. exists s. split; [congruence|reflexivity]. }
      destruct (negb (daInit (slAmp s) (fx || slCut s) names' de)).
      * intros [= <- <-]. split; [exact PL|]. split; [|split; [exact PC|discriminate]]. intros j Hj. rewrite PN. destruct (Nat.eqb_spec j i); [lia|reflexivity].
      * intros H. apply IH in H. destruct H as (L & B & C & D). split; [congruence|]. split; [|split].
        -- intros j Hj. rewrite B by lia. rewrite PN. destruct (Nat.eqb_spec j i); [lia|reflexivity].
        -- intros j x HX. destruct (Nat.eqb_spec j i) as [->|NE].
           ++ right. exists s. split; [congruence|]. rewrite B by lia. rewrite PN, Nat.eqb_refl. reflexivity.
           ++ assert (nth_error am j = Some x) as K by (rewrite PN; destruct (Nat.eqb_spec j i); [lia|exact HX]). exact (C j x K).
        -- intros E [|k] w'; cbn [nth_error].
           ++ intros [= <-]. right. split; [intros ->; now rewrite str_eqb_refl in EF|]. exists s. rewrite Nat.add_0_r. split; [exact EA|]. rewrite B by lia. rewrite PN, Nat.eqb_refl. reflexivity.
           ++ intros K. destruct (D E k w' K) as [Q|(Q & s' & Q1 & Q2)]; rewrite <- Nat.add_succ_comm; [now left|]. right. split; [exact Q|]. exists s'. split; [|exact Q2].
              rewrite PN in Q1. destruct (Nat.eqb_spec (S i + k) i); [lia|exact Q1].
Qed.
