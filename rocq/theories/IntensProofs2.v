(* Proofs for C83, continued: the invariant of the object. *)
From Coq Require Import String Ascii List ZArith Bool Reals Lia Lra.
From Coquelicot Require Import Complex.
From Verif Require Import PathModel StrModel ParticleModel ParticleProps FitResultModel AmpIntModel AmpIntProofs IntensModel IntensSpec IntensProofs.
Import ListNotations.
Open Scope list_scope.
Open Scope nat_scope.

Definition noX (t : list (op * bool)) : Prop := forall pr de b, ~ In (OInit true pr de, b) t.
Record inv (fr : fitResult) (t : list (op * bool)) (m : mi) : Prop := {
  i_fr : miFR m = fr;
  i_nf : miNoFlat m = noFlat fr;
  i_la : length (miAmps m) = nWaves fr;
  i_lr : length (miRefls m) = nWaves fr;
  i_lp : length (miPS m) = nWaves fr;
  i_all : incr (miAll m);
  i_slot : forall i s, nth_error (miAmps m) i = Some (Some s) ->
    addedAs fr t i (slAmp s) /\ nth_error (miRefls m) i = Some (daRefl (slAmp s)) /\ In (daRefl (slAmp s)) (miAll m) /\ (noX t -> slCut s = false);
  i_uniq : NoDup (frWaveNames fr) -> forall i a, addedAs fr t i a -> exists s, nth_error (miAmps m) i = Some (Some s) /\ slAmp s = a;
  i_zero : forall i, nth_error (miAmps m) i = Some None -> nth_error (miRefls m) i = Some 0%Z;
  i_init : miInit m = match lastInit t with Some _ => true | None => false end;
  i_names : forall fx de, lastInit t = Some (fx, de) -> miFromX m = fx /\ forall i w, nth_error (frWaveNames fr) i = Some w ->
    (w = lit "flat" /\ nth_error (miAmps m) i = Some None) \/ (w <> lit "flat" /\ exists s, nth_error (miAmps m) i = Some (Some s) /\ slNames s = de /\ (fx = true -> slCut s = true));
  i_load : miLoaded m = match lastNorms fr t with Some _ => true | None => false end;
  i_norm : forall ps, lastNorms fr t = Some ps -> miPS m = ps }.

Lemma lastInit_snoc t ob : lastInit (t ++ [ob]) = initStep (lastInit t) ob.
Proof. unfold lastInit. now rewrite fold_left_app. Qed.
Lemma lastNorms_snoc fr t ob : lastNorms fr (t ++ [ob]) = normStep (frWaveNames fr) (lastNorms fr t) ob.
Proof. unfold lastNorms. now rewrite fold_left_app. Qed.
Lemma added_snoc fr t i a ob : addedAs fr t i a -> addedAs fr (t ++ [ob]) i a.
Proof. intros [A B]. split; [exact A|]. apply in_or_app. now left. Qed.
Lemma added_inv fr t i a ob : addedAs fr (t ++ [ob]) i a -> addedAs fr t i a \/ (ob = (OAdd a, true) /\ nth_error (frWaveNames fr) i = Some (daName a)).
Proof. intros [A B]. apply in_app_or in B. destruct B as [B|[B|[]]]; [left; split; auto|right; auto]. Qed.
Lemma noX_snoc t ob : noX (t ++ [ob]) -> noX t.
Proof. intros H pr de b K. apply (H pr de b). apply in_or_app. now left. Qed.
Lemma nth_uniq {A} (l : list A) i j x : NoDup l -> nth_error l i = Some x -> nth_error l j = Some x -> i = j.
Proof. intros N E F. apply (proj1 (NoDup_nth_error l)); [exact N|apply nth_error_Some; congruence|congruence]. Qed.

Lemma inv_new fr : inv fr [] (newMI fr).
Proof.
  assert (forall i (x : option slot), nth_error (repeat None (nWaves fr)) i = Some x -> x = None) as RN.
  { intros i x H. apply nth_error_In in H. now apply repeat_spec in H. }
  constructor; cbn [miFR miNoFlat miAmps miRefls miPS miAll miInit miLoaded miFromX newMI].
  - reflexivity.
  - reflexivity.
  - apply repeat_length.
  - apply repeat_length.
  - destruct (Nat.eqb_spec (length (frPhaseSpace fr)) (nWaves fr)); [assumption|apply repeat_length].
  - exact I.
  - intros i s H. apply RN in H. discriminate.
  - intros _ i a [_ []].
  - intros i H. assert (i < nWaves fr) as L. { rewrite <- (repeat_length (@None slot) (nWaves fr)). apply nth_error_Some. congruence. }
    clear -L. revert i L. generalize (nWaves fr). intros n. induction n as [|n IH]; intros [|i] L; cbn; [lia|lia|reflexivity|apply IH; lia].
  - reflexivity.
  - discriminate.
  - unfold lastNorms. cbn [fold_left]. unfold nWaves. destruct (_ =? _); reflexivity.
  - intros ps. unfold lastNorms. cbn [fold_left]. unfold nWaves. destruct (_ =? _); [congruence|discriminate].
Qed.

Lemma inv_call fr t m o b m' : inv fr t m -> call o m = Some (b, m') -> inv fr (t ++ [(o, b)]) m'.
Proof.
  intros V H. destruct o as [a|mat|fx pr de]; cbn [call] in H.
  - (* add *)
    unfold addDecayAmplitude in H. rewrite (i_fr _ _ _ V) in H.
    assert (forall t', (t' = t ++ [(OAdd a, false)]) -> inv fr t' m) as FAIL.
    { intros t' ->. destruct V. constructor; auto.
      - intros i s K. destruct (i_slot0 i s K) as (A & B & D & F). split; [now apply added_snoc|]. split; [exact B|]. split; [exact D|]. intros N. apply F. now apply noX_snoc in N.
      - intros N i x K. apply added_inv in K. destruct K as [K|[K _]]; [now apply i_uniq0|discriminate].
      - now rewrite lastInit_snoc.
      - intros fx de. rewrite lastInit_snoc. cbn [initStep]. apply i_names0.
      - now rewrite lastNorms_snoc.
      - intros ps. rewrite lastNorms_snoc. apply i_norm0. }
    destruct (waveIndexOf fr (daName a)) as [i|] eqn:EW; [|injection H as <- <-; now apply FAIL].
    destruct (nth_error (miAmps m) i) as [old|] eqn:EO; cbn [bindP] in H; [|discriminate].
    destruct old as [s0|]; [injection H as <- <-; now apply FAIL|]. injection H as <- <-. clear FAIL.
    unfold waveIndexOf in EW. apply findStr_nth in EW.
    assert (i < nWaves fr) as LI by (unfold nWaves; apply nth_error_Some; congruence).
    assert (forall j, nth_error (put (miAmps m) i (Some (Slot a false []))) j = if j =? i then Some (Some (Slot a false [])) else nth_error (miAmps m) j) as PA.
    { intros j. rewrite put_nth, (i_la _ _ _ V). destruct (Nat.eqb_spec j i) as [->|]; [|reflexivity]. now destruct (Nat.ltb_spec i (nWaves fr)); [|lia]. }
    assert (forall j, nth_error (put (miRefls m) i (daRefl a)) j = if j =? i then Some (daRefl a) else nth_error (miRefls m) j) as PR.
    { intros j. rewrite put_nth, (i_lr _ _ _ V). destruct (Nat.eqb_spec j i) as [->|]; [|reflexivity]. now destruct (Nat.ltb_spec i (nWaves fr)); [|lia]. }
    destruct V. constructor; cbn [miFR miNoFlat miAmps miRefls miPS miAll miInit miLoaded miFromX]; auto.
    + now rewrite put_length.
    + now rewrite put_length.
    + now apply setInsert_incr.
    + intros j s. rewrite PA, PR. destruct (Nat.eqb_spec j i) as [->|NE].
      * intros [= <-]. cbn [slAmp slCut]. split; [split; [exact EW|apply in_or_app; right; now left]|]. split; [reflexivity|]. split; [apply setInsert_in; auto|reflexivity].
      * intros K. destruct (i_slot0 j s K) as (A & B & D & F). split; [now apply added_snoc|]. split; [exact B|]. split; [apply setInsert_in; auto|]. intros N. apply F. now apply noX_snoc in N.
    + intros ND j x K. rewrite PA. apply added_inv in K. destruct K as [K|[K EJ]].
      * destruct (i_uniq0 ND j x K) as (s & E1 & E2). destruct (Nat.eqb_spec j i) as [->|]; [congruence|]. eauto.
      * injection K as <-. assert (j = i) as -> by exact (nth_uniq _ _ _ _ ND EJ EW). rewrite Nat.eqb_refl. eexists. split; reflexivity.
    + intros j. rewrite PA, PR. destruct (Nat.eqb_spec j i); [discriminate|apply i_zero0].
    + now rewrite lastInit_snoc.
    + intros fx de. now rewrite lastInit_snoc.
    + now rewrite lastNorms_snoc.
    + intros ps. rewrite lastNorms_snoc. apply i_norm0.
  - (* load *)
    unfold loadPhaseSpaceIntegral in H. rewrite (i_fr _ _ _ V) in H. destruct (loadLoop _ _ _ _) as [[ok ps]|] eqn:EL; cbn [bindP] in H; [|discriminate]. injection H as <- <-.
    assert (length ps = nWaves fr) as LP by (apply loadLoop_length in EL; now rewrite resizeR_length in EL).
    destruct V. constructor; cbn [miFR miNoFlat miAmps miRefls miPS miAll miInit miLoaded miFromX]; auto.
    + intros i s K. destruct (i_slot0 i s K) as (A & B & D & F). split; [now apply added_snoc|]. split; [exact B|]. split; [exact D|]. intros N. apply F. now apply noX_snoc in N.
    + intros ND i x K. apply added_inv in K. destruct K as [K|[K _]]; [now apply i_uniq0|discriminate].
    + rewrite lastInit_snoc. destruct ok; exact i_init0.
    + intros fx de. rewrite lastInit_snoc. destruct ok; apply i_names0.
    + rewrite lastNorms_snoc. destruct ok; reflexivity.
    + intros q. rewrite lastNorms_snoc. destruct ok; cbn [normStep]; [|discriminate]. intros [= <-]. apply loadLoop_ok in EL; [exact EL|]. rewrite resizeR_length. reflexivity.
  - (* init *)
    unfold initDecayAmplitudes in H. rewrite (i_fr _ _ _ V) in H. destruct (initLoop _ _ _ _ _ _) as [[ok amps]|] eqn:EL; cbn [bindP] in H; [|discriminate]. injection H as <- <-.
    apply initLoop_elems in EL. destruct EL as (L & _ & EC & ED).
    assert (forall i s', nth_error amps i = Some (Some s') -> exists s, nth_error (miAmps m) i = Some (Some s) /\ (s' = s \/ s' = slotInit fx de s)) as BACK.
    { intros i s' K. destruct (nth_error (miAmps m) i) as [x|] eqn:EX.
      - destruct (EC i x EX) as [Q|(s & -> & Q)]; [exists s'; split; [congruence|now left]|]. exists s. split; [reflexivity|right; congruence].
      - exfalso. apply nth_error_None in EX. rewrite <- L in EX. apply nth_error_None in EX. congruence. }
    destruct V. constructor; cbn [miFR miNoFlat miAmps miRefls miPS miAll miInit miLoaded miFromX]; auto.
    + now rewrite L.
    + intros i s' K. destruct (BACK i s' K) as (s & E1 & E2). destruct (i_slot0 i s E1) as (A & B & D & F). assert (slAmp s' = slAmp s) as -> by (destruct E2 as [E2|E2]; subst s'; reflexivity).
      split; [now apply added_snoc|]. split; [exact B|]. split; [exact D|]. intros N. pose proof (noX_snoc _ _ N) as N2. destruct E2 as [E2|E2]; subst s'; [now apply F|]. cbn [slotInit slCut]. rewrite (F N2), orb_false_r.
      destruct fx; [exfalso; apply (N pr de ok); apply in_or_app; right; now left|reflexivity].
    + intros ND i x K. apply added_inv in K. destruct K as [K|[K _]]; [|discriminate]. destruct (i_uniq0 ND i x K) as (s & E1 & E2).
      destruct (EC i _ E1) as [Q|(s2 & Q1 & Q2)]; [eauto|]. injection Q1 as <-. exists (slotInit fx de s). split; [exact Q2|exact E2].
    + intros i K. apply i_zero0. destruct (nth_error (miAmps m) i) as [x|] eqn:EX.
      * destruct (EC i x EX) as [Q|(s & -> & Q)]; congruence.
      * exfalso. apply nth_error_None in EX. rewrite <- L in EX. apply nth_error_None in EX. congruence.
    + rewrite lastInit_snoc. destruct ok; reflexivity.
    + intros fx' de'. rewrite lastInit_snoc. destruct ok; cbn [initStep]; [|discriminate]. intros [= <- <-]. split; [reflexivity|]. intros i w K. destruct (ED eq_refl i w K) as [Q|(Q & s & Q1 & Q2)]; [now left|].
      right. split; [exact Q|]. eexists. split; [exact Q2|]. cbn. split; [reflexivity|]. intros ->. reflexivity.
    + rewrite lastNorms_snoc. destruct ok; exact i_load0.
    + intros ps. rewrite lastNorms_snoc. destruct ok; apply i_norm0.
Qed.
Lemma hist_inv fr t m : hist fr t m -> inv fr t m.
Proof. induction 1; [apply inv_new|eapply inv_call; eassumption]. Qed.
