(* C83, continued: when the calls succeed. *)
From Coq Require Import String Ascii List ZArith Bool Reals Lia Lra Psatz.
From Coquelicot Require Import Complex.
From Verif Require Import PathModel StrModel ParticleModel ParticleProps FitResultModel AmpIntModel AmpIntProofs AmpIntProps2 FitSdmProps FitIntProps IntensModel IntensSpec IntensProofs IntensProofs2 IntensProps.
Import ListNotations.
Open Scope list_scope.
Open Scope nat_scope.

(* After a successful initialisation with all integrals known and not zero, the intensity of any waves
   can be calculated if the amplitudes can. *)
Theorem C83_defined fr t m idx prod dec fx de ps : hist fr t m -> NoDup (frWaveNames fr) -> lastInit t = Some (fx, de) -> lastNorms fr t = Some ps ->
  (fx = true \/ forall pr de b, ~ In (OInit true pr de, b) t) -> (forall n, In n ps -> n <> 0%R) ->
  (forall i a, addedAs fr t i a -> daEval a fx de prod dec <> None) ->
  proper fr idx -> (forall i, In i idx -> i < length (frAmps fr)) -> exists x, getIntensity m idx prod dec = Some x.
Proof.
  intros H ND EL EN FX NZ EV PR LA. pose proof (hist_inv _ _ _ H) as V. destruct (i_names _ _ _ V fx de EL) as [_ SL]. pose proof (i_norm _ _ _ V ps EN) as EP.
  unfold getIntensity. assert (exists amps, getDecayAmplitudes m prod dec = Some amps) as (amps & EA).
  { unfold getDecayAmplitudes. rewrite (i_init _ _ _ V), (i_load _ _ _ V), EL, EN. cbn [negb]. apply mapP_ok. intros i Hi. apply in_seq in Hi. rewrite (i_fr _ _ _ V) in Hi. unfold nWaves in Hi.
    destruct (nth_error (frWaveNames fr) i) as [w|] eqn:Ew; [|apply nth_error_None in Ew; lia].
    destruct (nth_error (miPS m) i) as [n|] eqn:En; [|apply nth_error_None in En; rewrite (i_lp _ _ _ V) in En; unfold nWaves in En; lia].
    assert (n <> 0%R) as N0 by (apply NZ; rewrite <- EP; now apply nth_error_In in En).
    unfold waveAmp. rewrite En. destruct (SL i w Ew) as [[_ Q]|(_ & s & Q1 & Q2 & Q3)].
    - rewrite Q. cbn [bindP]. unfold cdivR. destruct (Req_EM_T n 0); [contradiction|eauto].
    - rewrite Q1. cbn [bindP]. destruct (i_slot _ _ _ V i s Q1) as (A & _ & _ & F).
      assert (slCut s = fx) as ->. { destruct fx; [now apply Q3|]. destruct FX as [Q|Q]; [discriminate|]. apply F. exact Q. }
      rewrite Q2. destruct (daEval (slAmp s) fx de prod dec) as [y|] eqn:Ey; [|exfalso; now apply (EV i _ A)]. cbn [bindP]. unfold cdivR. destruct (Req_EM_T n 0); [contradiction|eauto]. }
  rewrite EA. cbn [bindP].
  assert (forall i, In i idx -> exists s, nth_error (miAmps m) i = Some (Some s)) as SA.
  { intros i Hi. destruct (PR i Hi) as (w & Ew & NF). destruct (SL i w Ew) as [[Q _]|(_ & s & Q1 & _)]; [contradiction|eauto]. }
  set (refl := fun i => nth i (miRefls m) 0%Z). set (z := fun i => (nth i (frAmps fr) (RtoC 0) * nth i amps (RtoC 0))%C).
  rewrite (incohSum_val m amps idx refl z); [eauto|]. intros i Hi. destruct (SA i Hi) as (s & Q1). destruct (i_slot _ _ _ V i s Q1) as (_ & B & _). split; [rewrite B; unfold refl; f_equal; symmetry; now apply nth_error_nth|].
  destruct (amps_of fr t m V prod dec amps i _ EA Q1) as (y & n & _ & _ & _ & Y4). exists (nth i (frAmps fr) (RtoC 0)), (nth i amps (RtoC 0)). unfold prodAmpAt. rewrite (i_fr _ _ _ V).
  split; [apply nth_error_nth'; now apply LA|]. split; [|reflexivity]. rewrite Y4. f_equal. symmetry. now apply nth_error_nth.
Qed.
(* addDecayAmplitude accepts the first amplitude of every wave of the fit result, and nothing else. *)
Theorem C83_add fr t m a : hist fr t m -> NoDup (frWaveNames fr) -> exists b m', addDecayAmplitude a m = Some (b, m')
  /\ (b = true <-> In (daName a) (frWaveNames fr) /\ forall a', In (OAdd a', true) t -> daName a' <> daName a) /\ (b = false -> m' = m).
Proof.
  intros H ND. pose proof (hist_inv _ _ _ H) as V. unfold addDecayAmplitude. rewrite (i_fr _ _ _ V). unfold waveIndexOf. destruct (findStr (daName a) (frWaveNames fr)) as [i|] eqn:EW.
  - apply findStr_nth in EW. assert (i < nWaves fr) as L by (unfold nWaves; apply nth_error_Some; congruence). pose proof (nth_error_In _ _ EW) as IN.
    destruct (nth_error (miAmps m) i) as [old|] eqn:EO; [|apply nth_error_None in EO; rewrite (i_la _ _ _ V) in EO; lia]. cbn [bindP]. destruct old as [s|].
    + eexists _, _. split; [reflexivity|]. split; [|reflexivity]. split; [discriminate|]. intros [_ Q]. exfalso. destruct (i_slot _ _ _ V i s EO) as ((A & B) & _). apply (Q _ B). congruence.
    + eexists _, _. split; [reflexivity|]. split; [|discriminate]. split; [|reflexivity]. intros _. split; [exact IN|]. intros a' IA E.
      destruct (i_uniq _ _ _ V ND i a') as (s & Q & _); [split; [congruence|exact IA]|]. congruence.
  - eexists _, _. split; [reflexivity|]. split; [|reflexivity]. split; [discriminate|]. intros [Q _]. destruct (findStr_in _ _ Q) as (i & E). congruence.
Qed.
(* loadPhaseSpaceIntegral succeeds exactly if all waves but the flat one are in the matrix. *)
Theorem C83_load fr t m mat b m' : hist fr t m -> loadPhaseSpaceIntegral mat m = Some (b, m') ->
  (b = true <-> forall w, In w (frWaveNames fr) -> w <> lit "flat" -> In w (waveNames mat)).
Proof.
  intros H. pose proof (hist_inv _ _ _ H) as V. unfold loadPhaseSpaceIntegral. rewrite (i_fr _ _ _ V). destruct (loadLoop _ _ _ _) as [[ok ps]|] eqn:EL; cbn [bindP]; [|discriminate]. intros [= <- _].
  revert EL. generalize (resizeR (nWaves fr) (miPS m)). generalize 0. intros i ps0. revert i ps0. induction (frWaveNames fr) as [|w l IH]; intros i ps0; cbn [loadLoop].
  - intros [= <- _]. split; [intros _ w []|reflexivity].
  - destruct (str_eqb w (lit "flat")) eqn:EF.
    + intros E. rewrite (IH _ _ E). apply str_eqb_eq in EF. split; [intros Q u [<-|K] NE; [congruence|now apply Q]|]. intros Q u K. apply Q. now right.
    + assert (w <> lit "flat") as NF by (intros ->; now rewrite str_eqb_refl in EF).
      destruct (containsWave mat w) eqn:EC; cbn [negb].
      * assert (In w (waveNames mat)) as IW. { unfold containsWave in EC. apply existsb_exists in EC. destruct EC as (u & IU & E). apply str_eqb_eq in E. now subst. }
        destruct (waveIndex mat w) as [k|]; cbn [bindP]; [|discriminate]. destruct (nmbEvents mat =? 0)%Z; [discriminate|].
        destruct (element mat k k) as [x|]; cbn [bindP]; [|discriminate]. destruct (PhaseModel.osqrt (Re x)) as [r|]; cbn [bindP]; [|discriminate].
        intros E. rewrite (IH _ _ E). split; [intros Q u [<-|K] NE; [exact IW|now apply Q]|]. intros Q u K. apply Q. now right.
      * intros [= <- _]. split; [discriminate|]. intros Q. exfalso. assert (In w (waveNames mat)) as IW by (apply Q; [now left|exact NF]).
        assert (containsWave mat w = true); [|congruence]. unfold containsWave. apply existsb_exists. exists w. split; [exact IW|apply str_eqb_refl].
Qed.
(* It never aborts if the matrix has events and its diagonal elements are not negative. *)
Theorem C83_load_defined fr t m mat : hist fr t m -> nmbEvents mat <> 0%Z ->
  (forall w k, waveIndex mat w = Some k -> exists x, element mat k k = Some x /\ (0 <= Re x)%R) -> loadPhaseSpaceIntegral mat m <> None.
Proof.
  intros H NE EL. unfold loadPhaseSpaceIntegral. assert (forall l i ps, loadLoop mat i l ps <> None) as K.
  { induction l as [|w l IH]; intros i ps; cbn [loadLoop]; [discriminate|]. destruct (str_eqb w (lit "flat")); [apply IH|]. destruct (containsWave mat w) eqn:EC; cbn [negb]; [|discriminate].
    assert (exists k, waveIndex mat w = Some k) as (k & EK).
    { unfold containsWave in EC. apply existsb_exists in EC. destruct EC as (u & IU & E). apply str_eqb_eq in E. subst u. unfold waveIndex. clear -IU. induction (waveNames mat) as [|y r IHr]; [destruct IU|]. cbn [findIdx].
      destruct (str_eqb y w) eqn:E; [eauto|]. destruct IU as [->|IU]; [now rewrite str_eqb_refl in E|]. destruct (IHr IU) as (k & ->). eauto. }
    rewrite EK. cbn [bindP]. destruct (Z.eqb_spec (nmbEvents mat) 0); [contradiction|]. destruct (EL w k EK) as (x & -> & P). cbn [bindP]. unfold PhaseModel.osqrt. unfold PhysModel.rltb. destruct (Rlt_dec (Re x) 0); [lra|]. cbn [bindP]. apply IH. }
  destruct (loadLoop _ _ _ _) as [[ok ps]|] eqn:E; [discriminate|]. exfalso. now apply K in E.
Qed.
Definition effNames (fx : bool) (names : list str) (s : slot) : list str :=
  if (match names with [] => true | n :: _ => str_eqb n [] end) && fx then [daXName (slAmp s)] else names.
Lemma initLoop_result fx de eff todo : forall i names amps, length amps = i + length todo ->
  (forall s j, nth_error amps j = Some (Some s) -> effNames fx names s = eff /\ effNames fx eff s = eff) ->
  exists ok amps', initLoop fx de i todo names amps = Some (ok, amps')
    /\ (ok = true <-> forall k w, nth_error todo k = Some w -> (w = lit "flat" -> nth_error amps (i + k) = Some None)
          /\ (w <> lit "flat" -> exists s, nth_error amps (i + k) = Some (Some s) /\ daInit (slAmp s) (fx || slCut s) eff de = true)).
Proof.
  induction todo as [|w todo IH]; intros i names amps L HE; cbn [initLoop].
  - eexists _, _. split; [reflexivity|]. split; [|reflexivity]. intros _ [|k] w; discriminate.
  - destruct (nth_error amps i) as [a|] eqn:EA; [|apply nth_error_None in EA; cbn in L; lia]. cbn [bindP].
    destruct (str_eqb w (lit "flat")) eqn:EF.
    + apply str_eqb_eq in EF. destruct a as [s|].
      * eexists _, _. split; [reflexivity|]. split; [discriminate|]. intros Q. destruct (Q 0 w eq_refl) as [Q1 _]. specialize (Q1 EF). rewrite Nat.add_0_r in Q1. congruence.
      * destruct (IH (S i) names amps) as (ok & am & E1 & E2); [cbn in *; lia|exact HE|]. exists ok, am. split; [exact E1|]. rewrite E2. split.
        -- intros Q [|k] u; cbn [nth_error]; [intros [= <-]; rewrite Nat.add_0_r; split; [now intros _|congruence]|]. rewrite <- Nat.add_succ_comm. apply Q.
        -- intros Q k u K. rewrite Nat.add_succ_comm. now apply (Q (S k) u).
    + assert (w <> lit "flat") as NF by (intros ->; now rewrite str_eqb_refl in EF). destruct a as [s|].
      * fold (effNames fx names s). destruct (HE s i EA) as [H1 H2]. rewrite H1. fold (slotInit fx de s). set (am0 := put amps i (Some (slotInit fx de s))).
        assert (forall j, nth_error am0 j = if j =? i then Some (Some (slotInit fx de s)) else nth_error amps j) as PN.
        { intros j. unfold am0. rewrite put_nth. destruct (Nat.eqb_spec j i) as [->|]; [|reflexivity]. assert (i < length amps) by (apply nth_error_Some; congruence). now destruct (Nat.ltb_spec i (length amps)); [|lia]. }
        destruct (daInit (slAmp s) (fx || slCut s) eff de) eqn:ED; cbn [negb].
        -- destruct (IH (S i) eff am0) as (ok & am & E1 & E2); [unfold am0; rewrite put_length; cbn in *; lia| |].
           { intros s' j. rewrite PN. destruct (Nat.eqb_spec j i) as [->|].
             - intros [= <-]. unfold effNames in *. cbn [slotInit slAmp]. auto.
             - intros Q. destruct (HE s' j Q) as [_ Q2]. auto. }
           exists ok, am. split; [exact E1|]. rewrite E2. clear E1 E2. split.
           ++ intros Q [|k] u; cbn [nth_error]; [intros [= <-]; rewrite Nat.add_0_r; split; [congruence|]; intros _; eauto|]. intros K. destruct (Q k u K) as [Q1 Q2]. rewrite PN in Q1, Q2. destruct (Nat.eqb_spec (S i + k) i); [lia|]. rewrite <- Nat.add_succ_comm. auto.
           ++ intros Q k u K. rewrite PN. destruct (Nat.eqb_spec (S i + k) i); [lia|]. rewrite Nat.add_succ_comm. now apply (Q (S k) u).
        -- eexists _, _. split; [reflexivity|]. split; [discriminate|]. intros Q. destruct (Q 0 w eq_refl) as [_ Q1]. destruct (Q1 NF) as (s' & Q2 & Q3). rewrite Nat.add_0_r in Q2. congruence.
      * eexists _, _. split; [reflexivity|]. split; [discriminate|]. intros Q. destruct (Q 0 w eq_refl) as [_ Q1]. destruct (Q1 NF) as (s' & Q2 & _). rewrite Nat.add_0_r in Q2. congruence.
Qed.
(* initDecayAmplitudes succeeds exactly if every wave but the flat one has got an amplitude that accepts
   the particle names; started at X, the production particle is X. *)
Theorem C83_initialise fr t m fx pr de eff : hist fr t m -> NoDup (frWaveNames fr) ->
  (fx = false /\ (forall p d b, ~ In (OInit true p d, b) t) /\ eff = pr) \/ (fx = true /\ exists X, X <> [] /\ eff = [X] /\ forall a, In (OAdd a, true) t -> daXName a = X) ->
  exists b m', initDecayAmplitudes fx pr de m = Some (b, m')
    /\ (b = true <-> forall i w, nth_error (frWaveNames fr) i = Some w -> (w = lit "flat" -> forall a, ~ addedAs fr t i a)
          /\ (w <> lit "flat" -> exists a, addedAs fr t i a /\ daInit a fx eff de = true)).
Proof.
  intros H ND CA. pose proof (hist_inv _ _ _ H) as V. unfold initDecayAmplitudes. rewrite (i_fr _ _ _ V).
  destruct (initLoop_result fx de eff (frWaveNames fr) 0 (if fx then [[]] else pr) (miAmps m)) as (ok & am & E1 & E2).
  { rewrite (i_la _ _ _ V). reflexivity. }
  { intros s j K. destruct (i_slot _ _ _ V j s K) as ((_ & A) & _). destruct CA as [(-> & _ & ->)|(-> & X & NX & -> & AX)]; unfold effNames.
    - rewrite andb_false_r. auto.
    - cbn [str_eqb]. rewrite (AX _ A). destruct X as [|x0 x1]; [contradiction|]. split; reflexivity. }
  rewrite E1. cbn [bindP]. eexists _, _. split; [reflexivity|]. rewrite E2. clear E1 E2. 
  assert (forall i s, nth_error (miAmps m) i = Some (Some s) -> fx || slCut s = fx) as CUT.
  { intros i s K. destruct (i_slot _ _ _ V i s K) as (_ & _ & _ & F). destruct CA as [(-> & N & _)|(-> & _)]; [|reflexivity]. rewrite (F N). reflexivity. }
  split.
  - intros Q i w K. destruct (Q i w K) as [Q1 Q2]. cbn [Nat.add] in *. split.
    + intros W a A. destruct (i_uniq _ _ _ V ND i a A) as (s & S1 & _). specialize (Q1 W). congruence.
    + intros W. destruct (Q2 W) as (s & S1 & S2). exists (slAmp s). split; [apply (i_slot _ _ _ V i s S1)|]. rewrite (CUT i s S1) in S2. exact S2.
  - intros Q i w K. destruct (Q i w K) as [Q1 Q2]. cbn [Nat.add]. split.
    + intros W. destruct (nth_error (miAmps m) i) as [[s|]|] eqn:E; [|reflexivity|].
      * exfalso. apply (Q1 W (slAmp s)). apply (i_slot _ _ _ V i s E).
      * exfalso. apply nth_error_None in E. rewrite (i_la _ _ _ V) in E. apply nth_error_None in E. congruence.
    + intros W. destruct (Q2 W) as (a & A1 & A2). destruct (i_uniq _ _ _ V ND i a A1) as (s & S1 & S2). exists s. split; [exact S1|]. rewrite (CUT i s S1), S2. exact A2.
Qed.
(* Without production momenta the amplitudes must have been initialised to start at X; the functions for
   all waves leave out exactly the flat wave. *)
Theorem C83_variants fr t m idx prod dec x : hist fr t m ->
  (getIntensityX m idx dec = Some x <-> (exists de, lastInit t = Some (true, de)) /\ getIntensity m idx [PhaseModel.V3 0 0 0] dec = Some x)
  /\ getIntensityAll m prod dec = getIntensity m (noFlat fr) prod dec /\ getIntensityAllX m dec = getIntensityX m (noFlat fr) dec
  /\ NoDup (noFlat fr) /\ (forall i, In i (noFlat fr) <-> exists w, nth_error (frWaveNames fr) i = Some w /\ w <> lit "flat").
Proof.
  intros H. pose proof (hist_inv _ _ _ H) as V. split; [|split; [|split; [|split]]].
  - unfold getIntensityX. split.
    + destruct (miFromX m) eqn:EX; cbn [negb]; [|discriminate]. intros E. split; [|exact E]. unfold getIntensity, getDecayAmplitudes in E. rewrite (i_init _ _ _ V) in E.
      destruct (lastInit t) as [[fx de]|] eqn:EL; [|discriminate]. destruct (i_names _ _ _ V fx de EL) as [Q _]. exists de. congruence.
    + intros [(de & EL) E]. destruct (i_names _ _ _ V true de EL) as [-> _]. exact E.
  - unfold getIntensityAll. now rewrite (i_nf _ _ _ V).
  - unfold getIntensityAllX. now rewrite (i_nf _ _ _ V).
  - apply NoDup_filter, seq_NoDup.
  - intros i. unfold noFlat. rewrite filter_In, in_seq. split.
    + intros [_ Q]. destruct (nth_error (frWaveNames fr) i) as [w|]; [|discriminate]. exists w. split; [reflexivity|]. intros ->. now rewrite str_eqb_refl in Q.
    + intros (w & E & NF). rewrite E. split; [|destruct (str_eqb w (lit "flat")) eqn:Q; [apply str_eqb_eq in Q; contradiction|reflexivity]].
      assert (i < nWaves fr) by (unfold nWaves; apply nth_error_Some; congruence). lia.
Qed.
(* Once initialised to start at X, amplitudes cannot be initialised for production kinematics again: the
   vertex they then have accepts X as only production particle (nonInteractionVertex.cc 53-76). *)
Theorem C83_reinitialise_refuted fr t m d pr de i w a : hist fr t m -> NoDup (frWaveNames fr) -> lastInit t = Some (true, d) ->
  (forall b n l, In (OAdd b, true) t -> daInit b true n l = true -> n = [daXName b]) ->
  nth_error (frWaveNames fr) i = Some w -> w <> lit "flat" -> addedAs fr t i a -> pr <> [daXName a] ->
  exists m', initDecayAmplitudes false pr de m = Some (false, m') /\ forall idx prod dec, getIntensity m' idx prod dec = None.
Proof.
  intros H ND EL HN EW NF AD NP. pose proof (hist_inv _ _ _ H) as V. destruct (i_uniq _ _ _ V ND i a AD) as (s & S1 & S2).
  destruct (i_names _ _ _ V true d EL) as [_ SL]. assert (slCut s = true) as CUT.
  { destruct (SL i w EW) as [[Q _]|(_ & s' & Q1 & _ & Q3)]; [contradiction|]. assert (s' = s) as <- by congruence. now apply Q3. }
  unfold initDecayAmplitudes. rewrite (i_fr _ _ _ V). destruct (initLoop_result false de pr (frWaveNames fr) 0 pr (miAmps m)) as (ok & am & E1 & E2).
  { rewrite (i_la _ _ _ V). reflexivity. }
  { intros s0 j _. unfold effNames. rewrite andb_false_r. auto. }
  rewrite E1. cbn [bindP]. destruct ok; [exfalso|eexists; split; [reflexivity|intros; reflexivity]].
  destruct (proj1 E2 eq_refl i w EW) as [_ Q]. destruct (Q NF) as (s' & Q1 & Q2). cbn [Nat.add] in Q1. assert (s' = s) as -> by congruence.
  rewrite CUT, orb_true_r in Q2. apply HN in Q2; [|rewrite S2; exact (proj2 AD)]. congruence.
Qed.
