(* C89: weights for phase-space events from a fit result. *)
From Coq Require Import String Ascii List ZArith Bool Reals Lia Lra Psatz.
From Coquelicot Require Import Complex.
From Verif Require Import PathModel StrModel ParticleModel ParticleProps FitResultModel FitStoreProps AmpIntModel AmpIntProofs AmpIntProps2 FitSdmProps FitIntProps IntensProps WeightModel WeightSpec WeightProofs WeightProofs2.
Import ListNotations.
Open Scope list_scope.
Open Scope nat_scope.

Lemma rsum_C {A} (f : A -> R) l : csumA (fun x => RtoC (f x)) l = RtoC (rsumA f l).
Proof. induction l as [|x l IH]; [reflexivity|]. rewrite csumA_cons, IH. unfold rsumA. cbn [fold_right]. now rewrite RtoC_plus. Qed.
Lemma used_unique center width results fr fr' : usedResult center width results fr -> usedResult center width results fr' -> fr = fr'.
Proof. intros (j & m & v & B & N) (j' & m' & v' & B' & N'). apply best_picked in B, B'. rewrite B in B'. injection B' as <-. congruence. Qed.

(* The program uses the fit result whose mass is closest to the one asked for; of several equally close ones that with
   the smallest -log likelihood. It writes nothing if none is within half a bin width. *)
Theorem C89_selection center width single results mat files U random :
  (forall b rws, weightEvents center width single results mat files U random = Some (b, rws) -> exists fr, usedResult center width results fr)
  /\ ((forall r, In r results -> ~ (center - width / 2 <= fst (fst r) <= center + width / 2)%R) -> weightEvents center width single results mat files U random = None)
  /\ forall fr fr', usedResult center width results fr -> usedResult center width results fr' -> fr = fr'.
Proof.
  split; [|split; [|apply used_unique]].
  - intros b rws H. destruct (run_of _ _ _ _ _ _ _ _ _ _ H) as (fr & l & more & trees & V & _). exists fr. exact (r_best _ _ _ _ _ _ _ _ _ _ _ _ V).
  - intros N. destruct (weightEvents center width single results mat files U random) as [[b rws]|] eqn:H; [|reflexivity]. exfalso.
    destruct (run_of _ _ _ _ _ _ _ _ _ _ H) as (fr & l & more & trees & V & _). destruct (r_best _ _ _ _ _ _ _ _ _ _ _ _ V) as (j & m & v & (m' & v' & B1 & B2 & _) & NJ).
    rewrite nth_error_map, NJ in B1. cbn in B1. injection B1 as <- <-. exact (N _ (nth_error_In _ _ NJ) B2).
Qed.

(* Weight of an event in every sample: the sum over all pairs of production amplitudes of equal reflectivity and rank *)
Theorem C89_weight center width single results mat files U random b rws e rw fr :
  weightEvents center width single results mat files U random = Some (b, rws) -> nth_error rws e = Some rw ->
  usedResult center width results fr -> oneFlat fr ->
  length (wSamples rw) = S (length random)
  /\ forall s, s <= length random -> exists amps w rank refl z W,
    sampleAmps fr (U fr) random s amps
    /\ (forall i, i < length (frAmps fr) -> contribution fr mat files e i (nth i amps (RtoC 0)) (w i) (rank i) (refl i) (z i))
    /\ nth_error (wSamples rw) s = Some W
    /\ RtoC W = intensity w rank refl z (length (frAmps fr)).
Proof.
  intros H N UR OF. destruct (run_of _ _ _ _ _ _ _ _ _ _ H) as (fr' & l & more & trees & V & _).
  rewrite <- (used_unique _ _ _ _ _ UR (r_best _ _ _ _ _ _ _ _ _ _ _ _ V)) in V. clear fr'.
  destruct (row_at _ _ _ _ _ _ _ _ _ _ _ _ V e rw N) as (decs & D & S1 & LS). split; [exact LS|]. intros s Ls.
  destruct (samples_at _ _ _ _ _ _ _ _ _ _ _ _ V s) as (amps & NA & SA); [lia|]. destruct (S1 s amps NA) as (p & n & f & prods & SW & NW & _).
  destruct (sample_val _ _ _ _ _ _ _ _ _ _ SW (one_flat_at _ _ _ _ _ _ _ _ _ _ _ _ V OF)) as (LA & G & P & Q & F & _).
  exists amps, (wAt (waves fr l) l), (fun i => paRank (aAt l i)), (fun i => paRefl (aAt l i)), (zAt mat (waves fr l) decs l amps), (p + n + f)%R.
  split; [exact SA|]. rewrite <- (l_len _ _ _ _ _ _ _ _ _ _ _ _ V). split; [|split; [exact NW|]].
  - intros i Li. apply (contribution_at _ _ _ _ _ _ _ _ _ _ _ _ V e decs i amps D Li (G i Li)).
  - rewrite !RtoC_plus, P, Q, F. symmetry. apply parts_total. intros i Li. exact (refl_at _ _ _ _ _ _ _ _ _ _ _ _ V i Li).
Qed.

(* The columns of an event: the weight is the sum of the parts of the reflectivities and of the flat wave; none is negative;
   sample 0 is the weight; the weight of a wave is the sum of the weights of its production amplitudes *)
Theorem C89_parts center width single results mat files U random b rws e rw fr :
  weightEvents center width single results mat files U random = Some (b, rws) -> nth_error rws e = Some rw ->
  usedResult center width results fr -> oneFlat fr -> NoDup (frWaveNames fr) ->
  exists w rank refl z, let n := length (frAmps fr) in
    (forall i, i < n -> contribution fr mat files e i (nth i (frAmps fr) (RtoC 0)) (w i) (rank i) (refl i) (z i))
    /\ wAll rw = (wPos rw + wNeg rw + wFlat rw)%R /\ (0 <= wPos rw)%R /\ (0 <= wNeg rw)%R /\ (0 <= wFlat rw)%R
    /\ nth_error (wSamples rw) 0 = Some (wAll rw)
    /\ RtoC (wPos rw) = intensityOf 1 w rank refl z n /\ RtoC (wNeg rw) = intensityOf (-1) w rank refl z n
    /\ wFlat rw = rsum (fun i => if flatWave (w i) then cnorm2 (z i) else 0%R) (seq 0 n)
    /\ wProds rw = map (fun i => cnorm2 (z i)) (seq 0 n)
    /\ length (wWaves rw) = length (frWaveNames fr)
    /\ forall k name, nth_error (frWaveNames fr) k = Some name ->
         nth_error (wWaves rw) k = Some (rsum (fun i => if str_eqb (w i) name then cnorm2 (z i) else 0%R) (seq 0 n)).
Proof.
  intros H N UR OF ND. destruct (run_of _ _ _ _ _ _ _ _ _ _ H) as (fr' & l & more & trees & V & _).
  rewrite <- (used_unique _ _ _ _ _ UR (r_best _ _ _ _ _ _ _ _ _ _ _ _ V)) in V. clear fr'.
  destruct (row_at _ _ _ _ _ _ _ _ _ _ _ _ V e rw N) as (decs & D & S1 & LS).
  pose proof (first_amps _ _ _ _ _ _ _ _ _ _ _ _ V) as FA.
  destruct (S1 0 (map paAmp l) eq_refl) as (p & n & f & prods & SW & NW & S2). destruct (S2 eq_refl) as (R1 & R2 & R3 & R4 & R5 & R6).
  destruct (sample_val _ _ _ _ _ _ _ _ _ _ SW (one_flat_at _ _ _ _ _ _ _ _ _ _ _ _ V OF)) as (LA & G & P & Q & F & PR & P0 & Q0 & F0).
  rewrite FA in *. set (z := zAt mat (waves fr l) decs l (frAmps fr)) in *. set (w := wAt (waves fr l) l) in *.
  exists w, (fun i => paRank (aAt l i)), (fun i => paRefl (aAt l i)), z. cbv zeta. rewrite <- (l_len _ _ _ _ _ _ _ _ _ _ _ _ V).
  rewrite R1, R2, R3, R4, R5, R6. split; [intros i Li; apply (contribution_at _ _ _ _ _ _ _ _ _ _ _ _ V e decs i (frAmps fr) D Li (G i Li))|].
  split; [reflexivity|]. split; [exact P0|]. split; [exact Q0|]. split; [exact F0|]. split; [rewrite NW; reflexivity|].
  split; [exact P|]. split; [exact Q|].
  split.
  { assert (RtoC f = RtoC (rsum (fun i => if flatWave (w i) then cnorm2 (z i) else 0%R) (seq 0 (length l)))) as E; [|now injection E].
    change (@rsum nat) with (@rsumA nat). rewrite F. rewrite <- rsum_C. apply csumA_ext. intros i Hi. apply in_seq in Hi. destruct (flatWave (w i)) eqn:FI; [|apply csumA_zero; reflexivity].
    rewrite cnorm2_cnorm. transitivity (csumA (fun j => if (Z.of_nat i =? j)%Z then z i * Cconj (z i) else RtoC 0)%C (map Z.of_nat (seq 0 (length l)))).
    - rewrite csumA_map2. apply csumA_ext. intros j Hj. apply in_seq in Hj. cbn [andb]. destruct (flatWave (w j)) eqn:FJ.
      + assert (i = j) as <- by (apply (one_flat_at _ _ _ _ _ _ _ _ _ _ _ _ V OF); try lia; assumption). now rewrite Z.eqb_refl.
      + destruct (Z.eqb_spec (Z.of_nat i) (Z.of_nat j)) as [X|X]; [|reflexivity]. apply Nat2Z.inj in X. subst j. congruence.
    - apply csum_pick; [apply FinFun.Injective_map_NoDup; [intros x y; lia|apply seq_NoDup]|]. apply in_map_iff. exists i. split; [reflexivity|]. apply in_seq. lia. }
  split; [exact PR|]. assert (length (waves fr l) = length (frWaveNames fr)) as LW by (unfold waves, waveNamesOf; now rewrite map_length, seq_length).
  split; [now rewrite map_length, seq_length|]. intros k name NK. assert (k < length (frWaveNames fr)) as Lk by (apply nth_error_Some; congruence).
  rewrite nth_error_map, nth_error_seq0 by (rewrite LW; exact Lk). cbn [option_map]. f_equal.
  assert (length prods = length l) as LP by (rewrite PR, map_length, seq_length; reflexivity).
  rewrite (combine_nth_map l prods noAmp 0%R) by (now symmetry). unfold waveSum.
  assert (forall ix a, (forall i, In i ix -> i < length l) -> fold_left (fun s x => if paWave (fst x) =? k then (s + snd x)%R else s) (map (fun i => (nth i l noAmp, nth i prods 0%R)) ix) a = (a + rsum (fun i => if str_eqb (w i) name then cnorm2 (z i) else 0%R) ix)%R) as K.
  { induction ix as [|i ix IH]; intros a HI; cbn [map fold_left]; [unfold rsum; cbn; ring|]. unfold rsum. cbn [fold_right]. fold (rsum (fun i => if str_eqb (w i) name then cnorm2 (z i) else 0%R) ix). rewrite IH by (intros j Hj; apply HI; now right). cbn [fst snd].
    assert (i < length l) as Li by (apply HI; now left). assert (nth i prods 0%R = cnorm2 (z i)) as -> by (rewrite PR; apply nth_error_nth; rewrite nth_error_map, nth_error_seq0 by exact Li; reflexivity).
    destruct (l_nth _ _ _ _ _ _ _ _ _ _ _ _ V i Li) as [_ RP]. apply readProdAmp_val in RP. destruct RP as (_ & _ & RP & _). change (nth i l noAmp) with (aAt l i).
    assert (w i = waveNameForProdAmp (paName (aAt l i))) as WI by (apply (waves_at _ _ _ _ _ _ _ _ _ _ _ _ V i Li)).
    destruct (Nat.eqb_spec (paWave (aAt l i)) k) as [X|X].
    - rewrite X, NK in RP. injection RP as RP. rewrite WI, <- RP, str_eqb_refl. ring.
    - destruct (str_eqb (w i) name) eqn:SE; [|ring]. apply str_eqb_eq in SE. exfalso. apply X. apply (proj1 (NoDup_nth_error (frWaveNames fr)) ND); [apply nth_error_Some; congruence|]. congruence. }
  rewrite K by (intros i Hi; apply in_seq in Hi; lia). ring.
Qed.

(* every wave with a production amplitude has a file with one amplitude for each of the events *)
Theorem C89_files center width single results mat files U random b rws fr i n :
  weightEvents center width single results mat files U random = Some (b, rws) -> usedResult center width results fr ->
  nth_error (frAmpNames fr) i = Some n -> i < length (frAmps fr) -> flatWave (waveNameForProdAmp n) = false ->
  exists t, files (waveNameForProdAmp n) = Some t /\ length t = length rws /\ rws <> [] /\ forall entry, In entry t -> length entry = 1.
Proof.
  intros H UR NI LI FW. destruct (run_of _ _ _ _ _ _ _ _ _ _ H) as (fr' & l & more & trees & V & _).
  rewrite <- (used_unique _ _ _ _ _ UR (r_best _ _ _ _ _ _ _ _ _ _ _ _ V)) in V. clear fr'. rewrite <- (l_len _ _ _ _ _ _ _ _ _ _ _ _ V) in LI.
  destruct (waves_at _ _ _ _ _ _ _ _ _ _ _ _ V i LI) as [W1 W2]. destruct (l_nth _ _ _ _ _ _ _ _ _ _ _ _ V i LI) as [_ RP]. apply readProdAmp_val in RP. destruct RP as (_ & RP & _ & _).
  assert (paName (aAt l i) = n) as PN by congruence. rewrite PN in W2.
  pose proof (trees_at _ _ _ _ _ _ _ _ _ _ _ _ V _ _ W1) as T. rewrite W2, FW in T. destruct T as (t & T1 & T2 & T3). exists t. split; [exact T1|]. split; [exact T3|].
  split; [intros ->; exact (r_pos _ _ _ _ _ _ _ _ _ _ _ _ V eq_refl)|]. intros entry HE. apply In_nth_error in HE. destruct HE as [e HE].
  assert (e < length rws) as Le by (rewrite <- T3; apply nth_error_Some; congruence). destruct (nth_error rws e) as [rw|] eqn:NR; [|apply nth_error_None in NR; lia].
  destruct (row_at _ _ _ _ _ _ _ _ _ _ _ _ V e rw NR) as (decs & D & _). destruct (mapO_nth _ _ _ _ _ D T2) as (d & D1 & _). cbn in D1. rewrite HE in D1. cbn in D1. destruct entry as [|a [|]]; try discriminate. reflexivity.
Qed.
