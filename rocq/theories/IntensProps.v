(* C83: the intensity of a fit result for given momenta. *)
From Coq Require Import String Ascii List ZArith Bool Reals Lia Lra Psatz.
From Coquelicot Require Import Complex.
From Verif Require Import PathModel StrModel ParticleModel ParticleProps FitResultModel AmpIntModel AmpIntProofs AmpIntProps2 FitSdmProps FitIntProps IntensModel IntensSpec IntensProofs IntensProofs2.
Import ListNotations.
Open Scope list_scope.
Open Scope nat_scope.

(* ---- sums ---- *)
Lemma csum_scal {A} (c : C) (f : A -> C) l : (c * csumA f l)%C = csumA (fun x => c * f x)%C l.
Proof. induction l as [|x l IH]; unfold csumA in *; cbn [fold_right]; [ring|rewrite <- IH; ring]. Qed.
Lemma csum_scal_r {A} (c : C) (f : A -> C) l : (csumA f l * c)%C = csumA (fun x => f x * c)%C l.
Proof. induction l as [|x l IH]; unfold csumA in *; cbn [fold_right]; [ring|rewrite <- IH; ring]. Qed.
Lemma csum_pick (E : list Z) (r : Z) (v : C) : NoDup E -> In r E -> csumA (fun e => if (r =? e)%Z then v else RtoC 0) E = v.
Proof.
  induction E as [|e E IH]; intros N H; [destruct H|]. inversion N as [|? ? N1 N2]; subst. rewrite csumA_cons. destruct (Z.eqb_spec r e) as [->|NE].
  - rewrite csumA_zero; [ring|]. intros x Hx. destruct (Z.eqb_spec e x) as [->|]; [contradiction|reflexivity].
  - destruct H as [->|H]; [congruence|]. rewrite IH by assumption. ring.
Qed.
Lemma Cconj_zero : Cconj (RtoC 0) = RtoC 0. Proof. unfold Cconj, RtoC. cbn. f_equal. ring. Qed.
Lemma cnorm_conj z : RtoC (cnorm z) = (z * Cconj z)%C.
Proof. destruct z as [a b]. unfold cnorm, RtoC, Cmult, Cconj, Re, Im. cbn. f_equal; ring. Qed.
Definition part (refl : nat -> Z) (z : nat -> C) (e : Z) (l : list nat) : C := csumA (fun i => if (refl i =? e)%Z then z i else RtoC 0) l.
Lemma split_interference refl z l E : NoDup E -> (forall i, In i l -> In (refl i) E) ->
  csumA (fun e => RtoC (cnorm (part refl z e l))) E = interference refl z l.
Proof.
  intros N H. unfold interference.
  transitivity (csumA (fun e => csumA (fun i => csumA (fun j => if (refl i =? e)%Z then (if (refl j =? e)%Z then z i * Cconj (z j) else RtoC 0) else RtoC 0)%C l) l) E).
  - apply csumA_ext. intros e _. rewrite cnorm_conj. unfold part. rewrite csumA_conj, csum_scal_r. apply csumA_ext. intros i _. rewrite csum_scal. apply csumA_ext. intros j _.
    destruct (refl i =? e)%Z; [|ring]. destruct (refl j =? e)%Z; [reflexivity|]. rewrite Cconj_zero. ring.
  - rewrite csumA_swap. apply csumA_ext. intros i Hi. rewrite csumA_swap. apply csumA_ext. intros j Hj.
    rewrite <- (csum_pick E (refl i) (if (refl i =? refl j)%Z then z i * Cconj (z j) else RtoC 0)%C N (H i Hi)). apply csumA_ext. intros e _.
    destruct (Z.eqb_spec (refl i) e) as [<-|]; [|reflexivity]. now rewrite (Z.eqb_sym (refl j)).
Qed.
Lemma cohSum_val m amps e idx refl z : (forall i, In i idx -> nth_error (miRefls m) i = Some (refl i) /\ exists T a, prodAmpAt (miFR m) i = Some T /\ nth_error amps i = Some a /\ z i = (T * a)%C) ->
  forall acc, cohSum m amps e idx acc = Some (acc + part refl z e idx)%C.
Proof.
  induction idx as [|i idx IH]; intros H acc; cbn [cohSum]; [unfold part; cbn; f_equal; ring|].
  destruct (H i (or_introl eq_refl)) as (E1 & T & a & E2 & E3 & E4). rewrite E1. cbn [bindP]. unfold part. rewrite csumA_cons. fold (part refl z e idx).
  destruct (refl i =? e)%Z.
  - rewrite E2. cbn [bindP]. rewrite E3. cbn [bindP]. rewrite IH by (intros j Hj; apply H; now right). f_equal. rewrite E4. ring.
  - rewrite IH by (intros j Hj; apply H; now right). f_equal. ring.
Qed.
Lemma incohSum_val m amps idx refl z : (forall i, In i idx -> nth_error (miRefls m) i = Some (refl i) /\ exists T a, prodAmpAt (miFR m) i = Some T /\ nth_error amps i = Some a /\ z i = (T * a)%C) ->
  forall E acc, incohSum m amps idx E acc = Some (acc + Re (csumA (fun e => RtoC (cnorm (part refl z e idx))) E))%R.
Proof.
  intros H. induction E as [|e E IH]; intros acc; cbn [incohSum]; [cbn; f_equal; ring|].
  rewrite (cohSum_val m amps e idx refl z H). cbn [bindP]. rewrite IH, csumA_cons. f_equal. rewrite Re_plus. replace (RtoC 0 + part refl z e idx)%C with (part refl z e idx) by ring. unfold RtoC at 2. cbn [Re fst]. ring.
Qed.
Lemma interference_re refl z l E : NoDup E -> (forall i, In i l -> In (refl i) E) -> Im (interference refl z l) = 0%R /\ (0 <= Re (interference refl z l))%R.
Proof.
  intros N H. rewrite <- (split_interference refl z l E N H). apply AmpIntProps.csumA_re. intros e _. split; [reflexivity|]. unfold RtoC, cnorm. cbn [Re fst]. nra.
Qed.
Lemma cdivR_some x n y : cdivR x n = Some y -> n <> 0%R /\ y = (x / RtoC n)%C.
Proof. unfold cdivR. destruct (Req_EM_T n 0); [discriminate|]. intros [= <-]. auto. Qed.

Section State.
  Variables (fr : fitResult) (t : list (op * bool)) (m : mi).
  Hypothesis V : inv fr t m.
  Lemma amps_of prod dec amps i s : getDecayAmplitudes m prod dec = Some amps -> nth_error (miAmps m) i = Some (Some s) ->
    exists y n, daEval (slAmp s) (slCut s) (slNames s) prod dec = Some y /\ nth_error (miPS m) i = Some n /\ n <> 0%R /\ nth_error amps i = Some (y / RtoC n)%C.
  Proof.
    unfold getDecayAmplitudes. intros H E. destruct (negb (miInit m)); [discriminate|]. destruct (negb (miLoaded m)); [discriminate|].
    assert (i < nWaves fr) as L by (rewrite <- (i_la _ _ _ V); apply nth_error_Some; congruence).
    assert (nth_error (seq 0 (nWaves (miFR m))) i = Some i) as SQ. { rewrite (i_fr _ _ _ V). rewrite (nth_error_nth' _ 0) by now rewrite seq_length. now rewrite seq_nth. }
    destruct (mapP_nth _ _ _ _ _ H SQ) as (y & E1 & E2). unfold waveAmp in E2. rewrite E in E2. cbn [bindP] in E2.
    destruct (nth_error (miPS m) i) as [n|]; cbn [bindP] in E2; [|discriminate]. destruct (daEval _ _ _ _ _) as [x|]; cbn [bindP] in E2; [|discriminate].
    apply cdivR_some in E2. destruct E2 as [NZ ->]. exists x, n. auto.
  Qed.
End State.
(* The intensity of a set of waves is the sum over all pairs of waves of equal reflectivity of the
   products of production amplitude times decay amplitude; every decay amplitude is that of the amplitude
   added for the wave, divided by the phase-space integral that was loaded last. *)
Theorem C83_intensity fr t m idx prod dec x : hist fr t m -> proper fr idx -> getIntensity m idx prod dec = Some x ->
  (forall i, In i idx -> i < length (frAmps fr)) ->
  exists fx de ps refl z, lastInit t = Some (fx, de) /\ lastNorms fr t = Some ps
    /\ (forall i, In i idx -> waveTerm fr t fx de ps prod dec i (refl i) (z i))
    /\ RtoC x = interference refl z idx /\ (0 <= x)%R.
Proof.
  intros H PR. pose proof (hist_inv _ _ _ H) as V. unfold getIntensity. destruct (getDecayAmplitudes m prod dec) as [amps|] eqn:EA; cbn [bindP]; [|discriminate]. intros EI LA.
  assert (miInit m = true /\ miLoaded m = true) as [I1 I2].
  { unfold getDecayAmplitudes in EA. destruct (miInit m), (miLoaded m); cbn in EA; (discriminate || auto). }
  rewrite (i_init _ _ _ V) in I1. rewrite (i_load _ _ _ V) in I2. destruct (lastInit t) as [[fx de]|] eqn:EL; [|discriminate]. destruct (lastNorms fr t) as [ps|] eqn:EN; [|discriminate].
  destruct (i_names _ _ _ V fx de EL) as [_ SL]. pose proof (i_norm _ _ _ V ps EN) as EP.
  set (slotAt := fun i => match nth_error (miAmps m) i with Some (Some s) => s | _ => Slot (DA [] 0 [] (fun _ _ _ => false) (fun _ _ _ _ => None)) false [] end).
  assert (forall i, In i idx -> nth_error (miAmps m) i = Some (Some (slotAt i)) /\ slNames (slotAt i) = de /\ (fx = true -> slCut (slotAt i) = true)) as SA.
  { intros i Hi. destruct (PR i Hi) as (w & Ew & NF). destruct (SL i w Ew) as [[Q _]|(_ & s & Q1 & Q2 & Q3)]; [contradiction|]. unfold slotAt. rewrite Q1. auto. }
  set (refl := fun i => daRefl (slAmp (slotAt i))). set (z := fun i => (nth i (frAmps fr) (RtoC 0) * nth i amps (RtoC 0))%C).
  assert (forall i, In i idx -> nth_error (frAmps fr) i = Some (nth i (frAmps fr) (RtoC 0))) as TA.
  { intros i Hi. apply nth_error_nth'. now apply LA. }
  assert (forall i, In i idx -> exists y n, daEval (slAmp (slotAt i)) (slCut (slotAt i)) de prod dec = Some y /\ nth_error ps i = Some n /\ n <> 0%R /\ nth i amps (RtoC 0) = (y / RtoC n)%C /\ nth_error amps i = Some (nth i amps (RtoC 0))) as AA.
  { intros i Hi. destruct (SA i Hi) as (Q1 & Q2 & _). destruct (amps_of fr t m V prod dec amps i _ EA Q1) as (y & n & Y1 & Y2 & Y3 & Y4). exists y, n. rewrite <- Q2, <- EP.
    split; [exact Y1|]. split; [exact Y2|]. split; [exact Y3|]. split; [now apply nth_error_nth|]. rewrite Y4. f_equal. symmetry. now apply nth_error_nth. }
  assert (forall i, In i idx -> nth_error (miRefls m) i = Some (refl i) /\ exists T a, prodAmpAt (miFR m) i = Some T /\ nth_error amps i = Some a /\ z i = (T * a)%C) as CH.
  { intros i Hi. destruct (SA i Hi) as (Q1 & Q2 & _). destruct (i_slot _ _ _ V i _ Q1) as (_ & B & _). split; [exact B|]. destruct (AA i Hi) as (y & n & _ & _ & _ & _ & Y5).
    exists (nth i (frAmps fr) (RtoC 0)), (nth i amps (RtoC 0)). unfold prodAmpAt. rewrite (i_fr _ _ _ V). split; [now apply TA|]. split; [exact Y5|reflexivity]. }
  rewrite (incohSum_val m amps idx refl z CH) in EI. injection EI as EI.
  assert (NoDup (miAll m)) as ND by (apply incr_nodup, (i_all _ _ _ V)).
  assert (forall i, In i idx -> In (refl i) (miAll m)) as INA. { intros i Hi. destruct (SA i Hi) as (Q1 & _). destruct (i_slot _ _ _ V i _ Q1) as (_ & _ & D & _). exact D. }
  rewrite (split_interference refl z idx (miAll m) ND INA), Rplus_0_l in EI. destruct (interference_re refl z idx (miAll m) ND INA) as [IM RE].
  exists fx, de, ps, refl, z. split; [reflexivity|]. split; [reflexivity|]. split; [|split; [|lra]].
  - intros i Hi. destruct (SA i Hi) as (Q1 & Q2 & Q3). destruct (i_slot _ _ _ V i _ Q1) as (A & _ & _ & F). destruct (AA i Hi) as (y & n & Y1 & Y2 & Y3 & Y4 & _).
    exists (slAmp (slotAt i)), (slCut (slotAt i)), y, n, (nth i (frAmps fr) (RtoC 0)). split; [exact A|]. split; [split; [exact Q3|exact F]|]. split; [exact Y1|]. split; [exact Y2|]. split; [exact Y3|]. split; [now apply TA|].
    split; [reflexivity|]. unfold z. now rewrite Y4.
  - rewrite <- EI. destruct (interference refl z idx) as [u v]. unfold RtoC, Re, Im in *. cbn in *. now rewrite IM.
Qed.
