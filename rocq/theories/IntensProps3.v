(* C83, continued: the model intensity and the intensities of the fit result. *)
From Coq Require Import String Ascii List ZArith Bool Reals Lia Lra Psatz.
From Coquelicot Require Import Complex.
From Verif Require Import PathModel StrModel ParticleModel ParticleProps FitResultModel AmpIntModel AmpIntProofs AmpIntProps2 FitSdmProps FitIntProps IntensModel IntensSpec IntensProofs IntensProofs2 IntensProps IntensProps2.
Import ListNotations.
Open Scope list_scope.
Open Scope nat_scope.

(* value of the amplitude for an event: production momenta, decay momenta *)
Definition valueAt (a : decAmp) (fx : bool) (de : list str) (e : list vec * list vec) : C :=
  match daEval a fx de (fst e) (snd e) with Some y => y | None => RtoC 0 end.
(* the normalisation integrals of the fit result are the means over the sample of products of normalised
   decay amplitudes *)
Definition integralsOf (fr : fitResult) (t : list (op * bool)) (fx : bool) (de : list str) (ps : list R) (sample : list (list vec * list vec)) : Prop :=
  forall i j a b, addedAs fr t i a -> addedAs fr t j b ->
    normIntegral fr i j = (mean (fun e => valueAt a fx de e * Cconj (valueAt b fx de e))%C sample / RtoC (nth i ps 0%R) / RtoC (nth j ps 0%R))%C.
(* rank 1: production amplitude number i is that of wave number i *)
Definition rankOne (fr : fitResult) (ks : list (Z * str)) : Prop :=
  frRank fr = 1%Z /\ forall i w, nth_error (frWaveNames fr) i = Some w -> w <> lit "flat" -> nth_error ks i = Some (0%Z, w).

Lemma Cconj_div x y : Cconj (x / y)%C = (Cconj x / Cconj y)%C.
Proof. unfold Cdiv. rewrite Cconj_mult. f_equal. destruct y as [a b]. unfold Cinv, Cconj. cbn. f_equal; [f_equal; ring|]. replace (a * (a * 1) + - b * (- b * 1))%R with (a * (a * 1) + b * (b * 1))%R by ring. unfold Rdiv. ring. Qed.
Lemma Cconj_R x : Cconj (RtoC x) = RtoC x. Proof. unfold Cconj, RtoC. cbn. f_equal. ring. Qed.
Lemma Cconj_inv x : Cconj (Cconj x) = x. Proof. destruct x. unfold Cconj. cbn. f_equal. ring. Qed.
Lemma csum_re {A} (f : A -> R) l : csumA (fun x => RtoC (f x)) l = RtoC (rsumA f l).
Proof. induction l as [|x l IH]; [reflexivity|]. rewrite csumA_cons, IH. unfold rsumA. cbn [fold_right]. now rewrite RtoC_plus. Qed.
Lemma mean_conj {A} (f : A -> C) l : Cconj (mean f l) = mean (fun x => Cconj (f x)) l.
Proof. unfold mean. rewrite Cconj_div, Cconj_R, csumA_conj. reflexivity. Qed.

Lemma swap3 {A} (F : A -> nat -> nat -> C) L s : csumA (fun e => csumA (fun i => csumA (fun j => F e i j) L) L) s = csumA (fun i => csumA (fun j => csumA (fun e => F e i j) s) L) L.
Proof. rewrite csumA_swap. apply csumA_ext. intros i _. now rewrite csumA_swap. Qed.

(* Averaged over the events from which the normalisation integrals of the fit were calculated, the model
   intensity is the intensity of the fit result per normalisation event, for rank 1. *)
Theorem C83_fit_intensity fr ks t m fx de ps sample x : hist fr t m -> NoDup (frWaveNames fr) -> regular fr ks -> rankOne fr ks ->
  (forall i a, addedAs fr t i a -> getReflectivity (daName a) = Some (daRefl a)) ->
  lastInit t = Some (fx, de) -> lastNorms fr t = Some ps -> (fx = true \/ forall pr d b, ~ In (OInit true pr d, b) t) ->
  integralsOf fr t fx de ps sample -> sample <> [] ->
  (forall e, In e sample -> getIntensityAll m (fst e) (snd e) = Some (x e)) ->
  intensityOf fr (noFlat fr) = Some (IZR (frNormNmbEvents fr) * (rsumA x sample / INR (length sample)))%R.
Proof.
  intros H ND RG [RK KS] RF EL EN FX IO NE GI. pose proof (hist_inv _ _ _ H) as V.
  destruct (C83_variants fr t m [] [] [] 0%R H) as (_ & _ & _ & _ & NFI).
  destruct (i_names _ _ _ V fx de EL) as [_ SL].
  assert (exists amp : nat -> decAmp, forall i, In i (noFlat fr) -> addedAs fr t i (amp i)) as (amp & AMP).
  { exists (fun i => match nth_error (miAmps m) i with Some (Some s) => slAmp s | _ => DA [] 0 [] (fun _ _ _ => false) (fun _ _ _ _ => None) end). intros i Hi.
    apply NFI in Hi. destruct Hi as (w & Ew & NF). destruct (SL i w Ew) as [[Q _]|(_ & s & Q1 & _)]; [contradiction|]. rewrite Q1. apply (i_slot _ _ _ V i s Q1). }
  assert (forall i a, In i (noFlat fr) -> addedAs fr t i a -> a = amp i) as UNI.
  { intros i a Hi A. destruct (i_uniq _ _ _ V ND i a A) as (s & S1 & S2). destruct (i_uniq _ _ _ V ND i (amp i) (AMP i Hi)) as (s' & S3 & S4). congruence. }
  set (T := fun i => nth i (frAmps fr) (RtoC 0)). set (n := fun i => nth i ps 0%R). set (rf := fun i => daRefl (amp i)).
  assert (forall i, In i (noFlat fr) -> i < length (frAmps fr)) as LA.
  { intros i Hi. apply NFI in Hi. destruct Hi as (w & Ew & NF). rewrite (rg_len _ _ RG). apply nth_error_Some. rewrite (KS i w Ew NF). discriminate. }
  assert (forall e, In e sample -> RtoC (x e) = interference rf (fun i => T i * (valueAt (amp i) fx de e / RtoC (n i)))%C (noFlat fr) /\ forall i, In i (noFlat fr) -> n i <> 0%R) as VAL.
  { intros e He. pose proof (GI e He) as G. unfold getIntensityAll in G. rewrite (i_nf _ _ _ V) in G.
    destruct (C83_intensity fr t m (noFlat fr) (fst e) (snd e) (x e) H (fun i Hi => proj1 (NFI i) Hi) G LA) as (fx' & de' & ps' & refl & z & E1 & E2 & E3 & E4 & _).
    rewrite EL in E1. rewrite EN in E2. injection E1 as <- <-. injection E2 as <-.
    assert (forall i, In i (noFlat fr) -> refl i = rf i /\ z i = (T i * (valueAt (amp i) fx de e / RtoC (n i)))%C /\ n i <> 0%R) as TM.
    { intros i Hi. destruct (E3 i Hi) as (a & c & y & k & TT & A & [C1 C2] & Y & NK & K0 & ET & -> & ->). pose proof (UNI i a Hi A) as ->.
      assert (c = fx) as ->. { destruct fx; [now apply C1|]. destruct FX as [Q|Q]; [discriminate|]. now apply C2. }
      split; [reflexivity|]. unfold T, n, valueAt. rewrite Y, (nth_error_nth _ _ _ ET), (nth_error_nth _ _ _ NK). auto. }
    split; [|intros i Hi; apply (TM i Hi)]. rewrite E4. unfold interference. apply csumA_ext. intros i Hi. apply csumA_ext. intros j Hj. destruct (TM i Hi) as (-> & -> & _), (TM j Hj) as (-> & -> & _). reflexivity. }
  assert (exists e0, In e0 sample) as (e0 & He0) by (destruct sample as [|e0 ?]; [contradiction|exists e0; now left]).
  assert (forall i, In i (noFlat fr) -> n i <> 0%R) as N0 by apply (VAL e0 He0).
  assert (INR (length sample) <> 0%R) as NS by (apply not_0_INR; destruct sample; [contradiction|discriminate]).
  assert (forall i j, In i (noFlat fr) -> In j (noFlat fr) -> normIntegral fr i j = (mean (fun e => valueAt (amp i) fx de e * Cconj (valueAt (amp j) fx de e))%C sample / RtoC (n i) / RtoC (n j))%C) as NI.
  { intros i j Hi Hj. apply IO; now apply AMP. }
  assert (valid fr (noFlat fr)) as VA. { intros i Hi. apply NFI in Hi. destruct Hi as (w & Ew & _). apply nth_error_Some. congruence. }
  assert (normHermitian fr (noFlat fr)) as HE.
  { intros i j Hi Hj. rewrite (NI i j Hi Hj), (NI j i Hj Hi), !Cconj_div, !Cconj_R, mean_conj.
    replace (mean (fun e => Cconj (valueAt (amp i) fx de e * Cconj (valueAt (amp j) fx de e))%C) sample) with (mean (fun e => valueAt (amp j) fx de e * Cconj (valueAt (amp i) fx de e))%C sample).
    - field. split; intros Q; apply RtoC_inj in Q; [now apply (N0 i Hi)|now apply (N0 j Hj)].
    - unfold mean. f_equal. apply csumA_ext. intros e _. rewrite Cconj_mult, Cconj_inv. ring. }
  destruct (C29_intensity_is_double_sum fr ks RG (noFlat fr) VA HE) as [E _]. rewrite E. f_equal. clear E.
  assert (forall i j, In i (noFlat fr) -> In j (noFlat fr) -> rhoAt fr ks i j = (if (rf i =? rf j)%Z then RtoC (IZR (frNormNmbEvents fr)) * (T i * Cconj (T j)) else RtoC 0)%C) as RHO.
  { assert (forall i, In i (noFlat fr) -> exists w, nth_error (frWaveNames fr) i = Some w /\ getReflectivity w = Some (rf i) /\ FitSdmProps.V fr ks w 0%Z = T i /\ FitSdmProps.V fr ks w (-1)%Z = RtoC 0) as WV.
    { intros i Hi. pose proof (AMP i Hi) as AD. pose proof Hi as Hi'. apply NFI in Hi'. destruct Hi' as (w & Ew & NF). exists w. split; [exact Ew|]. destruct AD as [A1 A2]. assert (daName (amp i) = w) as EW by congruence.
      split; [rewrite <- EW; apply (RF i); split; assumption|]. pose proof (KS i w Ew NF) as EK. split.
      - unfold FitSdmProps.V, T. apply ampOf_in with (i := i); [apply (rg_nodup _ _ RG)|exact EK|]. apply nth_error_nth'. now apply LA.
      - unfold FitSdmProps.V. apply ampOf_out. intros Q. destruct (rg_rank _ _ RG _ _ Q) as [_ Q2]. apply NF. now apply Q2. }
    intros i j Hi Hj. destruct (WV i Hi) as (w & W1 & W2 & W3 & W4), (WV j Hj) as (u & U1 & U2 & U3 & U4). unfold rhoAt, nameAt. 
    rewrite (nth_error_nth _ _ _ W1), (nth_error_nth _ _ _ U1). unfold rhoSpec. rewrite W2, U2. destruct (Z.eqb_spec (rf i) (rf j)) as [Q|Q]; destruct (option_eq_dec_Z _ _) as [P|P]; try congruence.
    unfold ranks. rewrite RK. change (Z.to_nat 1) with 1. cbn [seq map]. rewrite !csumA_cons. change (Z.of_nat 0 - 1)%Z with (-1)%Z. change (Z.of_nat 1 - 1)%Z with 0%Z. rewrite W3, W4, U3, U4. unfold csumA. cbn [fold_right]. ring. }
  assert (pairSum fr ks (noFlat fr) = RtoC (IZR (frNormNmbEvents fr) * (rsumA x sample / INR (length sample)))) as EQ; [|rewrite EQ; reflexivity].
  rewrite RtoC_mult, RtoC_div by exact NS. rewrite <- csum_re.
  rewrite (csumA_ext (fun e => RtoC (x e)) _ sample (fun e He => proj1 (VAL e He))). unfold interference, pairSum.
  rewrite swap3. unfold Cdiv at 1. rewrite csum_scal_r, csum_scal. apply csumA_ext. intros i Hi. rewrite csum_scal_r, csum_scal. apply csumA_ext. intros j Hj.
  rewrite (RHO i j Hi Hj), (NI i j Hi Hj). destruct (rf i =? rf j)%Z.
  - unfold mean, Cdiv. rewrite !csum_scal_r, !csum_scal. apply csumA_ext. intros e _. rewrite !Cconj_mult.
    replace (Cconj (/ RtoC (n j)))%C with (/ RtoC (n j))%C; [ring|]. rewrite <- RtoC_inv by now apply N0. now rewrite Cconj_R.
  - rewrite csumA_zero by (intros; reflexivity). ring.
Qed.
