(* C84: a sampler for three particles of mass 1/4 and X between 1 and 2. *)
From Coq Require Import List ZArith Reals Bool Lia Lra Psatz.
From Verif Require Import ArrayModel CGBoxModel PhysModel PhysProps PhaseModel PhaseSpec PhaseProofs PhaseProofs2 PhaseProps FrameModel FrameSpec FrameProofs2 FrameProofs3 FrameProps2 ProdModel ProdSpec ProdProofs ProdProps3 SampleModel SampleSpec SampleProofs SampleProps SampleProofs2 SampleProps2 SampleProps3.
From Verif Require AmpExamples.
From Verif Require Import AmpModel AmpSpec.
From Verif Require IntensModel IntensCases.
Import ListNotations.
Open Scope R_scope.

Definition msE : list R := [0.25; 0.25; 0.25].
Definition ptE : list R := [0.75; 0.5; 1; 1.5; -0.5; 2].
Definition modelE (ps : list v3) : option R := Some (vx (nth 0 ps (V3 0 0 0)) * vx (nth 0 ps (V3 0 0 0))).
Definition beamE : (nat -> R) -> nat -> option (bool * lv * nat) := fun _ pos => Some (true, ProdProps3.exBeam, S pos).
Definition tpE : R -> (nat -> R) -> nat -> option (bool * R * nat) := fun m rnd pos => Some (true, rnd pos, S pos).
Definition sE (recoil : R) : sampler := Sampler modelE beamE tpE 1 recoil msE (0 + 0.25 + 0.25 + 0.25) (parLoop 1 2 0.25 [0.25; 0.25]) false None false false.
Definition sF : sampler := initializeFileWriter true true (setMassPrior (Some (fun m => m)) (sE 0)).
Definition sG : sampler := initializeFileWriter true true (sE 1.25).
Lemma newE recoil : newSampler modelE beamE tpE 1 recoil msE (1, 2) = Some (sE recoil).
Proof. unfold newSampler, msE, rltb. cbn [length Nat.ltb Nat.leb]. destruct (Rlt_dec 2 1); [lra|]. reflexivity. Qed.
Lemma madeF : made msE (1, 2) sF.
Proof. apply MFile, MPrior. eapply MNew. apply newE. Qed.
Lemma madeG : made msE (1, 2) sG.
Proof. apply MFile. eapply MNew. apply newE. Qed.
Lemma posE : Forall (fun m => 0 <= m) msE.
Proof. unfold msE. repeat constructor; lra. Qed.
Lemma insideE : insideMasses msE (pointMasses msE ptE).
Proof. intros [|[|[|i]]] Hi; cbn in Hi; try lia; cbn; lra. Qed.
Lemma allowedE : allowedMasses msE (pointMasses msE ptE).
Proof. apply allowed_of_inside; [reflexivity|reflexivity|exact insideE]. Qed.
Lemma cosE : forall i, (1 <= i < length msE)%nat -> -1 <= pointCos msE ptE i <= 1.
Proof. intros [|[|[|i]]] Hi; cbn in Hi; try lia; cbn; lra. Qed.

Example C84_prior_case : made msE (1, 2) sF /\ isPoint msE ptE /\ (exists x, logAPrioriProbability ptE sF = Some (Fin x))
  /\ logAPrioriProbability [0.75; 0; 0; 0.9; 0; 0] sF = Some (Inf true) /\ logAPrioriProbability [0.5; 0; 0; 1.5; 0; 0] sF = Some (Inf true).
Proof.
  split; [exact madeF|]. split; [reflexivity|]. split; [|split].
  - destruct (C84_prior msE (1, 2) sF ptE madeF eq_refl posE) as (_ & H & _). destruct (H insideE) as (qs & _ & _ & E & _). eexists. apply E. cbn. lra.
  - destruct (C84_prior msE (1, 2) sF [0.75; 0; 0; 0.9; 0; 0] madeF eq_refl posE) as (H & _). apply H. intros (_ & _ & A). specialize (A 2%nat ltac:(cbn; lia)). cbn in A. lra.
  - destruct (C84_prior msE (1, 2) sF [0.5; 0; 0; 1.5; 0; 0] madeF eq_refl posE) as (_ & _ & H). apply H.
    + split; [reflexivity|]. split; [reflexivity|]. intros [|[|[|i]]] Hi; cbn in Hi; try lia; cbn; lra.
    + intros A. specialize (A 1%nat ltac:(cbn; lia)). cbn in A. lra.
    + cbn. lra.
    + left. unfold sumR, massX. cbn. lra.
Qed.
Example C84_parameters_case : made msE (1, 2) sF /\ Forall2 within (iPars sF) ptE /\ ~ Forall2 within (iPars sF) [0.75; 0; 0; 2.5; 0; 0].
Proof.
  destruct (C84_parameters msE 1 2) as [_ H]. specialize (H sF madeF posE) as (_ & H1 & H2). split; [exact madeF|]. split.
  - apply H1; [reflexivity|exact allowedE|cbn; lra|]. assert (3 < PI) as P3 by (pose proof PI2_3_2; lra). intros [|[|[|i]]] Hi; cbn in Hi; try lia; cbn; lra.
  - intros Q. apply H2 in Q as (_ & Q & _). cbn in Q. lra.
Qed.
Example C84_point_case : exists ds l, isEvent msE [0.25; 0.75; 1.5] (Lv 0 0 0 1.5) ds /\ logLikelihood ptE sF = Some l /\ isLog (lx (nth 0 ds L0) * lx (nth 0 ds L0)) l.
Proof.
  destruct (C84_point msE (1, 2) sF ptE madeF eq_refl posE allowedE ltac:(cbn; lra) cosE) as (ds & q & EV & _ & _ & _ & LI & _).
  destruct EV as (LD & EV). specialize (LI eq_refl (lx (nth 0 ds L0) * lx (nth 0 ds L0))). destruct LI as (l & E & Q).
  - unfold sF. cbn [initializeFileWriter setMassPrior sE iModel]. unfold modelE. change (V3 0 0 0) with (vect L0). rewrite map_nth. reflexivity.
  - apply Rle_0_sqr.
  - exists ds, l. split; [|split; assumption]. split; [exact LD|exact EV].
Qed.
Example C84_stored_event_case : exists obs X labs, calculateObservables (fun _ => 0.5) true 6 3 ptE 0 sF = Some (obs, Some (Evt [V3 0 0 2.625] (map vect labs) [1.5; 0.5]), 3%nat)
  /\ isEvent msE [0.25; 0.75; 1.5] X labs /\ possible ProdProps3.exBeam (atRest 1) 1.5 0 X /\ isTPrime ProdProps3.exBeam (atRest 1) 1.5 0 X 0.5.
Proof.
  destruct exBeam_ok as (B & W & P & Q & _).
  destruct (C84_stored_event msE (1, 2) sF ptE 0 ProdProps3.exBeam 0.5 2.5 1.05 0.8 (fun _ => 0.5) 6 3 0 1 2 madeF eq_refl posE allowedE ltac:(cbn; lra) cosE) as (obs & X & G & labs & E & PO & TP & EV & _);
    try reflexivity; try assumption; try (cbn; lra); try lia; try exact W; try exact P; try exact Q.
  exists obs, X, labs. split; [exact E|]. split; [exact EV|]. split; assumption.
Qed.
Example C84_same_amplitude_case : exists G, gjTransform AmpExamples.exBeam (momentum AmpExamples.exEvent AmpExamples.exTopo) = Some G
  /\ termAmp Helicity AmpExamples.exParts true false false AmpExamples.exBeam AmpExamples.exTopo AmpExamples.exEvent (fun p => match p with 0%nat => 2 | _ => 0 end)%Z
     = termAmp Helicity AmpExamples.exParts true false false (momentum (fun p => lapply G (AmpExamples.exEvent p)) AmpExamples.exTopo) AmpExamples.exTopo (fun p => lapply G (AmpExamples.exEvent p)) (fun p => match p with 0%nat => 2 | _ => 0 end)%Z.
Proof.
  destruct AmpExamples.C74_hypotheses as (D & HD & PH & SO & ST & _ & _ & HM & _).
  destruct (gj_always AmpExamples.exBeam _ 15 HM) as (G & EG & _). exists G. split; [exact EG|]. now apply (C84_same_amplitude _ _ _ _ _ _ (fun p => match p with 0%nat => 2 | _ => 0 end)%Z 15 G).
Qed.
Example C84_file_case : exists es pos, run (fun _ => 0.5) 3 [(false, 3%nat, ptE); (true, 3%nat, ptE); (true, 4%nat, ptE); (true, 6%nat, ptE)] 0 sF = Some (es, pos) /\ length es = 2%nat.
Proof.
  destruct exBeam_ok as (B & W & P & Q & _).
  assert (forall it pos, (it mod 3 = 0)%nat -> exists o e, calculateObservables (fun _ => 0.5) true it 3 ptE pos sF = Some (o, Some e, S (S (S pos)))) as K.
  { intros it pos HI. destruct (C84_stored_event msE (1, 2) sF ptE 0 ProdProps3.exBeam 0.5 2.5 1.05 0.8 (fun _ => 0.5) it 3 pos (S pos) (S (S pos)) madeF eq_refl posE allowedE ltac:(cbn; lra) cosE) as (obs & X & G & labs & E & _);
      try reflexivity; try assumption; try (cbn; lra); try lia; try exact W; try exact P; try exact Q. eauto. }
  destruct (event_ok msE (1, 2) sF ptE madeF eq_refl posE allowedE ltac:(cbn; lra) cosE) as (g & q & EG & _).
  cbn [run]. assert (forall mr it pos, (mr && (it mod 3 =? 0) = false)%nat -> exists o, calculateObservables (fun _ => 0.5) mr it 3 ptE pos sF = Some (o, None, pos)) as N.
  { intros mr it pos H. unfold calculateObservables. rewrite EG. cbn [bnd]. change (rd ptE (3 * nPart sF - 6)) with (Some 1.5). cbn [bnd iOpen sF initializeFileWriter andb Nat.eqb]. destruct mr; cbn [andb] in *; [rewrite H; cbn [negb]|]; eauto. }
  destruct (N false 3%nat 0%nat eq_refl) as (o1 & ->). cbn [bnd]. destruct (K 3%nat 0%nat eq_refl) as (o2 & e2 & ->). cbn [bnd]. destruct (N true 4%nat 3%nat eq_refl) as (o3 & ->). cbn [bnd]. destruct (K 6%nat 3%nat eq_refl) as (o4 & e4 & ->). cbn [bnd].
  eexists _, _. split; [reflexivity|reflexivity].
Qed.
Example C84_threshold_case : logAPrioriProbability [0.5; 0; 0; 0.75; 0; 0] (sE 0) = Some NaN.
Proof.
  apply (C84_threshold_refuted msE (1, 2)).
  - eapply MNew. apply newE.
  - reflexivity.
  - exact posE.
  - cbn. lia.
  - split; [reflexivity|]. split; [reflexivity|]. intros [|[|[|i]]] Hi; cbn in Hi; try lia; cbn; lra.
  - cbn. lra.
  - unfold sumR. cbn. lra.
Qed.
Example C84_beam_energy_case : (exists x, logAPrioriProbability ptE sG = Some (Fin x)) /\ calculateObservables (fun _ => 0.5) true 0 1 ptE 0 sG = None.
Proof.
  split.
  - destruct (C84_prior msE (1, 2) sG ptE madeG eq_refl posE) as (_ & H & _). destruct (H insideE) as (qs & _ & _ & E & _). eexists. apply E. cbn. lra.
  - destruct exBeam_ok as (B & W & _). apply (C84_beam_energy_refuted sG ptE ProdProps3.exBeam 0.5 2.5 (fun _ => 0.5) 0 1 0 1 2 1.5); try reflexivity; try lra.
    + exact W.
    + cbn. rewrite Rabs_right; lra.
    + cbn. lra.
Qed.
Example C84_failed_initialisation_case : exists m' s, IntensModel.initDecayAmplitudes true [] [] (IntensCases.obj false [None; None; None; None] [] [] false) = Some (false, m')
  /\ newSampler (IntensModel.getIntensityAllX m') beamE tpE 1 0 msE (1, 2) = Some s /\ forall pars, logLikelihood pars s = None.
Proof.
  eexists. assert (IntensModel.initDecayAmplitudes true [] [] (IntensCases.obj false [None; None; None; None] [] [] false) = Some (false, IntensCases.obj false [None; None; None; None] [] [] true)) as E by reflexivity.
  destruct (C84_failed_initialisation_refuted [] [] _ _ beamE tpE 1 0 msE 1 2 E ltac:(cbn; lia) ltac:(lra)) as (s & ES & H). exists s. split; [exact E|]. split; assumption.
Qed.
