(* C83: concrete cases and what the model intensity does not do. *)
From Coq Require Import String Ascii List ZArith Bool Reals Lia Lra Psatz.
From Coquelicot Require Import Complex.
From Verif Require Import PathModel StrModel ParticleModel ParticleProps FitResultModel AmpIntModel AmpIntProofs AmpIntProps2 FitSdmProps FitIntProps IntensModel IntensSpec IntensProofs IntensProofs2 IntensProps IntensProps2 IntensProps3.
From Verif Require Import RegexProps.
From Verif Require PhaseModel PhysModel.
Import ListNotations.
Open Scope list_scope.
Open Scope nat_scope.

Definition W0 : str := lit "[1-,1++,0+]=[rho_770_0[0,1]pi-]".
Definition W1 : str := lit "[1-,2-+,0+]=[f2_1270_0[0,2]pi-]".
Definition W2 : str := lit "[1-,1++,1-]=[rho_770_0[0,1]pi-]".
Definition Xn : str := lit "X-".
Definition keys1 : list (Z * str) := [(0, W0); (0, W1); (0, W2); (-1, lit "flat")]%Z.
Definition norm1 (i j : nat) : C := match i, j with 0, 0 | 1, 1 | 2, 2 | 3, 3 | 0, 2 | 2, 0 => RtoC 1 | _, _ => RtoC 0 end.
Definition fr1 : fitResult :=
  fill frNew (FA 100 10 [] 0 1 [(1, 0); (2, -1); (1, 1); (1/2, 0)]%R (map keyName keys1) None [] (Some (Mat 4 4 norm1)) None (Some [1; 1; 2; 1]%R) true false).
Lemma fr1_waves : frWaveNames fr1 = [W0; W1; W2; lit "flat"]. Proof. reflexivity. Qed.
Lemma fr1_regular : regular fr1 keys1.
Proof.
  constructor.
  - reflexivity.
  - reflexivity.
  - unfold keys1. repeat constructor; intros H; repeat (destruct H as [H|H]; [discriminate|]); destruct H.
  - intros r w H. change (frRank fr1) with 1%Z. unfold keys1 in H. repeat (destruct H as [H|H]; [injection H as <- <-; split; [lia|intros K; (discriminate || reflexivity)]|]). destruct H.
  - intros w. rewrite fr1_waves. intros H. repeat (destruct H as [<-|H]; [reflexivity|]). destruct H.
  - intros w. rewrite fr1_waves. intros H. repeat (destruct H as [<-|H]; [vm_compute; discriminate|]). destruct H.
  - intros w k. rewrite fr1_waves. intros H Hk Hs. apply contains_spec in Hs. unfold keys1 in Hk.
    repeat (destruct H as [<-|H]; [repeat (destruct Hk as [<-|Hk]; [reflexivity || (vm_compute in Hs; discriminate)|]); destruct Hk|]). destruct H.
  - vm_compute. discriminate.
Qed.
Lemma fr1_nodup : NoDup (frWaveNames fr1).
Proof. rewrite fr1_waves. repeat constructor; intros H; repeat (destruct H as [H|H]; [discriminate|]); destruct H. Qed.

(* amplitudes: 1, the x component of the first momentum, 2 *)
Definition xOf (dec : list vec) : R := match dec with p :: _ => PhaseModel.vx p | [] => 0%R end.
Definition okInit (X : str) (c : bool) (n : list str) (l : list str) : bool := negb c || match n with [y] => str_eqb y X | _ => false end.
Definition a0 := DA W0 1 Xn (okInit Xn) (fun _ _ _ _ => Some (RtoC 1)).
Definition a1 := DA W1 1 Xn (okInit Xn) (fun _ _ _ dec => Some (RtoC (xOf dec))).
Definition a2 := DA W2 (-1) Xn (okInit Xn) (fun _ _ _ _ => Some (RtoC 2)).
Definition slots (fx : bool) (de : list str) := [Some (Slot a0 fx de); Some (Slot a1 fx de); Some (Slot a2 fx de); None].
Definition obj (i : bool) (am : list (option slot)) (r : list Z) (al : list Z) (fx : bool) : mi := MI fr1 [0; 1; 2] i am r al true [1; 1; 2; 1]%R fx.
Definition trace1 : list (op * bool) := [(OAdd a0, true); (OAdd a1, true); (OAdd a2, true)].
Definition m0 : mi := obj false [Some (Slot a0 false []); Some (Slot a1 false []); Some (Slot a2 false []); None] [1; 1; -1; 0]%Z [-1; 1]%Z false.
Definition m1 : mi := obj true (slots true [lit "pi-"]) [1; 1; -1; 0]%Z [-1; 1]%Z true.
Definition trace2 : list (op * bool) := trace1 ++ [(OInit true [] [lit "pi-"], true)].
Lemma hist0 : hist fr1 trace1 m0.
Proof.
  change trace1 with ((([] ++ [(OAdd a0, true)]) ++ [(OAdd a1, true)]) ++ [(OAdd a2, true)]).
  eapply HCall; [eapply HCall; [eapply HCall; [constructor|]|]|]; reflexivity.
Qed.
Lemma hist1 : hist fr1 trace2 m1.
Proof. eapply HCall; [exact hist0|]. reflexivity. Qed.
Lemma noFlat1 : noFlat fr1 = [0; 1; 2]. Proof. reflexivity. Qed.
Lemma proper1 idx : (forall i, In i idx -> i < 3) -> proper fr1 idx.
Proof.
  intros H i Hi. pose proof (H i Hi). rewrite fr1_waves.
  destruct i as [|[|[|i]]]; [exists W0|exists W1|exists W2|lia]; (split; [reflexivity|discriminate]).
Qed.
Lemma added1 t i a : incl t trace2 -> addedAs fr1 t i a -> (i = 0 /\ a = a0) \/ (i = 1 /\ a = a1) \/ (i = 2 /\ a = a2).
Proof.
  intros T [A B]. apply T in B. rewrite fr1_waves in A.
  assert (a = a0 \/ a = a1 \/ a = a2) as Q.
  { cbn [trace2 trace1 app In] in B. repeat (destruct B as [B|B]; [first [injection B as <-|discriminate]; auto|]). destruct B. }
  destruct Q as [Q|[Q|Q]]; subst a; destruct i as [|[|[|[|i]]]]; try (destruct i; discriminate); first [left; split; reflexivity|right; left; split; reflexivity|right; right; split; reflexivity|discriminate A|vm_compute in A; discriminate A].
Qed.

(* an event with momentum x *)
Definition ev (x : R) : list vec * list vec := ([], [PhaseModel.V3 x 0 0]).
Definition int1 (x : R) : R := (Rsqr (1 + 2 * x) + Rsqr x + 2)%R.
Lemma one_nz : 1%R <> 0%R. Proof. lra. Qed.
Lemma int1_ok x prod : getIntensity m1 [0; 1; 2] prod [PhaseModel.V3 x 0 0] = Some (int1 x).
Proof.
  unfold getIntensity, getDecayAmplitudes. cbn [miInit miLoaded m1 obj negb]. change (seq 0 (nWaves (miFR m1))) with [0; 1; 2; 3].
  unfold mapP, waveAmp. cbn [miAmps miPS m1 obj nth_error slots bindP slAmp a0 a1 a2 daEval xOf PhaseModel.vx]. unfold cdivR.
  destruct (Req_EM_T 1 0) as [Q|_]; [lra|]. destruct (Req_EM_T 2 0) as [Q|_]; [lra|]. cbn [bindP].
  unfold miAll, m1, obj. cbn [incohSum cohSum nth_error miRefls bindP Z.eqb Pos.eqb miFR prodAmpAt]. 
  change (frAmps fr1) with [(1, 0); (2, -1); (1, 1); (1/2, 0)]%R. cbn [nth_error bindP]. f_equal. unfold cnorm, int1, Rsqr.
  assert (RtoC 1 / RtoC 1 = RtoC 1)%C as -> by (field; intros Q; apply RtoC_inj in Q; lra).
  assert (RtoC x / RtoC 1 = RtoC x)%C as -> by (field; intros Q; apply RtoC_inj in Q; lra).
  assert (RtoC 2 / RtoC 2 = RtoC 1)%C as -> by (rewrite <- RtoC_div by lra; f_equal; lra).
  cbn. field.
Qed.

Example C83_intensity_case x prod : exists fx de ps refl z, hist fr1 trace2 m1 /\ lastInit trace2 = Some (fx, de) /\ lastNorms fr1 trace2 = Some ps
    /\ (forall i, In i [0; 1; 2] -> waveTerm fr1 trace2 fx de ps prod [PhaseModel.V3 x 0 0] i (refl i) (z i))
    /\ RtoC (int1 x) = interference refl z [0; 1; 2] /\ (0 <= int1 x)%R.
Proof.
  assert (proper fr1 [0; 1; 2]) as P by (apply proper1; cbn; intros i Hi; lia).
  assert (forall i, In i [0; 1; 2] -> i < length (frAmps fr1)) as L by (intros i Hi; change (length (frAmps fr1)) with 4; cbn in Hi; lia).
  destruct (C83_intensity fr1 trace2 m1 [0; 1; 2] prod [PhaseModel.V3 x 0 0] (int1 x) hist1 P (int1_ok x prod) L) as (fx & de & ps & refl & z & Q).
  exists fx, de, ps, refl, z. split; [exact hist1|exact Q].
Qed.
Example C83_defined_case prod dec : exists x, getIntensity m1 [0; 2] prod dec = Some x.
Proof.
  apply (C83_defined fr1 trace2 m1 [0; 2] prod dec true [lit "pi-"] [1; 1; 2; 1]%R hist1 fr1_nodup).
  - reflexivity.
  - reflexivity.
  - now left.
  - intros n H. repeat (destruct H as [<-|H]; [lra|]). destruct H.
  - intros i a A. apply added1 in A; [|apply incl_refl]. destruct A as [[_ Q]|[[_ Q]|[_ Q]]]; subst a; discriminate.
  - apply proper1. cbn. intros i Hi. lia.
  - intros i Hi. change (length (frAmps fr1)) with 4. cbn in Hi. lia.
Qed.
Example C83_add_case : (exists m, addDecayAmplitude a2 (newMI fr1) = Some (true, m)) /\ addDecayAmplitude a1 m0 = Some (false, m0)
  /\ addDecayAmplitude (DA (lit "other") 1 Xn (okInit Xn) (fun _ _ _ _ => None)) m0 = Some (false, m0).
Proof.
  split; [|split].
  - destruct (C83_add fr1 [] (newMI fr1) a2 (HNew fr1) fr1_nodup) as (b & m & E & Q & _). exists m. rewrite E. f_equal. f_equal. apply Q. split; [rewrite fr1_waves; cbn; auto|intros a []].
  - destruct (C83_add fr1 trace1 m0 a1 hist0 fr1_nodup) as (b & m & E & Q & K). rewrite E. destruct b; [|now rewrite K]. exfalso. destruct (proj1 Q eq_refl) as [_ N]. apply (N a1); [cbn; auto|reflexivity].
  - destruct (C83_add fr1 trace1 m0 (DA (lit "other") 1 Xn (okInit Xn) (fun _ _ _ _ => None)) hist0 fr1_nodup) as (b & m & E & Q & K). rewrite E. destruct b; [|now rewrite K]. exfalso. destruct (proj1 Q eq_refl) as [N _].
    rewrite fr1_waves in N. repeat (destruct N as [N|N]; [discriminate|]). destruct N.
Qed.
(* a matrix of two events: W2 comes first *)
Definition mat1 : aim := AIM 3 [W2; W0; W1] 2 [[RtoC 8; RtoC 4; RtoC 0]; [RtoC 4; RtoC 2; RtoC 0]; [RtoC 0; RtoC 0; RtoC 2]].
Lemma mat1_diag w k : waveIndex mat1 w = Some k -> exists x, element mat1 k k = Some x /\ (0 <= Re x)%R.
Proof.
  intros H. assert (k < 3) as L.
  { unfold waveIndex, mat1 in H. cbn [waveNames findIdx] in H. destruct (str_eqb W2 w); [injection H as <-; lia|]. destruct (str_eqb W0 w); [injection H as <-; lia|]. destruct (str_eqb W1 w); [injection H as <-; lia|discriminate]. }
  destruct k as [|[|[|k]]]; [| | |lia]; (eexists; split; [reflexivity|]); cbn [nmbEvents mat1]; rewrite <- RtoC_div by lra; cbn; lra.
Qed.
Example C83_load_case : exists b m m', loadPhaseSpaceIntegral mat1 m1 = Some (true, m) /\ hist fr1 (trace2 ++ [(OLoad mat1, true)]) m
  /\ loadPhaseSpaceIntegral (AIM 1 [W1] 2 [[RtoC 1]]) m1 = Some (b, m') /\ b = false /\ getIntensity m' [0] [] [] = None.
Proof.
  destruct (loadPhaseSpaceIntegral mat1 m1) as [[b m]|] eqn:E; [|exfalso; revert E; apply (C83_load_defined fr1 trace2 m1 mat1 hist1); [discriminate|exact mat1_diag]].
  assert (b = true) as ->. { apply (C83_load fr1 trace2 m1 mat1 b m hist1 E). rewrite fr1_waves. intros w H NF. cbn [In] in H. destruct H as [H|[H|[H|[H|[]]]]]; subst w; [| | |now contradiction NF]; unfold mat1; cbn; auto. }
  exists false, m. eexists. split; [reflexivity|]. split; [eapply HCall; [exact hist1|exact E]|]. split; [reflexivity|]. split; reflexivity.
Qed.
Example C83_load_defined_case : nmbEvents mat1 <> 0%Z /\ (forall w k, waveIndex mat1 w = Some k -> exists x, element mat1 k k = Some x /\ (0 <= Re x)%R)
  /\ loadPhaseSpaceIntegral mat1 m1 <> None.
Proof. split; [discriminate|]. split; [exact mat1_diag|]. apply (C83_load_defined fr1 trace2 m1 mat1 hist1); [discriminate|exact mat1_diag]. Qed.
Example C83_initialise_case : exists m m', initDecayAmplitudes true [] [lit "pi-"] m0 = Some (true, m) /\ initDecayAmplitudes true [] [lit "pi-"] (newMI fr1) = Some (false, m').
Proof.
  destruct (C83_initialise fr1 trace1 m0 true [] [lit "pi-"] [Xn] hist0 fr1_nodup) as (b & m & E & Q).
  { right. split; [reflexivity|]. exists Xn. split; [discriminate|]. split; [reflexivity|]. intros a H. unfold trace1 in H. cbn [In] in H. repeat (destruct H as [H|H]; [first [injection H as <-|discriminate]; reflexivity|]). destruct H. }
  destruct (C83_initialise fr1 [] (newMI fr1) true [] [lit "pi-"] [Xn] (HNew fr1) fr1_nodup) as (b' & m' & E' & Q').
  { right. split; [reflexivity|]. exists Xn. split; [discriminate|]. split; [reflexivity|]. intros a []. }
  assert (b = true) as ->.
  { apply Q. intros i w Hw. rewrite fr1_waves in Hw. split.
    - intros -> a A. apply added1 in A; [|unfold trace2; apply incl_appl, incl_refl]. destruct A as [[Ei _]|[[Ei _]|[Ei _]]]; subst i; discriminate.
    - intros NF. destruct i as [|[|[|[|i]]]]; cbn [nth_error] in Hw; try (injection Hw as <-); [exists a0|exists a1|exists a2|contradiction|destruct i; discriminate];
        (split; [split; [rewrite fr1_waves; reflexivity|unfold trace1; cbn; auto]|reflexivity]). }
  assert (b' = false) as ->.
  { destruct b'; [|reflexivity]. destruct (proj1 Q' eq_refl 0 W0) as [_ K]; [reflexivity|]. destruct K as (a & [_ []] & _). discriminate. }
  eauto.
Qed.
Example C83_variants_case x : getIntensityX m1 [0; 1; 2] [PhaseModel.V3 x 0 0] = Some (int1 x) /\ getIntensityAllX m1 [PhaseModel.V3 x 0 0] = Some (int1 x).
Proof.
  destruct (C83_variants fr1 trace2 m1 [0; 1; 2] [] [PhaseModel.V3 x 0 0] (int1 x) hist1) as (A & _ & B & _ & _). rewrite B, noFlat1.
  assert (getIntensityX m1 [0; 1; 2] [PhaseModel.V3 x 0 0] = Some (int1 x)); [|auto]. apply A. split; [exists [lit "pi-"]; reflexivity|apply int1_ok].
Qed.
Example C83_reinitialise_refuted_case : exists m, initDecayAmplitudes false [lit "pi-"; lit "p+"] [lit "pi-"] m1 = Some (false, m) /\ getIntensity m [0] [] [] = None.
Proof.
  destruct (C83_reinitialise_refuted fr1 trace2 m1 [lit "pi-"] [lit "pi-"; lit "p+"] [lit "pi-"] 0 W0 a0 hist1 fr1_nodup) as (m & E & Q).
  - reflexivity.
  - intros b n l H I0. assert (daInit b = okInit Xn /\ daXName b = Xn) as [E1 E2].
    { unfold trace2, trace1 in H. cbn [app In] in H. repeat (destruct H as [H|H]; [first [injection H as <-|discriminate]; split; reflexivity|]). destruct H. }
    rewrite E1 in I0. rewrite E2. unfold okInit in I0. cbn [negb orb] in I0. destruct n as [|y [|? ?]]; try discriminate. apply str_eqb_eq in I0. now subst.
  - reflexivity.
  - discriminate.
  - split; [reflexivity|cbn; auto].
  - discriminate.
  - exists m. split; [exact E|apply Q].
Qed.
Lemma mean1 (f : list vec * list vec -> C) : mean f [ev 1; ev (-1)] = ((f (ev 1) + f (ev (-1))) / RtoC 2)%C.
Proof. unfold mean. cbn [length INR]. rewrite !csumA_cons. unfold csumA. cbn [fold_right]. f_equal. ring. Qed.
Example C83_fit_intensity_case : rankOne fr1 keys1 /\ integralsOf fr1 trace2 true [lit "pi-"] [1; 1; 2; 1]%R [ev 1; ev (-1)]
  /\ intensityOf fr1 (noFlat fr1) = Some (10 * ((int1 1 + int1 (-1)) / 2))%R.
Proof.
  assert (rankOne fr1 keys1) as RO.
  { split; [reflexivity|]. rewrite fr1_waves. intros i w H NF. destruct i as [|[|[|[|i]]]]; cbn [nth_error] in H; try (injection H as <-); try reflexivity; [contradiction|destruct i; discriminate]. }
  assert (integralsOf fr1 trace2 true [lit "pi-"] [1; 1; 2; 1]%R [ev 1; ev (-1)]) as IO.
  { intros i j a b A B. apply added1 in A; [|apply incl_refl]. apply added1 in B; [|apply incl_refl]. rewrite mean1.
    destruct A as [[-> ->]|[[-> ->]|[-> ->]]], B as [[-> ->]|[[-> ->]|[-> ->]]]; cbn [nth valueAt a0 a1 a2 daEval fst snd ev xOf PhaseModel.vx]; unfold normIntegral;
      (match goal with |- ?l = _ => let v := eval cbv in l in idtac end || idtac); 
      rewrite !Cconj_R, <- !RtoC_mult, <- !RtoC_plus, <- !RtoC_div by lra;
      match goal with |- el (frNorm fr1) ?i ?j = _ => change (el (frNorm fr1) i j) with (norm1 i j) end; cbn [norm1]; f_equal; field. }
  split; [exact RO|]. split; [exact IO|].
  pose proof (C83_fit_intensity fr1 keys1 trace2 m1 true [lit "pi-"] [1; 1; 2; 1]%R [ev 1; ev (-1)] (fun e => int1 (xOf (snd e))) hist1 fr1_nodup fr1_regular RO) as Q.
  rewrite Q; clear Q.
  - f_equal. unfold rsumA. cbn [fold_right length INR snd ev xOf PhaseModel.vx]. change (frNormNmbEvents fr1) with 10%Z. lra.
  - intros i a A. apply added1 in A; [|apply incl_refl]. destruct A as [[_ ->]|[[_ ->]|[_ ->]]]; reflexivity.
  - reflexivity.
  - reflexivity.
  - now left.
  - exact IO.
  - discriminate.
  - intros e H. repeat (destruct H as [<-|H]; [unfold getIntensityAll; change (miNoFlat m1) with [0; 1; 2]; apply int1_ok|]). destruct H.
Qed.

(* ---- what the model intensity leaves out ---- *)
Lemma all_from fr t m : hist fr t m -> forall e, In e (miAll m) -> exists a, In (OAdd a, true) t /\ daRefl a = e.
Proof.
  induction 1 as [|t m o b m' H IH E]; intros e He; [destruct He|].
  assert (In e (miAll m) -> exists a, In (OAdd a, true) (t ++ [(o, b)]) /\ daRefl a = e) as K.
  { intros Q. destruct (IH e Q) as (a & A & B). exists a. split; [apply in_or_app; now left|exact B]. }
  destruct o as [a|mat|fx pr de]; cbn [call] in E.
  - unfold addDecayAmplitude in E. destruct (waveIndexOf _ _) as [i|]; [|injection E as <- <-; now apply K].
    destruct (nth_error (miAmps m) i) as [[s|]|]; cbn [bindP] in E; [injection E as <- <-; now apply K| |discriminate]. injection E as <- <-. cbn [miAll] in He.
    apply setInsert_in in He; [|apply (i_all _ _ _ (hist_inv _ _ _ H))]. destruct He as [He|He]; [|now apply K]. exists a. split; [apply in_or_app; right; now left|congruence].
  - unfold loadPhaseSpaceIntegral in E. destruct (loadLoop _ _ _ _) as [[ok ps]|]; cbn [bindP] in E; [|discriminate]. injection E as <- <-. now apply K.
  - unfold initDecayAmplitudes in E. destruct (initLoop _ _ _ _ _ _) as [[ok am]|]; cbn [bindP] in E; [|discriminate]. injection E as <- <-. now apply K.
Qed.
(* With waves of reflectivity +1 and -1 only, asking for the flat wave gives 0, whatever its production
   amplitude: its intensity is not part of the model. *)
Theorem C83_flat_refuted fr t m i prod dec x : hist fr t m -> isFlat fr i -> (forall a, In (OAdd a, true) t -> daRefl a <> 0%Z) ->
  getIntensity m [i] prod dec = Some x -> x = 0%R.
Proof.
  intros H FL NR E. pose proof (hist_inv _ _ _ H) as V. unfold getIntensity in E. destruct (getDecayAmplitudes m prod dec) as [amps|] eqn:EA; [|discriminate]. cbn [bindP] in E.
  assert (nth_error (miRefls m) i = Some 0%Z) as R0.
  { apply (i_zero _ _ _ V). assert (miInit m = true) as MI1. { unfold getDecayAmplitudes in EA. destruct (miInit m); [reflexivity|discriminate]. }
    rewrite (i_init _ _ _ V) in MI1. destruct (lastInit t) as [[fx de]|] eqn:EL; [|discriminate]. destruct (i_names _ _ _ V fx de EL) as [_ SL]. destruct (SL i _ FL) as [[_ Q]|[Q _]]; [exact Q|contradiction]. }
  assert (forall l, (forall e, In e l -> e <> 0%Z) -> forall acc, incohSum m amps [i] l acc = Some acc) as K.
  { induction l as [|e l IH]; intros HL acc; cbn [incohSum]; [reflexivity|]. cbn [cohSum]. rewrite R0. cbn [bindP]. destruct (Z.eqb_spec 0 e) as [Q|_]; [exfalso; apply (HL e); [now left|congruence]|].
    cbn [bindP]. rewrite IH by (intros e' He; apply HL; now right). f_equal. unfold cnorm. cbn. ring. }
  rewrite K in E; [congruence|]. intros e He. destruct (all_from _ _ _ H e He) as (a & A & <-). now apply NR.
Qed.
Example C83_flat_refuted_case : isFlat fr1 3 /\ prodAmpAt fr1 3 = Some (1/2, 0)%R /\ exists x, getIntensity m1 [3] [] [PhaseModel.V3 1 0 0] = Some x /\ x = 0%R.
Proof.
  assert (isFlat fr1 3) as F by reflexivity. split; [exact F|]. split; [reflexivity|].
  assert (exists x, getIntensity m1 [3] [] [PhaseModel.V3 1 0 0] = Some x) as (x & E).
  { unfold getIntensity, getDecayAmplitudes. cbn [miInit miLoaded m1 obj negb]. change (seq 0 (nWaves (miFR m1))) with [0; 1; 2; 3].
    unfold mapP, waveAmp. cbn [miAmps miPS m1 obj nth_error slots bindP slAmp a0 a1 a2 daEval xOf PhaseModel.vx]. unfold cdivR.
    destruct (Req_EM_T 1 0) as [Q|_]; [lra|]. destruct (Req_EM_T 2 0) as [Q|_]; [lra|]. cbn [bindP].
    unfold miAll, m1, obj. cbn [incohSum cohSum nth_error miRefls bindP Z.eqb]. eauto. }
  exists x. split; [exact E|]. apply (C83_flat_refuted fr1 trace2 m1 3 [] [PhaseModel.V3 1 0 0] x hist1 F); [|exact E].
  intros a H. unfold trace2, trace1 in H. cbn [app In] in H. repeat (destruct H as [H|H]; [first [injection H as <-|discriminate]; discriminate|]). destruct H.
Qed.

(* A fit of rank 2 with one wave, production amplitudes 1 and 1: the fit result has intensity 2 per
   event, the model intensity is 1 for every event, as only the amplitude of rank 0 is used. *)
Definition keys2 : list (Z * str) := [(0, W0); (1, W0)]%Z.
Definition fr2 : fitResult :=
  fill frNew (FA 100 1 [] 0 2 [RtoC 1; RtoC 1] (map keyName keys2) None [] (Some (Mat 1 1 (fun _ _ => RtoC 1))) None (Some [1%R]) true false).
Lemma fr2_regular : regular fr2 keys2.
Proof.
  assert (frWaveNames fr2 = [W0]) as W by reflexivity. constructor.
  - reflexivity.
  - reflexivity.
  - unfold keys2. repeat constructor; intros H; repeat (destruct H as [H|H]; [discriminate|]); destruct H.
  - intros r w H. change (frRank fr2) with 2%Z. unfold keys2 in H. repeat (destruct H as [H|H]; [injection H as <- <-; split; [lia|intros K; discriminate]|]). destruct H.
  - intros w. rewrite W. intros H. repeat (destruct H as [<-|H]; [reflexivity|]). destruct H.
  - intros w. rewrite W. intros H. repeat (destruct H as [<-|H]; [vm_compute; discriminate|]). destruct H.
  - intros w k. rewrite W. intros [<-|[]] Hk _. unfold keys2 in Hk. repeat (destruct Hk as [<-|Hk]; [reflexivity|]). destruct Hk.
  - vm_compute. discriminate.
Qed.
Definition m2 : mi := MI fr2 [0] true [Some (Slot a0 true [lit "pi-"])] [1%Z] [1%Z] true [1%R] true.
Definition trace3 : list (op * bool) := [(OAdd a0, true); (OInit true [] [lit "pi-"], true)].
Theorem C83_rank_refuted : hist fr2 trace3 m2 /\ regular fr2 keys2 /\ frNormNmbEvents fr2 = 1%Z /\ integralsOf fr2 trace3 true [lit "pi-"] [1%R] [ev 1]
  /\ (forall prod dec, getIntensityAll m2 prod dec = Some 1%R) /\ intensityOf fr2 (noFlat fr2) = Some 2%R.
Proof.
  assert (hist fr2 trace3 m2) as H.
  { change trace3 with (([] ++ [(OAdd a0, true)]) ++ [(OInit true [] [lit "pi-"], true)]). eapply HCall; [eapply HCall; [constructor|]|]; reflexivity. }
  split; [exact H|]. split; [exact fr2_regular|]. split; [reflexivity|].
  assert (RtoC 1 / RtoC 1 = RtoC 1)%C as D1 by (rewrite <- RtoC_div by lra; f_equal; lra).
  assert (forall i a, addedAs fr2 trace3 i a -> i = 0 /\ a = a0) as AD.
  { intros i a [A B]. unfold trace3 in B. cbn [In] in B. destruct B as [B|[B|[]]]; [|discriminate]. injection B as <-. split; [|reflexivity]. change (frWaveNames fr2) with [W0] in A. destruct i as [|[|i]]; [reflexivity|discriminate|discriminate]. }
  split.
  { intros i j a b A B. apply AD in A. apply AD in B. destruct A as [-> ->], B as [-> ->]. unfold mean. rewrite csumA_cons. unfold csumA. cbn [fold_right length INR nth valueAt a0 daEval fst snd].
    change (normIntegral fr2 0 0) with (RtoC 1). rewrite Cconj_R. replace (RtoC 1 * RtoC 1 + RtoC 0)%C with (RtoC 1) by ring. now rewrite !D1. }
  split.
  { intros prod dec. unfold getIntensityAll, getIntensity, getDecayAmplitudes. cbn [miInit miLoaded m2 negb miNoFlat]. change (seq 0 (nWaves (miFR m2))) with [0].
    unfold mapP, waveAmp. cbn [miAmps miPS m2 nth_error bindP slAmp a0 daEval]. unfold cdivR. destruct (Req_EM_T 1 0) as [Q|_]; [lra|]. cbn [bindP].
    unfold miAll, m2. cbn [incohSum cohSum nth_error miRefls bindP Z.eqb Pos.eqb miFR prodAmpAt]. change (frAmps fr2) with [RtoC 1; RtoC 1]. cbn [nth_error bindP]. rewrite D1. f_equal. unfold cnorm. cbn. ring. }
  assert (noFlat fr2 = [0]) as -> by reflexivity.
  destruct (C29_intensity_is_double_sum fr2 keys2 fr2_regular [0]) as [E _].
  - intros i [<-|[]]. change (length (frWaveNames fr2)) with 1. lia.
  - intros i j [<-|[]] [<-|[]]. change (normIntegral fr2 0 0) with (RtoC 1). now rewrite Cconj_R.
  - rewrite E. f_equal. unfold pairSum. rewrite !csumA_cons. unfold rhoAt. change (nameAt fr2 0) with W0. unfold rhoSpec. destruct (option_eq_dec_Z _ _) as [_|Q]; [|now contradiction Q].
    change (ranks fr2) with [-1; 0; 1]%Z. rewrite !csumA_cons. unfold csumA. cbn [fold_right]. change (V fr2 keys2 W0 (-1)) with (RtoC 0). change (V fr2 keys2 W0 0) with (RtoC 1). change (V fr2 keys2 W0 1) with (RtoC 1).
    change (normIntegral fr2 0 0) with (RtoC 1). change (frNormNmbEvents fr2) with 1%Z. cbn. ring.
Qed.
