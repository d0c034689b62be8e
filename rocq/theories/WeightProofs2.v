(* Lemmas for C89: the whole program. *)
From Coq Require Import String Ascii List ZArith Bool Reals Lia Lra Psatz.
From Coquelicot Require Import Complex.
From Verif Require Import PathModel StrModel ParticleModel ParticleProps FitResultModel FitStoreProps AmpIntModel AmpIntProofs AmpIntProps2 FitSdmProps FitIntProps IntensProps WeightModel WeightSpec WeightProofs.
Import ListNotations.
Open Scope list_scope.
Open Scope nat_scope.

Lemma readProdAmp_val fr i a : readProdAmp fr i = Some a ->
  labels fr i (waveNameForProdAmp (paName a)) (paRank a) (paRefl a) /\ nth_error (frAmpNames fr) i = Some (paName a) /\ nth_error (frWaveNames fr) (paWave a) = Some (waveNameForProdAmp (paName a)) /\ nth_error (frAmps fr) i = Some (paAmp a).
Proof.
  unfold readProdAmp. intros H. bind H n EA. cbv zeta in H. bind H k EB. bind H rank EC. bind H refl ED. bind H T EE. injection H as <-. cbn [paWave paName paRefl paRank paAmp].
  split; [exists n; auto|]. split; [reflexivity|]. split; [now apply findStr_some|reflexivity].
Qed.
Lemma waves_val fr l : (forall i a, nth_error l i = Some a -> nth_error (frWaveNames fr) (paWave a) = Some (waveNameForProdAmp (paName a))) ->
  forall a, In a l -> nth_error (waveNamesOf fr l) (paWave a) = Some (waveNameForProdAmp (paName a)).
Proof.
  intros H a I. pose proof I as J. apply In_nth_error in I. destruct I as [i I]. specialize (H i a I). unfold waveNamesOf.
  assert (paWave a < length (frWaveNames fr)) as L by (apply nth_error_Some; congruence).
  rewrite nth_error_map, nth_error_seq0 by exact L. cbn [option_map]. rewrite (proj2 (existsb_exists (fun b => paWave b =? paWave a) l)); [|exists a; split; [exact J|apply Nat.eqb_refl]].
  f_equal. now apply nth_error_nth.
Qed.
(* everything the program computes from *)
Record run (center width : R) (results : list ((R * R) * fitResult)) (mat : aim) (files : str -> option (list (list C)))
    (U : fitResult -> nat -> nat -> R) (random : list (nat -> R)) (rws : list row) (fr : fitResult) (l : list pamp) (more : list (list C)) (trees : list (option (list (list C)))) : Prop := {
  r_best : exists j m v, best center width (map fst results) j /\ nth_error results j = Some ((m, v), fr);
  r_amps : readProdAmps fr = Some l;
  r_more : mapO (variedProdAmps fr (U fr)) random = Some more;
  r_trees : openRootAmpFiles files (waveNamesOf fr l) [] 0 = (trees, length rws);
  r_len : length trees = length (waveNamesOf fr l);
  r_pos : length rws <> 0;
  r_rows : mapO (weighEvent mat (waveNamesOf fr l) trees (maxRankOf l (S (length more))) l (map paAmp l :: more)) (seq 0 (length rws)) = Some rws }.
Lemma run_of center width single results mat files U random b rws : weightEvents center width single results mat files U random = Some (b, rws) ->
  exists fr l more trees, run center width results mat files U random rws fr l more trees /\ b = prodBranches single (maxRankOf l (S (length more))).
Proof.
  unfold weightEvents. destruct (Req_EM_T center 0); [discriminate|]. intros H. bind H j EA. bind H x EB. cbv zeta in H. bind H l EC. bind H more ED.
  destruct (openRootAmpFiles files (waveNamesOf (snd x) l) [] 0) as [trees ne] eqn:EE.
  destruct (length (waveNamesOf (snd x) l) =? length trees) eqn:EF; cbn [negb] in H; [|discriminate]. destruct (ne =? 0) eqn:EG; [discriminate|]. bind H rr EH. injection H as <- <-.
  apply Nat.eqb_eq in EF. apply Nat.eqb_neq in EG. pose proof (mapO_length _ _ _ EH) as L. rewrite seq_length in L.
  exists (snd x), l, more, trees. split; [|reflexivity]. constructor; rewrite ?L; try assumption; [|now symmetry].
  exists j, (fst (fst x)), (snd (fst x)). split; [now apply pick_best|]. destruct x as [[m v] fr]. exact EB.
Qed.
Section Run.
  Variables (center width : R) (results : list ((R * R) * fitResult)) (mat : aim) (files : str -> option (list (list C)))
    (U : fitResult -> nat -> nat -> R) (random : list (nat -> R)) (rws : list row) (fr : fitResult) (l : list pamp) (more : list (list C)) (trees : list (option (list (list C)))).
  Hypothesis V : run center width results mat files U random rws fr l more trees.
  Definition waves : list str := waveNamesOf fr l.
  Lemma l_len : length l = length (frAmps fr). Proof. pose proof (mapO_length _ _ _ (r_amps _ _ _ _ _ _ _ _ _ _ _ _ V)) as H. now rewrite seq_length in H. Qed.
  Lemma l_nth i : i < length l -> nth_error l i = Some (aAt l i) /\ readProdAmp fr i = Some (aAt l i).
  Proof.
    intros L. assert (nth_error (seq 0 (length (frAmps fr))) i = Some i) as Q by (apply nth_error_seq0; now rewrite <- l_len).
    destruct (mapO_nth _ _ _ _ _ (r_amps _ _ _ _ _ _ _ _ _ _ _ _ V) Q) as (a & A & N). unfold aAt. rewrite (nth_error_nth _ _ _ N). auto.
  Qed.
  Lemma waves_at i : i < length l -> nth_error waves (paWave (aAt l i)) = Some (wAt waves l i) /\ wAt waves l i = waveNameForProdAmp (paName (aAt l i)).
  Proof.
    intros L. assert (nth_error waves (paWave (aAt l i)) = Some (waveNameForProdAmp (paName (aAt l i)))) as W.
    { apply waves_val; [|apply nth_In; exact L]. intros k a N. assert (k < length l) as Lk by (apply nth_error_Some; congruence). destruct (l_nth k Lk) as [N1 N2]. rewrite N in N1. injection N1 as ->. now apply readProdAmp_val in N2. }
    assert (wAt waves l i = waveNameForProdAmp (paName (aAt l i))) as Q by (unfold wAt, wv; now apply nth_error_nth). rewrite Q. auto.
  Qed.
  Lemma labels_at i : i < length l -> labels fr i (wAt waves l i) (paRank (aAt l i)) (paRefl (aAt l i)).
  Proof. intros L. rewrite (proj2 (waves_at i L)). apply readProdAmp_val. now apply l_nth. Qed.
  Lemma refl_at i : i < length l -> (paRefl (aAt l i) = 0 \/ paRefl (aAt l i) = 1 \/ paRefl (aAt l i) = -1)%Z.
  Proof. intros L. destruct (labels_at i L) as (n & _ & _ & _ & R). exact (refl_range _ _ R). Qed.
  Lemma one_flat_at : oneFlat fr -> forall i j, i < length l -> j < length l -> flatWave (wAt waves l i) = true -> flatWave (wAt waves l j) = true -> i = j.
  Proof. intros F i j Li Lj Fi Fj. destruct (labels_at i Li) as (n & N & W & _). destruct (labels_at j Lj) as (n' & N' & W' & _). rewrite W in Fi. rewrite W' in Fj. exact (F i j n n' N N' Fi Fj). Qed.
  Lemma first_amps : map paAmp l = frAmps fr.
  Proof.
    apply (nth_ext _ _ (RtoC 0) (RtoC 0)); [rewrite map_length; apply l_len|]. intros i Hi. rewrite map_length in Hi. destruct (l_nth i Hi) as [N R]. apply readProdAmp_val in R. destruct R as (_ & _ & _ & R).
    rewrite (nth_error_nth _ _ _ R). apply nth_error_nth. now rewrite nth_error_map, N.
  Qed.
  Lemma samples_at s : s < S (length random) -> exists amps, nth_error (map paAmp l :: more) s = Some amps /\ sampleAmps fr (U fr) random s amps.
  Proof.
    intros L. destruct s as [|s]; [exists (frAmps fr); cbn; rewrite first_amps; auto|].
    destruct (nth_error random s) as [x|] eqn:E; [|apply nth_error_None in E; lia]. destruct (mapO_nth _ _ _ _ _ (r_more _ _ _ _ _ _ _ _ _ _ _ _ V) E) as (a & A & N).
    exists a. cbn. split; [exact N|]. exists x. auto.
  Qed.
  Lemma trees_at k w : nth_error waves k = Some w -> if flatWave w then nth_error trees k = Some None
     else exists t, files w = Some t /\ nth_error trees k = Some (Some t) /\ length t = length rws.
  Proof.
    intros N. pose proof (trees_all _ _ _ _ _ _ (r_trees _ _ _ _ _ _ _ _ _ _ _ _ V)) as (_ & _ & T); [rewrite (r_len _ _ _ _ _ _ _ _ _ _ _ _ V); cbn; lia|].
    specialize (T k w N). cbn [length Nat.add] in T. destruct (flatWave w); [exact T|]. destruct T as (t & T1 & T2 & T3 & _). exists t. auto.
  Qed.
  (* one row: decay amplitudes, weights of the samples *)
  Lemma row_at e rw : nth_error rws e = Some rw -> exists decs, readDecayAmps trees e = Some decs
    /\ (forall s amps, nth_error (map paAmp l :: more) s = Some amps -> exists p n f prods, sampleWeight mat waves decs (maxRankOf l (S (length more))) l amps = Some ((p, n), f, prods)
        /\ nth_error (wSamples rw) s = Some (p + n + f)%R
        /\ (s = 0 -> wAll rw = (p + n + f)%R /\ wPos rw = p /\ wNeg rw = n /\ wFlat rw = f /\ wProds rw = prods /\ wWaves rw = map (fun k => waveSum k (combine l prods)) (seq 0 (length waves))))
    /\ length (wSamples rw) = S (length random).
  Proof.
    intros N. destruct (mapO_nth_r _ _ _ _ _ (r_rows _ _ _ _ _ _ _ _ _ _ _ _ V) N) as (e' & SQ & W).
    assert (e' = e) as ->. { assert (e < length rws) as L by (apply nth_error_Some; congruence). rewrite nth_error_seq0 in SQ by exact L. congruence. }
    unfold weighEvent in W. bind W decs EA. bind W ws EB. destruct ws as [|x ws]; [discriminate|]. destruct x as [[[p n] f] prods]. injection W as <-.
    exists decs. split; [reflexivity|]. split.
    - intros s amps Hs. destruct (mapO_nth _ _ _ _ _ EB Hs) as ([[[p' n'] f'] prods'] & S1 & S2). exists p', n', f', prods'. split; [exact S1|]. cbn [wSamples wAll wPos wNeg wFlat wProds wWaves]. split.
      + change ((p + n + f)%R :: map total ws) with (map total ((p, n, f, prods) :: ws)). rewrite nth_error_map, S2. reflexivity.
      + intros ->. cbn in S2. injection S2 as <- <- <- <-. repeat split; reflexivity.
    - cbn [wSamples length]. rewrite map_length. apply mapO_length in EB. cbn [length] in EB. injection EB as ->. rewrite (mapO_length _ _ _ (r_more _ _ _ _ _ _ _ _ _ _ _ _ V)). reflexivity.
  Qed.
  Lemma norm_at w : (exists k x, AmpIntModel.waveIndex mat w = Some k /\ element mat k k = Some x /\ nq mat w = (Re x * IZR (nmbEvents mat))%R) -> normOf mat w (nq mat w).
  Proof. intros (k & x & K1 & K2 & K3). exists k, x. split; [|auto]. now apply findIdx_some in K1. Qed.
  Lemma contribution_at e decs i amps : readDecayAmps trees e = Some decs -> i < length l -> good mat waves decs (maxRankOf l (S (length more))) (aAt l i) ->
    contribution fr mat files e i (nth i amps (RtoC 0)) (wAt waves l i) (paRank (aAt l i)) (paRefl (aAt l i)) (zAt mat waves decs l amps i).
  Proof.
    intros D L (G1 & G2 & G3). split; [now apply labels_at|]. unfold zAt, zOf. change (wv waves (aAt l i)) with (wAt waves l i) in *. pose proof (trees_at _ _ G1) as T. destruct (flatWave (wAt waves l i)); [split; [exact G3|reflexivity]|].
    destruct G3 as (G3 & G4 & _). destruct T as (t & T1 & T2 & T3). destruct (mapO_nth _ _ _ _ _ D T2) as (d & D1 & D2). cbn in D1. bind D1 entry EN. destruct entry as [|a [|]]; try discriminate. injection D1 as ->.
    exists d, (nq mat (wAt waves l i)). split; [exists t; auto|]. split; [now apply norm_at|]. split; [exact G4|]. now rewrite (nth_error_nth _ _ _ D2).
  Qed.
End Run.
