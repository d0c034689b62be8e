(* C89: sums of the weights over the events, and the samples of the production amplitudes. *)
From Coq Require Import String Ascii List ZArith Bool Reals Lia Lra Psatz.
From Coquelicot Require Import Complex.
From Verif Require Import PathModel StrModel ParticleModel ParticleProps FitResultModel FitStoreProps AmpIntModel AmpIntProofs AmpIntProps2 FitSdmProps FitIntProps IntensProps WeightModel WeightSpec WeightProofs WeightProofs2 WeightProps.
Import ListNotations.
Open Scope list_scope.
Open Scope nat_scope.

Lemma swap3w {A} (F : A -> nat -> nat -> C) L s : csumA (fun e => csumA (fun i => csumA (fun j => F e i j) L) L) s = csumA (fun i => csumA (fun j => csumA (fun e => F e i j) s) L) L.
Proof. rewrite csumA_swap. apply csumA_ext. intros i _. now rewrite csumA_swap. Qed.
Lemma rsum_ext {A} (f g : A -> R) l : (forall x, In x l -> f x = g x) -> rsum f l = rsum g l.
Proof. induction l as [|x l IH]; intros H; [reflexivity|]. unfold rsum. cbn [fold_right]. fold (rsum f l) (rsum g l). rewrite (H x) by now left. rewrite IH; [reflexivity|]. intros y Hy. apply H. now right. Qed.
Lemma rsum_nth {A} (f : A -> R) (l : list A) d : rsum f l = rsum (fun e => f (nth e l d)) (seq 0 (length l)).
Proof.
  induction l as [|x l IH]; [reflexivity|]. unfold rsum. cbn [length seq fold_right nth]. fold (rsum f l). rewrite <- seq_shift. f_equal. rewrite IH. clear IH. unfold rsum.
  generalize (seq 0 (length l)). intros s. induction s as [|k s IH]; [reflexivity|]. cbn [fold_right map nth]. now rewrite IH.
Qed.
Lemma RtoC_rsum {A} (f : A -> R) l : RtoC (rsum f l) = csumA (fun x => RtoC (f x)) l.
Proof. symmetry. exact (rsum_C f l). Qed.
Lemma cdiv_split a p q b r s : (0 < q)%R -> (0 < s)%R ->
  ((a * p / RtoC (sqrt q)) * Cconj (b * r / RtoC (sqrt s)))%C = (p * Cconj r / RtoC (sqrt q * sqrt s) * (a * Cconj b))%C.
Proof.
  intros Q S0. assert (RtoC (sqrt q) <> RtoC 0) as NQ by (intros E; injection E as E; pose proof (sqrt_lt_R0 q Q); lra). assert (RtoC (sqrt s) <> RtoC 0) as NS by (intros E; injection E as E; pose proof (sqrt_lt_R0 s S0); lra).
  unfold Cdiv. rewrite !Cconj_mult. replace (Cconj (/ RtoC (sqrt s)))%C with (/ RtoC (sqrt s))%C.
  - rewrite RtoC_mult. field. auto.
  - symmetry. rewrite <- (RtoC_inv (sqrt s)) by (pose proof (sqrt_lt_R0 s S0); lra). apply AmpIntProofs.Cconj_R.
Qed.

(* Sum of the weights over the events when the integrals are those of the same events: every pair of production amplitudes
   of equal reflectivity and rank contributes with the normalised overlap of the decay amplitudes. The weights of a single
   production amplitude add up to its absolute square. *)
Theorem C89_expected center width single results mat files U random b rws fr :
  weightEvents center width single results mat files U random = Some (b, rws) -> usedResult center width results fr -> oneFlat fr ->
  sameEvents mat files (length rws) ->
  exists w rank refl (a : nat -> nat -> C), let n := length (frAmps fr) in let N := length rws in let p := fun i => nth i (frAmps fr) (RtoC 0) in
    (forall i, i < n -> labels fr i (w i) (rank i) (refl i)
       /\ (forall e, e < N -> if flatWave (w i) then a i e = RtoC 1 else decayAmp files (w i) e (a i e)) /\ (0 < Re (overlap (a i) (a i) N))%R)
    /\ RtoC (rsum wAll rws) = csumA (fun i => csumA (fun j =>
         if together (w i) (w j) (rank i) (rank j) (refl i) (refl j)
         then p i * Cconj (p j) / RtoC (sqrt (Re (overlap (a i) (a i) N)) * sqrt (Re (overlap (a j) (a j) N))) * overlap (a i) (a j) N else RtoC 0)%C (seq 0 n)) (seq 0 n)
    /\ forall i, i < n -> rsum (fun rw => nth i (wProds rw) 0%R) rws = cnorm2 (p i).
Proof.
  intros H UR OF [SN SE]. destruct (run_of _ _ _ _ _ _ _ _ _ _ H) as (fr' & l & more & trees & V & _).
  rewrite <- (used_unique _ _ _ _ _ UR (r_best _ _ _ _ _ _ _ _ _ _ _ _ V)) in V. clear fr'.
  pose proof (l_len _ _ _ _ _ _ _ _ _ _ _ _ V) as LL. pose proof (first_amps _ _ _ _ _ _ _ _ _ _ _ _ V) as FA. pose proof (r_pos _ _ _ _ _ _ _ _ _ _ _ _ V) as NZ.
  set (w := wAt (waves fr l) l). set (rank := fun i => paRank (aAt l i)). set (refl := fun i => paRefl (aAt l i)).
  set (a := fun i e => if flatWave (w i) then RtoC 1 else match files (w i) with Some t => match nth_error t e with Some [x] => x | _ => RtoC 0 end | None => RtoC 0 end).
  set (N := length rws) in *. set (p := fun i => nth i (frAmps fr) (RtoC 0)).
  (* the contributions, for all events *)
  assert (forall e rw, nth_error rws e = Some rw -> exists z, (forall i, i < length l -> contribution fr mat files e i (p i) (w i) (rank i) (refl i) (z i))
     /\ RtoC (wAll rw) = intensity w rank refl z (length l) /\ wProds rw = map (fun i => cnorm2 (z i)) (seq 0 (length l))) as ROW.
  { intros e rw NR. destruct (row_at _ _ _ _ _ _ _ _ _ _ _ _ V e rw NR) as (decs & D & S1 & LS). destruct (S1 0 (map paAmp l) eq_refl) as (pp & n & f & prods & SW & NW & S2). destruct (S2 eq_refl) as (R1 & _ & _ & _ & R5 & _).
    destruct (sample_val _ _ _ _ _ _ _ _ _ _ SW (one_flat_at _ _ _ _ _ _ _ _ _ _ _ _ V OF)) as (LA & G & P & Q & F & PR & _). rewrite FA in *.
    exists (zAt mat (waves fr l) decs l (frAmps fr)). split; [intros i Li; apply (contribution_at _ _ _ _ _ _ _ _ _ _ _ _ V e decs i (frAmps fr) D Li (G i Li))|].
    split; [|now rewrite R5]. rewrite R1, !RtoC_plus, P, Q, F. symmetry. apply parts_total. intros i Li. exact (refl_at _ _ _ _ _ _ _ _ _ _ _ _ V i Li). }
  assert (forall e, e < N -> exists rw, nth_error rws e = Some rw) as EX. { intros e Le. destruct (nth_error rws e) as [rw|] eqn:E; [eauto|]. apply nth_error_None in E. unfold N in Le. lia. }
  assert (forall i, i < length l -> flatWave (w i) = false -> forall e, e < N -> decayAmp files (w i) e (a i e)) as DA.
  { intros i Li FW e Le. destruct (EX e Le) as [rw NR]. destruct (ROW e rw NR) as (z & Z & _). destruct (Z i Li) as [_ ZZ]. rewrite FW in ZZ. destruct ZZ as (d & q & (t & T1 & T2) & _). unfold a. rewrite FW, T1, T2. exists t. auto. }
  assert (forall i, i < length l -> Re (overlap (a i) (a i) N) = rsum (fun e => cnorm2 (a i e)) (seq 0 N)) as OV.
  { intros i Li. unfold overlap. transitivity (Re (RtoC (rsum (fun e => cnorm2 (a i e)) (seq 0 N)))); [|reflexivity]. f_equal. rewrite RtoC_rsum. apply csumA_ext. intros e _. now rewrite cnorm2_cnorm. }
  assert (forall m, rsum (fun _ : nat => 1%R) (seq 0 m) = INR m) as CO.
  { intros m. generalize 0 at 1. induction m as [|m IH]; intros k; [reflexivity|]. cbn [seq]. unfold rsum. cbn [fold_right]. fold (rsum (fun _ : nat => 1%R) (seq (S k) m)). rewrite IH, S_INR. ring. }
  (* contribution of an amplitude in terms of [a] *)
  assert (forall i, i < length l -> (0 < Re (overlap (a i) (a i) N))%R /\ forall e z, e < N -> contribution fr mat files e i (p i) (w i) (rank i) (refl i) z -> z = (a i e * p i / RtoC (sqrt (Re (overlap (a i) (a i) N))))%C) as CT.
  { intros i Li. destruct (flatWave (w i)) eqn:FW.
    - assert (Re (overlap (a i) (a i) N) = IZR (nmbEvents mat)) as OQ.
      { rewrite OV by exact Li. rewrite SN, <- INR_IZR_INZ, <- CO. apply rsum_ext. intros e _. unfold a. rewrite FW. unfold cnorm2, RtoC, Re, Im. cbn. ring. }
      rewrite OQ. split; [rewrite SN; apply (IZR_lt 0); lia|]. intros e z Le [_ Z]. rewrite FW in Z. destruct Z as [_ ->]. unfold a. rewrite FW. now rewrite Cmult_1_l.
    - assert (forall e z, e < N -> contribution fr mat files e i (p i) (w i) (rank i) (refl i) z -> (0 < Re (overlap (a i) (a i) N))%R /\ z = (a i e * p i / RtoC (sqrt (Re (overlap (a i) (a i) N))))%C) as K.
      { intros e z Le [_ Z]. rewrite FW in Z. destruct Z as (d & q & (t & T1 & T2) & NQ & Q0 & ->). pose proof (SE (w i) q (a i) FW NQ (DA i Li FW)) as QE. rewrite <- (OV i Li) in QE. rewrite <- QE. split; [exact Q0|].
        unfold a. now rewrite FW, T1, T2. }
      split; [|intros e z Le Z; now apply (K e z)]. assert (0 < N) as N0 by lia. destruct (EX 0 N0) as [rw NR]. destruct (ROW 0 rw NR) as (z & Z & _). exact (proj1 (K 0 (z i) N0 (Z i Li))). }
  exists w, rank, refl, a. cbv zeta. rewrite <- LL. fold p. split; [|split].
  - intros i Li. split; [exact (labels_at _ _ _ _ _ _ _ _ _ _ _ _ V i Li)|]. split; [|apply CT; exact Li]. intros e Le. destruct (flatWave (w i)) eqn:FW; [unfold a; now rewrite FW|now apply DA].
  - set (d := Row 0 0 0 0 [] [] []). rewrite (rsum_nth wAll rws d). fold N. rewrite RtoC_rsum.
    transitivity (csumA (fun e => csumA (fun i => csumA (fun j => if together (w i) (w j) (rank i) (rank j) (refl i) (refl j) then (p i * Cconj (p j) / RtoC (sqrt (Re (overlap (a i) (a i) N)) * sqrt (Re (overlap (a j) (a j) N))) * (a i e * Cconj (a j e))) else RtoC 0)%C (seq 0 (length l))) (seq 0 (length l))) (seq 0 N)).
    + apply csumA_ext. intros e He. apply in_seq in He. destruct (EX e) as [rw NR]; [lia|]. rewrite (nth_error_nth _ _ _ NR). destruct (ROW e rw NR) as (z & Z & -> & _). unfold intensity. apply csumA_ext. intros i Hi. apply csumA_ext. intros j Hj. apply in_seq in Hi, Hj.
      destruct (together (w i) (w j) (rank i) (rank j) (refl i) (refl j)); [|reflexivity]. destruct (CT i) as [Pi Zi]; [lia|]. destruct (CT j) as [Pj Zj]; [lia|].
      rewrite (Zi e (z i)) by (try lia; apply Z; lia). rewrite (Zj e (z j)) by (try lia; apply Z; lia). now apply cdiv_split.
    + rewrite swap3w. apply csumA_ext. intros i _. apply csumA_ext. intros j _. destruct (together (w i) (w j) (rank i) (rank j) (refl i) (refl j)); [|apply csumA_zero; reflexivity]. unfold overlap at 5. rewrite <- csumA_mult_l. reflexivity.
  - intros i Li. destruct (CT i Li) as [Pi Zi]. set (d := Row 0 0 0 0 [] [] []). rewrite (rsum_nth _ rws d). fold N.
    assert (RtoC (rsum (fun e => nth i (wProds (nth e rws d)) 0%R) (seq 0 N)) = RtoC (cnorm2 (p i))) as E; [|now injection E].
    rewrite RtoC_rsum. transitivity (csumA (fun e => (p i * Cconj (p i) / RtoC (sqrt (Re (overlap (a i) (a i) N)) * sqrt (Re (overlap (a i) (a i) N))) * (a i e * Cconj (a i e))))%C (seq 0 N)).
    + apply csumA_ext. intros e He. apply in_seq in He. destruct (EX e) as [rw NR]; [lia|]. rewrite (nth_error_nth _ _ _ NR). destruct (ROW e rw NR) as (z & Z & _ & ->).
      erewrite nth_error_nth by (rewrite nth_error_map, nth_error_seq0 by exact Li; reflexivity). rewrite cnorm2_cnorm. rewrite (Zi e (z i)) by (try lia; now apply Z). now apply cdiv_split.
    + rewrite csumA_mult_l. fold (overlap (a i) (a i) N). rewrite sqrt_sqrt by lra.
      assert (overlap (a i) (a i) N = RtoC (Re (overlap (a i) (a i) N))) as OR. { rewrite (OV i Li), RtoC_rsum. unfold overlap. apply csumA_ext. intros e _. now rewrite cnorm2_cnorm. }
      rewrite OR at 2. rewrite cnorm2_cnorm. field. intros E. injection E as E. lra.
Qed.

(* Without samples: branches for single production amplitudes are written for fits of rank two and more *)
Theorem C89_prod_branches center width single results mat files U b rws fr :
  weightEvents center width single results mat files U [] = Some (b, rws) -> usedResult center width results fr ->
  b = true <-> single = true /\ exists i w rank refl, i < length (frAmps fr) /\ labels fr i w rank refl /\ (1 <= rank)%Z.
Proof.
  intros H UR. destruct (run_of _ _ _ _ _ _ _ _ _ _ H) as (fr' & l & more & trees & V & ->).
  rewrite <- (used_unique _ _ _ _ _ UR (r_best _ _ _ _ _ _ _ _ _ _ _ _ V)) in V. clear fr'.
  pose proof (r_more _ _ _ _ _ _ _ _ _ _ _ _ V) as RM. cbn in RM. injection RM as <-. cbn [length]. unfold prodBranches, maxRankOf. change (Z.of_nat 1) with 1%Z.
  assert (forall ls m, (fold_left (fun m a => if (m <? paRank a)%Z then paRank a else m) ls m >= m)%Z /\ ((fold_left (fun m a => if (m <? paRank a)%Z then paRank a else m) ls m > m)%Z -> exists a, In a ls /\ paRank a = fold_left (fun m a => if (m <? paRank a)%Z then paRank a else m) ls m) /\ forall a, In a ls -> (paRank a <= fold_left (fun m a => if (m <? paRank a)%Z then paRank a else m) ls m)%Z) as MX.
  { induction ls as [|x ls IH]; intros m; cbn [fold_left]; [split; [lia|]; split; [lia|intros a []]|]. destruct (Z.ltb_spec m (paRank x)) as [L|L].
    - destruct (IH (paRank x)) as (A & B & D). split; [lia|]. split; [|intros a [<-|Ha]; [lia|now apply D]]. intros _. destruct (Z.eq_dec (fold_left (fun m a => if (m <? paRank a)%Z then paRank a else m) ls (paRank x)) (paRank x)) as [E|E]; [exists x; split; [now left|now symmetry]|].
      destruct B as (y & Y1 & Y2); [lia|]. exists y. split; [now right|exact Y2].
    - destruct (IH m) as (A & B & D). split; [exact A|]. split; [|intros a [<-|Ha]; [lia|now apply D]]. intros G. destruct (B G) as (y & Y1 & Y2). exists y. split; [now right|exact Y2]. }
  destruct (MX l 0%Z) as (A & B & D). split.
  - intros E. apply andb_prop in E. destruct E as [E1 E2]. split; [exact E1|]. apply Z.gtb_lt in E2. destruct B as (x & X1 & X2); [lia|]. apply In_nth_error in X1. destruct X1 as [i Hi].
    assert (i < length l) as Li by (apply nth_error_Some; congruence). pose proof (labels_at _ _ _ _ _ _ _ _ _ _ _ _ V i Li) as LB. exists i, (wAt (waves fr l) l i), (paRank (aAt l i)), (paRefl (aAt l i)). split; [now rewrite <- (l_len _ _ _ _ _ _ _ _ _ _ _ _ V)|]. split; [exact LB|].
    unfold aAt. rewrite (nth_error_nth _ _ _ Hi). lia.
  - intros [-> (i & w & rank & refl & Li & LB & R1)]. cbn [andb]. apply Z.gtb_lt. rewrite <- (l_len _ _ _ _ _ _ _ _ _ _ _ _ V) in Li. pose proof (labels_at _ _ _ _ _ _ _ _ _ _ _ _ V i Li) as LB'.
    destruct LB as (n & N1 & _ & N2 & _). destruct LB' as (n' & N1' & _ & N2' & _). assert (rank = paRank (aAt l i)) by congruence. specialize (D (aAt l i) (nth_In l noAmp Li)). lia.
Qed.
(* With samples they are written for fits of rank one, too: weightEvents.cc 374 counts the rank up for every sample *)
Theorem C89_prod_branches_refuted center width results mat files U random b rws :
  random <> [] -> weightEvents center width true results mat files U random = Some (b, rws) -> b = true.
Proof.
  intros NE H. destruct (run_of _ _ _ _ _ _ _ _ _ _ H) as (fr & l & more & trees & V & ->). unfold prodBranches, maxRankOf. cbn [andb]. apply Z.gtb_lt.
  pose proof (mapO_length _ _ _ (r_more _ _ _ _ _ _ _ _ _ _ _ _ V)) as LM. destruct random as [|x random]; [contradiction|]. cbn [length] in LM.
  assert (forall ls m, (0 <= m)%Z -> (0 <= fold_left (fun m a => if (m <? paRank a)%Z then paRank a else m) ls m)%Z) as P.
  { induction ls as [|y ls IH]; intros m Hm; cbn [fold_left]; [exact Hm|]. apply IH. destruct (Z.ltb_spec m (paRank y)); lia. }
  specialize (P l 0%Z ltac:(lia)). lia.
Qed.
