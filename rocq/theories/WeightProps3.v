(* C89: samples of the production amplitudes; examples. *)
From Coq Require Import String Ascii List ZArith Bool Reals Lia Lra Psatz.
From Coquelicot Require Import Complex.
From Verif Require Import PathModel StrModel ParticleModel ParticleProps FitResultModel FitStoreProps AmpIntModel AmpIntProofs WeightModel WeightSpec WeightProofs WeightProofs2 WeightProps WeightProps2.
Import ListNotations.
Open Scope list_scope.
Open Scope nat_scope.

Lemma rsum_cons {A} (f : A -> R) x l : rsum f (x :: l) = (f x + rsum f l)%R. Proof. reflexivity. Qed.
Lemma rsum_plus {A} (f g : A -> R) l : rsum (fun x => f x + g x)%R l = (rsum f l + rsum g l)%R.
Proof. induction l as [|x l IH]; [unfold rsum; cbn; ring|]. rewrite !rsum_cons, IH. ring. Qed.
Lemma rsum_scal {A} (f : A -> R) c l : rsum (fun x => c * f x)%R l = (c * rsum f l)%R.
Proof. induction l as [|x l IH]; [unfold rsum; cbn; ring|]. rewrite !rsum_cons, IH. ring. Qed.
Lemma rsum_zero {A} (f : A -> R) l : (forall x, In x l -> f x = 0%R) -> rsum f l = 0%R.
Proof. induction l as [|x l IH]; intros H; [reflexivity|]. rewrite rsum_cons, (H x (or_introl eq_refl)), IH; [ring|]. intros y Hy. apply H. now right. Qed.
Lemma rsum_swap {A B} (f : A -> B -> R) l k : rsum (fun x => rsum (f x) k) l = rsum (fun y => rsum (fun x => f x y) l) k.
Proof. induction l as [|x l IH]; [symmetry; now apply rsum_zero|]. rewrite rsum_cons, IH, <- rsum_plus. apply rsum_ext. intros y _. now rewrite rsum_cons. Qed.
Lemma rsum_mult {A B} (f : A -> R) (g : B -> R) l k : (rsum f l * rsum g k)%R = rsum (fun x => rsum (fun y => f x * g y)%R k) l.
Proof. induction l as [|x l IH]; [unfold rsum; cbn; ring|]. rewrite !rsum_cons, <- IH, rsum_scal. ring. Qed.
Lemma rsum_pick (f : nat -> R) n k : k < n -> rsum (fun m => if k =? m then f m else 0%R) (seq 0 n) = f k.
Proof.
  assert (forall len s, s <= k < s + len -> rsum (fun m => if k =? m then f m else 0%R) (seq s len) = f k) as K.
  { induction len as [|len IH]; intros s Hs; [lia|]. cbn [seq]. rewrite rsum_cons. destruct (Nat.eqb_spec k s) as [->|].
    - rewrite rsum_zero; [ring|]. intros m Hm. apply in_seq in Hm. destruct (Nat.eqb_spec s m); [lia|reflexivity].
    - rewrite IH by lia. ring. }
  intros L. apply K. lia.
Qed.
Lemma rsum_app {A} (f : A -> R) l k : rsum f (l ++ k) = (rsum f l + rsum f k)%R.
Proof. induction l as [|x l IH]; [unfold rsum; cbn; ring|]. cbn [app]. rewrite !rsum_cons, IH. ring. Qed.
Lemma rsum_pos {A} (f : A -> R) l : (forall x, In x l -> (0 <= f x)%R) -> (0 <= rsum f l)%R.
Proof. induction l as [|x l IH]; intros H; [unfold rsum; cbn; lra|]. rewrite rsum_cons. assert (0 <= f x)%R by (apply H; now left). assert (0 <= rsum f l)%R by (apply IH; intros y Hy; apply H; now right). lra. Qed.
Lemma rsum_ge {A} (f : A -> R) l x : (forall y, In y l -> (0 <= f y)%R) -> In x l -> (f x <= rsum f l)%R.
Proof.
  induction l as [|y l IH]; intros H I; [destruct I|]. rewrite rsum_cons. assert (0 <= f y)%R by (apply H; now left). assert (0 <= rsum f l)%R by (apply rsum_pos; intros z Hz; apply H; now right).
  destruct I as [->|I]; [lra|]. assert (f x <= rsum f l)%R by (apply IH; [intros z Hz; apply H; now right|exact I]). lra.
Qed.
Lemma rowTimes_val U x n j : rowTimes U x n j = rsum (fun m => U j m * x m)%R (seq 0 n).
Proof.
  unfold rowTimes. generalize (seq 0 n). intros l. assert (forall a, fold_left (fun s k => (s + U j k * x k)%R) l a = (a + rsum (fun m => U j m * x m)%R l)%R) as K.
  { induction l as [|k l IH]; intros a; cbn [fold_left]; [unfold rsum; cbn; ring|]. rewrite IH, rsum_cons. ring. }
  rewrite K. ring.
Qed.
Lemma varied_len fr U x amps : variedProdAmps fr U x = Some amps -> length amps = length (frAmps fr).
Proof. intros H. apply mapO_length in H. now rewrite seq_length in H. Qed.
Lemma moved_val fr U x amps it im j : variedProdAmps fr U x = Some amps -> it < length (frAmps fr) -> parameterOf fr it im j ->
  moved fr it im amps = rsum (fun m => U j m * x m)%R (seq 0 (rows (frCov fr))).
Proof.
  intros H L (ix & I & J & LJ). destruct (mapO_nth _ _ _ _ _ H (nth_error_seq0 _ _ L)) as (a & A & NA).
  bind A T EA. rewrite I in A. cbn [bindP] in A. bind A re EB. bind A imv EC. injection A as <-. rewrite <- rowTimes_val. unfold moved. rewrite (nth_error_nth _ _ _ NA), (nth_error_nth _ _ _ EA).
  unfold varied1 in *. destruct im; cbn [partOf fst snd Re Im] in *.
  - rewrite J in EC. destruct (Z.gtb_spec (Z.of_nat j) (-1)); [|lia]. destruct (Z.ltb_spec (Z.of_nat j) (Z.of_nat (rows (frCov fr)))); [|lia]. injection EC as <-. rewrite Nat2Z.id. ring.
  - rewrite J in EB. destruct (Z.gtb_spec (Z.of_nat j) (-1)); [|lia]. destruct (Z.ltb_spec (Z.of_nat j) (Z.of_nat (rows (frCov fr)))); [|lia]. injection EB as <-. rewrite Nat2Z.id. ring.
Qed.
(* Parts of production amplitudes without a fit parameter stay what they are *)
Theorem C89_fixed_parts fr U x amps it (im : bool) (ix : Z * Z) : variedProdAmps fr U x = Some amps -> nth_error (frCovIdx fr) it = Some ix -> ((if im then snd ix else fst ix) < 0)%Z ->
  length amps = length (frAmps fr) /\ moved fr it im amps = 0%R.
Proof.
  intros H I J. pose proof (varied_len _ _ _ _ H) as LA. split; [exact LA|]. unfold moved. destruct (lt_dec it (length (frAmps fr))) as [L|L]; [|rewrite !nth_overflow by lia; ring].
  destruct (mapO_nth _ _ _ _ _ H (nth_error_seq0 _ _ L)) as (a & A & NA). bind A T EA. rewrite I in A. cbn [bindP] in A. bind A re EB. bind A imv EC. injection A as <-. rewrite (nth_error_nth _ _ _ NA), (nth_error_nth _ _ _ EA).
  unfold varied1 in *. destruct im; cbn [partOf fst snd Re Im] in *.
  - destruct (Z.gtb_spec (snd ix) (-1)); [lia|]. injection EC as <-. ring.
  - destruct (Z.gtb_spec (fst ix) (-1)); [lia|]. injection EB as <-. ring.
Qed.
(* For random numbers with mean zero, variance one and no correlations the samples are centred on the fit result, and the
   covariances of their parts are the elements of U U^T *)
Theorem C89_covariance fr U xs amps it it' im im' j k : white (rows (frCov fr)) xs -> (forall x, In x xs -> variedProdAmps fr U x = Some (amps x)) ->
  it < length (frAmps fr) -> it' < length (frAmps fr) -> parameterOf fr it im j -> parameterOf fr it' im' k ->
  rsum (fun x => moved fr it im (amps x)) xs = 0%R
  /\ rsum (fun x => moved fr it im (amps x) * moved fr it' im' (amps x))%R xs = (INR (length xs) * rsum (fun m => U j m * U k m) (seq 0 (rows (frCov fr))))%R.
Proof.
  intros [W1 W2] H L L' P P'. set (n := rows (frCov fr)) in *. split.
  - transitivity (rsum (fun x => rsum (fun m => U j m * x m)%R (seq 0 n)) xs); [apply rsum_ext; intros x Hx; exact (moved_val fr U x _ it im j (H x Hx) L P)|].
    rewrite rsum_swap. apply rsum_zero. intros m Hm. apply in_seq in Hm. rewrite rsum_scal, W1 by lia. ring.
  - transitivity (rsum (fun x => rsum (fun m => rsum (fun q => (U j m * U k q) * (x m * x q))%R (seq 0 n)) (seq 0 n)) xs).
    { apply rsum_ext. intros x Hx. rewrite (moved_val fr U x _ it im j (H x Hx) L P), (moved_val fr U x _ it' im' k (H x Hx) L' P'). fold n. rewrite rsum_mult. apply rsum_ext. intros m _. apply rsum_ext. intros q _. ring. }
    rewrite rsum_swap. rewrite <- rsum_scal. apply rsum_ext. intros m Hm. apply in_seq in Hm. rewrite rsum_swap.
    transitivity (rsum (fun q => if m =? q then (U j m * U k q * INR (length xs))%R else 0%R) (seq 0 n)).
    + apply rsum_ext. intros q Hq. apply in_seq in Hq. rewrite rsum_scal, W2 by lia. destruct (m =? q); ring.
    + rewrite rsum_pick by lia. ring.
Qed.
Lemma chol_diag U A n : isCholesky U A n -> (forall i j, i < n -> j < n -> i <> j -> A i j = 0%R) -> forall i j, i < n -> j < n -> i <> j -> U i j = 0%R.
Proof.
  intros (C1 & C2 & C3) D. assert (forall b i j, i < b -> i < n -> j < n -> i <> j -> U i j = 0%R) as K; [|intros i j; apply (K (S i)); lia].
  induction b as [|b IH]; intros i j Lb Li Lj NE; [lia|]. destruct (lt_dec j i) as [L|L]; [now apply C1|]. assert (i < j) as Lij by lia.
  pose proof (C3 i j Li Lj) as E. rewrite D in E by lia.
  assert (rsum (fun m => U m i * U m j)%R (seq 0 n) = (U i i * U i j)%R) as E2.
  { rewrite <- (rsum_pick (fun m => (U m i * U m j)%R) n i Li). apply rsum_ext. intros m Hm. apply in_seq in Hm. destruct (Nat.eqb_spec i m) as [X|X]; [reflexivity|].
    destruct (lt_dec m i) as [Y|Y]; [rewrite (IH m i) by lia|rewrite (C1 m i) by lia]; ring. }
  rewrite E2 in E. pose proof (C2 i Li). apply Rmult_integral in E. destruct E; [lra|assumption].
Qed.
(* If the parameters of the fit are not correlated, the samples have the covariance matrix of the fit *)
Theorem C89_uncorrelated fr U xs amps it it' im im' j k : white (rows (frCov fr)) xs -> (forall x, In x xs -> variedProdAmps fr U x = Some (amps x)) ->
  it < length (frAmps fr) -> it' < length (frAmps fr) -> parameterOf fr it im j -> parameterOf fr it' im' k ->
  isCholesky U (el (frCov fr)) (rows (frCov fr)) -> (forall a b, a < rows (frCov fr) -> b < rows (frCov fr) -> a <> b -> el (frCov fr) a b = 0%R) ->
  rsum (fun x => moved fr it im (amps x) * moved fr it' im' (amps x))%R xs = (INR (length xs) * el (frCov fr) j k)%R.
Proof.
  intros W H L L' P P' Ch D. rewrite (proj2 (C89_covariance fr U xs amps it it' im im' j k W H L L' P P')). f_equal. destruct P as (_ & _ & _ & Lj), P' as (_ & _ & _ & Lk).
  pose proof (chol_diag _ _ _ Ch D) as UD. destruct Ch as (_ & _ & C3). rewrite <- (C3 j k Lj Lk). set (n := rows (frCov fr)) in *.
  transitivity (rsum (fun m => if j =? m then (if j =? k then U j j * U j j else 0)%R else 0%R) (seq 0 n)).
  - apply rsum_ext. intros m Hm. apply in_seq in Hm. destruct (Nat.eqb_spec j m) as [<-|X]; [|rewrite (UD j m) by lia; ring]. destruct (Nat.eqb_spec j k) as [->|Y]; [reflexivity|]. rewrite (UD k j) by lia. ring.
  - apply rsum_ext. intros m Hm. apply in_seq in Hm. destruct (Nat.eqb_spec j m) as [<-|X].
    + destruct (Nat.eqb_spec j k) as [<-|Y]; [reflexivity|]. rewrite (UD j k) by lia. ring.
    + rewrite (UD m j) by lia. ring.
Qed.
(* Otherwise they do not: TDecompChol gives U with U^T U = covariance matrix, fitResult.cc 138 multiplies with U instead of U^T.
   If the first parameter of the fit is correlated with another one, its variance in the samples is too large. *)
Theorem C89_samples_refuted fr U xs amps it im k : white (rows (frCov fr)) xs -> xs <> [] -> (forall x, In x xs -> variedProdAmps fr U x = Some (amps x)) ->
  it < length (frAmps fr) -> parameterOf fr it im 0 -> isCholesky U (el (frCov fr)) (rows (frCov fr)) ->
  0 < k < rows (frCov fr) -> el (frCov fr) 0 k <> 0%R ->
  (INR (length xs) * el (frCov fr) 0 0 < rsum (fun x => moved fr it im (amps x) * moved fr it im (amps x)) xs)%R.
Proof.
  intros W NE H L P (C1 & C2 & C3) Lk NZ. rewrite (proj2 (C89_covariance fr U xs amps it it im im 0 0 W H L L P P)). set (n := rows (frCov fr)) in *.
  apply Rmult_lt_compat_l; [destruct xs; [contradiction|]; cbn [length]; apply lt_0_INR; lia|].
  assert (forall j, j < n -> el (frCov fr) 0 j = (U 0%nat 0%nat * U 0%nat j)%R) as ROW.
  { intros j Lj. rewrite <- (C3 0 j) by lia. rewrite <- (rsum_pick (fun m => (U m 0%nat * U m j)%R) n 0) by lia. apply rsum_ext. intros m Hm. apply in_seq in Hm. destruct (Nat.eqb_spec 0 m) as [X|X]; [reflexivity|]. rewrite (C1 m 0) by lia. ring. }
  rewrite (ROW 0) by lia. assert (U 0%nat k <> 0)%R as UK by (intros E; apply NZ; rewrite (ROW k), E by lia; ring).
  assert (seq 0 n = 0 :: seq 1 (n - 1)) as SQ by (destruct n as [|n']; [lia|]; cbn; now rewrite Nat.sub_0_r).
  rewrite SQ, rsum_cons. assert (U 0%nat k * U 0%nat k <= rsum (fun m => U 0%nat m * U 0%nat m) (seq 1 (n - 1)))%R as GE.
  { apply (rsum_ge (fun m => (U 0%nat m * U 0%nat m)%R)); [intros y _; nra|]. apply in_seq. lia. }
  assert (0 < U 0%nat k * U 0%nat k)%R by (apply Rsqr_pos_lt in UK; exact UK). lra.
Qed.

(* ---- examples ---- *)
(* a fit with a wave of positive reflectivity and the flat wave; the first two parameters are correlated *)
Definition exW : str := lit "abcdef+".
Definition exCov : mat R := Mat 3 3 (fun i j => match i, j with 0, 0 => 1 | 0, 1 => 1 | 1, 0 => 1 | 1, 1 => 2 | 2, 2 => 1 | _, _ => 0 end)%R.
Definition exU (i j : nat) : R := match i, j with 0, 0 => 1%R | 0, 1 => 1%R | 1, 1 => 1%R | 2, 2 => 1%R | _, _ => 0%R end.
Definition exFR : fitResult :=
  FR 1 1 [] 0 1 [(2, 0)%R; (3, 0)%R] [lit "V0_abcdef+"; lit "V_flat"] [exW; lit "flat"] true exCov [(0, 1)%Z; (2, -1)%Z] emptyC emptyC (fun _ => None) [] true true.
Definition exMat : aim := AIM 1 [exW] 1 [[RtoC 4]].
Definition exFiles (w : str) : option (list (list C)) := if str_eqb w exW then Some [[RtoC 2]] else None.
Definition exResults : list ((R * R) * fitResult) := [((1, 0)%R, exFR)].

Lemma ex_best : usedResult 1 1 exResults exFR.
Proof.
  exists 0, 1%R, 0%R. split; [|reflexivity]. exists 1%R, 0%R. split; [reflexivity|]. split; [lra|]. intros [|[|k]] m v E; cbn in E; try discriminate. injection E as <- <-. right. split; [reflexivity|]. right. split; [reflexivity|lia].
Qed.
Lemma ex_l : readProdAmps exFR = Some [PA 0 (lit "V0_abcdef+") 1 0 (2, 0)%R; PA 1 (lit "V_flat") 0 (-1) (3, 0)%R].
Proof. reflexivity. Qed.
Lemma ex_sample l : l = [PA 0 (lit "V0_abcdef+") 1 0 (2, 0)%R; PA 1 (lit "V_flat") 0 (-1) (3, 0)%R] -> forall m amps, (1 <= m)%Z -> length amps = 2 ->
  exists y, sampleWeight exMat [exW; lit "flat"] [RtoC 2; RtoC 0] m l amps = Some y.
Proof.
  intros -> m [|p [|q [|]]] Hm HL; try discriminate. unfold sampleWeight. cbn [length Nat.eqb combine addProdAmps].
  assert (exists s, addProdAmp exMat [exW; lit "flat"] [RtoC 2; RtoC 0] m (Sums (fun _ => RtoC 0) (fun _ => RtoC 0) (RtoC 0) []) (PA 0 (lit "V0_abcdef+") 1 0 (2, 0)%R, p) = Some s) as [s E].
  { unfold addProdAmp. cbn [paWave nth_error bindP]. change (str_eqb exW (lit "flat")) with false. change (AmpIntModel.waveIndex exMat exW) with (Some 0). cbn [bindP].
    change (element exMat 0 0) with (Some (RtoC 4 / RtoC (IZR 1))%C). cbn [bindP]. cbv zeta. change (nmbEvents exMat) with 1%Z.
    destruct (Rle_dec (Re (RtoC 4 / RtoC 1)%C * 1) 0) as [F|F].
    - exfalso. replace (Re (RtoC 4 / RtoC 1)%C) with 4%R in F; [lra|]. rewrite <- RtoC_div by lra. unfold RtoC, Re. cbn. field.
    - change (paRefl (PA 0 (lit "V0_abcdef+") 1 0 (2, 0)%R) =? 1)%Z with true. cbn [paRank]. destruct (Z.ltb_spec 0 m); [|lia]. change (0 <=? 0)%Z with true. cbn [andb]. eexists. reflexivity. }
  rewrite E. cbn [bindP].
  assert (exists s', addProdAmp exMat [exW; lit "flat"] [RtoC 2; RtoC 0] m s (PA 1 (lit "V_flat") 0 (-1) (3, 0)%R, q) = Some s') as [s' E'].
  { unfold addProdAmp. cbn [paWave nth_error bindP]. change (str_eqb (lit "flat") (lit "flat")) with true. change (nmbEvents exMat) with 1%Z. destruct (Rle_dec 1 0); [lra|]. eauto. }
  rewrite E'. cbn [bindP]. eauto.
Qed.
Lemma ex_varied x : exists a, variedProdAmps exFR exU x = Some a /\ length a = 2.
Proof. eexists. split; reflexivity. Qed.
Lemma ex_run random : exists b rws, weightEvents 1 1 true exResults exMat exFiles (fun _ => exU) random = Some (b, rws) /\ length rws = 1.
Proof.
  unfold weightEvents. destruct (Req_EM_T 1 0); [lra|].
  assert (pickResult 1 1 (map fst exResults) = Some 0) as -> by (apply best_picked; destruct ex_best as (j & m & v & B & N); destruct j as [|[|j]]; cbn in N; try discriminate; exact B).
  cbn [bindP nth_error exResults]. cbn [snd]. rewrite ex_l. cbn [bindP].
  assert (exists more, mapO (variedProdAmps exFR exU) random = Some more /\ forall a, In a more -> length a = 2) as (more & -> & LM).
  { induction random as [|x r (more & E & L)]; [exists []; split; [reflexivity|intros a []]|]. destruct (ex_varied x) as (a & A & LA). exists (a :: more). cbn [mapO]. rewrite A. cbn [bindP]. rewrite E. cbn [bindP]. split; [reflexivity|]. intros y [<-|Hy]; auto. }
  cbn [bindP].
  set (l := [PA 0 (lit "V0_abcdef+") 1 0 (2, 0)%R; PA 1 (lit "V_flat") 0 (-1) (3, 0)%R]).
  change (waveNamesOf exFR l) with [exW; lit "flat"]. change (openRootAmpFiles exFiles [exW; lit "flat"] [] 0) with ([Some [[RtoC 2]]; None] : list (option (list (list C))), 1).
  cbn [length Nat.eqb negb seq mapO]. set (m := maxRankOf l (S (length (more)))).
  assert (1 <= m)%Z as Hm by (unfold m, maxRankOf; cbn; lia).
  unfold weighEvent. change (readDecayAmps [Some [[RtoC 2]]; None] 0) with (Some [RtoC 2; RtoC 0]). cbn [bindP].
  assert (forall ss, (forall a, In a ss -> length a = 2) -> exists ws, mapO (sampleWeight exMat [exW; lit "flat"] [RtoC 2; RtoC 0] m l) ss = Some ws) as K.
  { induction ss as [|a ss IH]; intros Hs; [exists []; reflexivity|]. destruct (ex_sample l eq_refl m a Hm (Hs a (or_introl eq_refl))) as [y Y]. destruct IH as [ws W]; [intros z Hz; apply Hs; now right|]. exists (y :: ws). cbn [mapO]. rewrite Y. cbn [bindP]. rewrite W. reflexivity. }
  destruct (K (map paAmp l :: more)) as [ws W]; [intros a [<-|Ha]; [reflexivity|auto]|]. rewrite W. cbn [bindP].
  destruct ws as [|[[[p n0] f] prods] ws]; [apply mapO_length in W; discriminate|]. cbn [bindP]. eexists _, _. split; reflexivity.
Qed.
Lemma ex_flat : oneFlat exFR.
Proof. intros [|[|[|i]]] [|[|[|j]]] n n' E E' F F'; cbn in E, E'; try discriminate; try reflexivity; injection E as <-; injection E' as <-; try destruct i; try destruct j; vm_compute in F, F'; discriminate. Qed.
Lemma ex_same : sameEvents exMat exFiles 1.
Proof.
  split; [reflexivity|]. intros w q a FW (k & x & N & E & ->) D. destruct k as [|[|k]]; cbn in N; try discriminate. injection N as <-. change (element exMat 0 0) with (Some (RtoC 4 / RtoC (IZR 1))%C) in E. injection E as <-.
  destruct (D 0) as (t & T1 & T2); [lia|]. change (exFiles exW) with (Some [[RtoC 2]]) in T1. injection T1 as <-. cbn in T2. injection T2 as T2. cbn [seq]. rewrite rsum_cons. rewrite <- T2.
  change (nmbEvents exMat) with 1%Z. rewrite <- RtoC_div by lra. unfold cnorm2, rsum, RtoC, Re, Im. cbn. field.
Qed.
(* the hypotheses of C89_weight, C89_parts, C89_files and C89_expected *)
Example C89_weight_example random : exists b rws, weightEvents 1 1 true exResults exMat exFiles (fun _ => exU) random = Some (b, rws)
  /\ usedResult 1 1 exResults exFR /\ oneFlat exFR /\ NoDup (frWaveNames exFR) /\ sameEvents exMat exFiles (length rws) /\ length rws = 1
  /\ flatWave (waveNameForProdAmp (lit "V0_abcdef+")) = false.
Proof.
  destruct (ex_run random) as (b & rws & H & L). exists b, rws. split; [exact H|]. split; [exact ex_best|]. split; [exact ex_flat|].
  split; [repeat constructor; cbn; intuition discriminate|]. split; [rewrite L; exact ex_same|]. split; [exact L|reflexivity].
Qed.
(* nothing is written for mass 5 *)
Example C89_selection_example : forall r, In r exResults -> ~ (5 - 1 / 2 <= fst (fst r) <= 5 + 1 / 2)%R.
Proof. intros r [<-|[]]. cbn. lra. Qed.
(* fits of rank one: no branches for production amplitudes without, but with samples *)
Example C89_prod_branches_example : (exists rws, weightEvents 1 1 true exResults exMat exFiles (fun _ => exU) [] = Some (false, rws))
  /\ exists rws, weightEvents 1 1 true exResults exMat exFiles (fun _ => exU) [fun _ => 0%R] = Some (true, rws).
Proof.
  split.
  - destruct (ex_run []) as (b & rws & H & L). exists rws. destruct b; [|exact H]. exfalso.
    destruct (proj1 (C89_prod_branches _ _ _ _ _ _ _ _ _ _ H ex_best) eq_refl) as (_ & i & w & rank & refl & Li & (n & N1 & _ & N2 & _) & R1). destruct i as [|[|i]]; cbn in Li, N1; try lia; injection N1 as <-; vm_compute in N2; injection N2 as <-; lia.
  - destruct (ex_run [fun _ => 0%R]) as (b & rws & H & L). exists rws. assert ([fun _ : nat => 0%R] <> []) as NE by discriminate. pose proof (C89_prod_branches_refuted _ _ _ _ _ _ _ _ _ NE H) as E. rewrite E in H. exact H.
Qed.
(* random numbers: all combinations of signs *)
Definition sgn (b : bool) : R := if b then 1%R else (-1)%R.
Definition signs (a b c : bool) : nat -> R := fun j => sgn (match j with 0 => a | 1 => b | _ => c end).
Definition exXs : list (nat -> R) := [signs true true true; signs true true false; signs true false true; signs true false false; signs false true true; signs false true false; signs false false true; signs false false false].
Example C89_samples_example : white (rows (frCov exFR)) exXs /\ exXs <> [] /\ (forall x, In x exXs -> exists a, variedProdAmps exFR exU x = Some a)
  /\ parameterOf exFR 0 false 0 /\ parameterOf exFR 0 true 1 /\ isCholesky exU (el (frCov exFR)) (rows (frCov exFR)) /\ el (frCov exFR) 0 1 <> 0%R.
Proof.
  split; [split|].
  - intros [|[|[|j]]] L; try (cbn in L; lia); unfold rsum, exXs, signs, sgn; cbn [fold_right]; lra.
  - intros [|[|[|j]]] [|[|[|k]]] L L'; try (cbn in L, L'; lia); unfold rsum, exXs, signs, sgn; cbn [fold_right Nat.eqb length INR]; lra.
  - split; [discriminate|]. split; [intros x _; destruct (ex_varied x) as (a & A & _); eauto|]. split; [exists (0, 1)%Z; split; [reflexivity|]; split; [reflexivity|cbn; lia]|].
    split; [exists (0, 1)%Z; split; [reflexivity|]; split; [reflexivity|cbn; lia]|]. split; [|cbn; lra].
    split; [|split].
    + intros [|[|[|i]]] [|[|[|j]]] L L'; try (cbn in L; lia); reflexivity.
    + intros [|[|[|i]]] L; try (cbn in L; lia); cbn; lra.
    + intros [|[|[|i]]] [|[|[|j]]] L L'; try (cbn in L, L'; lia); cbn [seq rows frCov exFR exCov el]; unfold rsum; cbn [fold_right seq exU]; lra.
Qed.
(* parameters that are not correlated *)
Example C89_uncorrelated_example : let fr := FR 1 1 [] 0 1 [(2, 0)%R] [lit "V0_abcdef+"] [exW] true (Mat 1 1 (fun _ _ => 4%R)) [(0, -1)%Z] emptyC emptyC (fun _ => None) [] true true in
  let U := fun _ _ : nat => 2%R in let xs := [fun _ : nat => 1%R; fun _ : nat => (-1)%R] in
  white (rows (frCov fr)) xs /\ (forall x, In x xs -> exists a, variedProdAmps fr U x = Some a) /\ parameterOf fr 0 false 0 /\ isCholesky U (el (frCov fr)) (rows (frCov fr))
  /\ (forall a b, a < rows (frCov fr) -> b < rows (frCov fr) -> a <> b -> el (frCov fr) a b = 0%R) /\ nth_error (frCovIdx fr) 0 = Some (0, -1)%Z.
Proof.
  cbv zeta. split; [split|].
  - intros [|j] L; [|cbn in L; lia]. unfold rsum; cbn [fold_right]; lra.
  - intros [|j] [|k] L L'; try (cbn in L, L'; lia). unfold rsum; cbn [fold_right Nat.eqb length INR]; lra.
  - split; [intros x _; eexists; reflexivity|]. split; [exists (0, -1)%Z; split; [reflexivity|]; split; [reflexivity|cbn; lia]|].
    split; [split; [|split]|].
    + intros [|i] j L L'; cbn in L; lia.
    + intros i L. lra.
    + intros [|i] [|j] L L'; try (cbn in L, L'; lia). cbn. unfold rsum. cbn. lra.
    + split; [|reflexivity]. intros [|a] [|b] L L' NE; cbn in L, L'; lia.
Qed.
