(* C67: fit parameters and normalisation integrals by name; additions to C30, C35 and C62 *)
From Coq Require Import String Ascii List ZArith Bool Reals Lia Lra.
From Coquelicot Require Import Complex.
From Verif Require Import PathModel StrModel DecModel ParticleModel RegexModel RegexProps FitResultModel FitNameProps FitStoreProps FitErrModel FitErrProps CMatModel LikParModel LikParProps.
Import ListNotations.
Open Scope list_scope. Open Scope nat_scope.

(* ---- specification ---- *)
(* s occurs in t *)
Definition occurs (s t : str) : Prop := exists a b, t = a ++ s ++ b.
(* the wave name contains none of the texts the look-up by name looks for *)
Definition clean (w : str) : Prop := ~ occurs (lit "RE") w /\ ~ occurs (lit "IM") w /\ ~ occurs (lit "flat") w.

(* ---- lemmas ---- *)
Lemma contains_false p s : contains p s = false <-> ~ occurs p s.
Proof. destruct (contains p s) eqn:E; split; intros H; try congruence; [apply contains_spec in E; contradiction|]. intros X. apply contains_spec in X. congruence. Qed.
Lemma occurs_app_l s a b : occurs s b -> occurs s (a ++ b). Proof. intros (x & y & ->). exists (a ++ x), y. now rewrite <- app_assoc. Qed.
Lemma isPrefix_iff p s : isPrefix p s = true <-> exists r, s = p ++ r.
Proof.
  revert s. induction p as [|x p IH]; intros [|y s]; cbn; try (split; [discriminate|intros [r H]; discriminate]); try (split; [eauto|reflexivity]).
  rewrite andb_true_iff, Ascii.eqb_eq, IH. split; [intros (-> & r & ->); eauto|intros [r H]; injection H as -> ->; eauto].
Qed.
(* removing a three-letter suffix "_XY" that occurs nowhere else *)
Lemma strip x y z s : x <> y -> x <> z -> ~ occurs [x; y; z] s -> replaceAll [x; y; z] [] (s ++ [x; y; z]) = s.
Proof.
  intros Hy Hz. unfold replaceAll. induction s as [|c s IH]; intros N.
  - cbn [app replaceGo]. replace (isPrefix [x; y; z] [x; y; z]) with true by (symmetry; apply isPrefix_iff; exists []; reflexivity). cbn [length Nat.sub replaceGo app]. reflexivity.
  - cbn [app replaceGo]. destruct (isPrefix [x; y; z] (c :: s ++ [x; y; z])) eqn:P.
    + exfalso. apply isPrefix_iff in P as [r P]. cbn [app] in P. injection P as -> P. destruct s as [|d s]; cbn [app] in P; [congruence|]. injection P as -> P.
      destruct s as [|f s]; cbn [app] in P; [congruence|]. injection P as -> P. apply N. exists [], s. reflexivity.
    + f_equal. apply IH. intros (a & b & ->). apply N. exists (c :: a), b. reflexivity.
Qed.
(* a text of two letters occurs in the name of an amplitude only if it occurs in the wave name *)
Lemma in_name s rank w : (0 <= rank)%Z -> (forall c, In c s -> c <> "V"%char /\ c <> "_"%char /\ isDigit c = false) -> s <> [] -> occurs s (ampName rank w) -> occurs s w.
Proof.
  intros Hr Hs Hn (a & b & E). unfold ampName in E. assert (H : forallb (fun c => Ascii.eqb c "V" || Ascii.eqb c "_" || isDigit c) (lit "V" ++ showNN rank ++ lit "_") = true).
  { rewrite !forallb_app. cbn [lit forallb]. destruct (showNN_spec rank Hr) as (_ & D & _). cbn. rewrite andb_true_r. apply forallb_forall. intros c Hc. rewrite forallb_forall in D. rewrite (D c Hc). now rewrite !orb_true_r. }
  replace (lit "V" ++ showNN rank ++ lit "_" ++ w) with ((lit "V" ++ showNN rank ++ lit "_") ++ w) in E by now rewrite <- !app_assoc.
  revert a E. generalize dependent (lit "V" ++ showNN rank ++ lit "_"). intros p Hp. induction p as [|c p IH]; intros a E.
  - cbn [app] in E. exists a, b. exact E.
  - cbn [forallb] in Hp. apply andb_true_iff in Hp as [Hc Hp]. destruct a as [|d a]; cbn [app] in E.
    + destruct s as [|f s]; [contradiction|]. cbn [app] in E. injection E as E1 E. destruct (Hs f (or_introl eq_refl)) as (A & B & D). subst c.
      rewrite D, orb_false_r, orb_true_iff, !Ascii.eqb_eq in Hc. tauto.
    + injection E as _ E. now apply (IH Hp a).
Qed.
Lemma letters s : In s [lit "RE"; lit "IM"; lit "flat"] -> s <> [] /\ forall c, In c s -> c <> "V"%char /\ c <> "_"%char /\ isDigit c = false.
Proof.
  intros [<-|[<-|[<-|[]]]]; (split; [discriminate|]); intros c Hc; cbn in Hc; repeat (destruct Hc as [<-|Hc]; [repeat split; discriminate|]); destruct Hc.
Qed.
Lemma name_clean rank w s : (0 <= rank)%Z -> In s [lit "RE"; lit "IM"; lit "flat"] -> ~ occurs s w -> ~ occurs s (ampName rank w).
Proof. intros Hr Hs N O. destruct (letters s Hs) as [A B]. apply N. eapply in_name; eauto. Qed.
Lemma suffix_occurs (s a t : str) : ~ occurs s a -> (forall x, In x s -> ~ In x t) -> ~ occurs s (a ++ t).
Proof.
  intros N H (u & v & E). destruct s as [|c s]. { apply N. exists [], a. reflexivity. }
  revert u E N. induction a as [|d a IH]; intros u E N.
  - cbn [app] in E. apply (H c (or_introl eq_refl)). rewrite E, in_app_iff. right. now left.
  - destruct u as [|d' u]; cbn [app] in E.
    + injection E as -> E. 
      assert (G : forall s a, (forall x, In x s -> ~ In x t) -> a ++ t = s ++ v -> exists r, a = s ++ r).
      { clear. induction s as [|x s IHs]; intros a H E; [exists a; reflexivity|]. destruct a as [|y a]; cbn [app] in E.
        - exfalso. apply (H x (or_introl eq_refl)). rewrite E. now left.
        - injection E as -> E. destruct (IHs a) as [r ->]; [intros z Hz; apply H; now right|exact E|]. exists r. reflexivity. }
      destruct (G s a) as [r ->]; [intros z Hz; apply H; now right|exact E|]. apply N. exists [], r. reflexivity.
    + injection E as _ E. apply (IH u E). intros (p & q & ->). apply N. exists (d :: p), q. reflexivity.
Qed.
Lemma findStr_nth n l i : NoDup l -> nth_error l i = Some n -> findStr n l = Some i.
Proof.
  revert i. induction l as [|x l IH]; intros [|i] N H; cbn in H; try discriminate.
  - injection H as <-. cbn [findStr]. now rewrite str_eqb_refl.
  - apply NoDup_cons_iff in N as [N1 N2]. cbn [findStr]. destruct (str_eqb x n) eqn:E.
    + apply str_eqb_eq in E. subst x. apply nth_error_In in H. contradiction.
    + now rewrite (IH i N2 H).
Qed.
Lemma findStr_none n l : ~ In n l -> findStr n l = None.
Proof.
  induction l as [|x l IH]; intros N; [reflexivity|]. cbn [findStr]. destruct (str_eqb x n) eqn:E; [apply str_eqb_eq in E; subst; destruct N; now left|].
  rewrite IH; [reflexivity|]. intros X. apply N. now right.
Qed.

(* C67: the value of a fit parameter of the likelihood is found under its name: real or imaginary part of the production
   amplitude of its wave and rank *)
Theorem C67_parameter_by_name : forall fr p i a, length (frAmps fr) = length (frAmpNames fr) -> NoDup (frAmpNames fr) -> clean (fpWave p) ->
  nth_error (frAmpNames fr) i = Some (ampName (Z.of_nat (fpRank p)) (fpWave p)) -> nth_error (frAmps fr) i = Some a ->
  fitParameterOf fr (LikParModel.parName p) = Some (if fpReal p then Re a else Im a).
Proof.
  intros fr p i a L N (C1 & C2 & C3) Hn Ha.
  assert (Hf : fpWave p <> lit "flat"%string). { intros E. apply C3. rewrite E. exists [], []. now rewrite app_nil_r. }
  assert (R0 : (0 <= Z.of_nat (fpRank p))%Z) by lia.
  rewrite parName_amp by exact Hf. set (n := ampName _ _) in *.
  assert (N1 : ~ occurs (lit "RE") n) by (apply name_clean; cbn; auto). assert (N2 : ~ occurs (lit "IM") n) by (apply name_clean; cbn; auto). assert (N3 : ~ occurs (lit "flat") n) by (apply name_clean; cbn; auto).
  assert (I : forall q, q = n -> prodAmpIndexOf fr q = Some i). { intros q ->. unfold prodAmpIndexOf. rewrite L, firstn_all. now apply findStr_nth. }
  unfold fitParameterOf. destruct (fpReal p).
  - replace (contains (lit "RE") (n ++ lit "_RE")) with true. 2:{ symmetry. apply contains_spec. exists (n ++ lit "_"), []. rewrite app_nil_r, <- app_assoc. reflexivity. }
    cbn [orb]. rewrite (I (replaceAll (lit "_RE") [] (n ++ lit "_RE"))); [unfold prodAmpAt; now rewrite Ha|]. apply (strip "_"%char "R"%char "E"%char); [discriminate|discriminate|].
    intros (x & y & E). apply N1. exists (x ++ lit "_"), y. rewrite E, <- app_assoc. reflexivity.
  - replace (contains (lit "RE") (n ++ lit "_IM")) with false. 2:{ symmetry. apply contains_false. apply suffix_occurs; [exact N1|]. intros c Hc Hd. cbn in Hc, Hd. intuition congruence. }
    replace (contains (lit "flat") (n ++ lit "_IM")) with false. 2:{ symmetry. apply contains_false. apply suffix_occurs; [exact N3|]. intros c Hc Hd. cbn in Hc, Hd. intuition congruence. }
    cbn [orb]. rewrite (I (replaceAll (lit "_IM") [] (n ++ lit "_IM"))); [unfold prodAmpAt; now rewrite Ha|]. apply (strip "_"%char "I"%char "M"%char); [discriminate|discriminate|].
    intros (x & y & E). apply N2. exists (x ++ lit "_"), y. rewrite E, <- app_assoc. reflexivity.
Qed.
(* the parameter of the flat wave *)
Theorem C67_flat_parameter : forall fr p i a, length (frAmps fr) = length (frAmpNames fr) -> NoDup (frAmpNames fr) -> fpWave p = lit "flat"%string -> fpReal p = true ->
  nth_error (frAmpNames fr) i = Some flatName -> nth_error (frAmps fr) i = Some a ->
  fitParameterOf fr (LikParModel.parName p) = Some (Re a) /\ fitParameterOf fr flatName = Some (Re a).
Proof.
  intros fr p i a L N Hw Hr Hn Ha.
  assert (I : prodAmpIndexOf fr flatName = Some i). { unfold prodAmpIndexOf. rewrite L, firstn_all. now apply findStr_nth. }
  unfold LikParModel.parName. rewrite Hw, Hr. split.
  - change (fitParameterOf fr (lit "V_flat_RE") = Some (Re a)). unfold fitParameterOf. change (contains (lit "RE") (lit "V_flat_RE") || _) with true. cbv iota zeta.
    change (replaceAll (lit "_RE") [] (lit "V_flat_RE")) with flatName. rewrite I. unfold prodAmpAt. now rewrite Ha.
  - unfold fitParameterOf. change (contains (lit "RE") flatName || _) with true. cbv iota zeta. change (replaceAll (lit "_RE") [] flatName) with flatName. rewrite I. unfold prodAmpAt. now rewrite Ha.
Qed.
(* a name no amplitude has gives 0 *)
Theorem C67_unknown_parameter : forall fr n, ~ occurs (lit "RE") n -> ~ occurs (lit "IM") n -> ~ occurs (lit "flat") n -> ~ In n (frAmpNames fr) ->
  fitParameterOf fr (n ++ lit "_RE") = Some 0%R /\ fitParameterOf fr (n ++ lit "_IM") = Some 0%R.
Proof.
  intros fr n N1 N2 N3 Hn.
  assert (I : forall q, q = n -> prodAmpIndexOf fr q = None). { intros q ->. apply findStr_none. intros X. apply Hn. rewrite <- (firstn_skipn (length (frAmps fr))). apply in_or_app. now left. }
  unfold fitParameterOf. split.
  - replace (contains (lit "RE") (n ++ lit "_RE")) with true. 2:{ symmetry. apply contains_spec. exists (n ++ lit "_"), []. rewrite app_nil_r, <- app_assoc. reflexivity. }
    cbn [orb]. rewrite I; [reflexivity|]. apply (strip "_"%char "R"%char "E"%char); [discriminate|discriminate|].
    intros (x & y & E). apply N1. exists (x ++ lit "_"), y. rewrite E, <- app_assoc. reflexivity.
  - replace (contains (lit "RE") (n ++ lit "_IM")) with false. 2:{ symmetry. apply contains_false. apply suffix_occurs; [exact N1|]. intros c Hc Hd. cbn in Hc, Hd. intuition congruence. }
    replace (contains (lit "flat") (n ++ lit "_IM")) with false. 2:{ symmetry. apply contains_false. apply suffix_occurs; [exact N3|]. intros c Hc Hd. cbn in Hc, Hd. intuition congruence. }
    cbn [orb]. rewrite I; [reflexivity|]. apply (strip "_"%char "I"%char "M"%char); [discriminate|discriminate|].
    intros (x & y & E). apply N2. exists (x ++ lit "_"), y. rewrite E, <- app_assoc. reflexivity.
Qed.
(* C67: the normalisation integral of two production amplitudes of a filled result is the element of the matrix that belongs to
   their waves, provided "flat" does not occur in the names of the waves; the flat wave has integral 1 with itself, 0 with others *)
Theorem C67_norm_integral : forall a m r i j ri rj wi wj, faNorm a = Some m -> r = fill frNew a -> (0 <= ri)%Z -> (0 <= rj)%Z ->
  nth_error (faAmpNames a) i = Some (ampName ri wi) -> nth_error (faAmpNames a) j = Some (ampName rj wj) -> ~ occurs (lit "flat") wi -> ~ occurs (lit "flat") wj ->
  exists k l, nth_error (frWaveNames r) k = Some wi /\ nth_error (frWaveNames r) l = Some wj /\ normIntegralForProdAmp r i j = Some (el m k l).
Proof.
  intros a m r i j ri rj wi wj Hm -> Hri Hrj Hi Hj Fi Fj.
  destruct (C30_fresh_fill_stores_exactly a) as (_ & _ & _ & _ & _ & _ & En & _ & _ & _ & _ & _ & _ & Em & _ & _ & _ & Ed & Ew). set (r := fill frNew a) in *.
  assert (X : forall q rq wq, (0 <= rq)%Z -> nth_error (faAmpNames a) q = Some (ampName rq wq) -> exists k, frIdxMap r q = Some k /\ nth_error (frWaveNames r) k = Some wq).
  { intros q rq wq Hq Q. destruct (frIdxMap r q) as [k|] eqn:E.
    - exists k. split; [reflexivity|]. destruct (Ew q k E) as (n & Q1 & Q2). rewrite Q in Q1. injection Q1 as <-. rewrite Q2. f_equal. now apply C31_round_trip.
    - exfalso. apply (proj2 (Ed q)); [|exact E]. split; [left; congruence|]. apply nth_error_Some. congruence. }
  destruct (X i ri wi Hri Hi) as (k & K1 & K2). destruct (X j rj wj Hrj Hj) as (l & L1 & L2). exists k, l. split; [exact K2|]. split; [exact L2|].
  unfold normIntegralForProdAmp, prodAmpNameAt. rewrite En, Hi, Hj. cbn [bindP].
  replace (contains (lit "flat") (ampName ri wi)) with false by (symmetry; apply contains_false; apply name_clean; cbn; auto).
  replace (contains (lit "flat") (ampName rj wj)) with false by (symmetry; apply contains_false; apply name_clean; cbn; auto). cbn [andb orb]. rewrite K1, L1.
  unfold normIntegral. now rewrite (Em m Hm).
Qed.
Theorem C67_flat_norm_integral : forall fr i j ni nj, nth_error (frAmpNames fr) i = Some ni -> nth_error (frAmpNames fr) j = Some nj ->
  (ni = flatName -> nj = flatName -> normIntegralForProdAmp fr i j = Some (RtoC 1)) /\
  (ni = flatName -> ~ occurs (lit "flat") nj -> normIntegralForProdAmp fr i j = Some (RtoC 0)) /\
  (~ occurs (lit "flat") ni -> nj = flatName -> normIntegralForProdAmp fr i j = Some (RtoC 0)).
Proof.
  intros fr i j ni nj Hi Hj. unfold normIntegralForProdAmp, prodAmpNameAt. rewrite Hi, Hj. cbn [bindP]. split; [|split].
  - intros -> ->. reflexivity.
  - intros -> N. apply contains_false in N. rewrite N. reflexivity.
  - intros N ->. apply contains_false in N. rewrite N. reflexivity.
Qed.
(* concrete result: two waves and the flat wave *)
Definition wave1 : str := lit "[1-,0-+,0+]=[f0_980_0=[pi+[0,0]pi-][0,0]pi-]".
Definition waveF : str := lit "[1-,0-+,0+]=[flat[0+,0++]=[pi+[0,0]pi-][0,0]pi-]".
Definition norm3 : mat C := Mat 3 3 (fun i j => if i =? j then RtoC 2 else (1, 1)%R).
Definition args3 : fillArgs := FA 100 1 [] 0 1 [(1, 2)%R; (3, 4)%R; (5, 0)%R] [ampName 0 wave1; ampName 0 waveF; flatName] None [] (Some norm3) None None true false.
Example C67_ex : let r := fill frNew args3 in clean wave1 /\ length (frAmps r) = length (frAmpNames r) /\ NoDup (frAmpNames r) /\
  fitParameterOf r (LikParModel.parName (FP wave1 0 0%R false false)) = Some 2%R /\ normIntegralForProdAmp r 0 0 = Some (RtoC 2).
Proof.
  cbn zeta. assert (C : clean wave1) by (repeat split; apply contains_false; reflexivity). 
  assert (N : NoDup (frAmpNames (fill frNew args3))). { change (NoDup [ampName 0 wave1; ampName 0 waveF; flatName]). repeat constructor; cbn [In]; intros H; repeat (destruct H as [H|H]; [discriminate H|]); exact H. }
  split; [exact C|]. split; [reflexivity|]. split; [exact N|]. split.
  - exact (C67_parameter_by_name (fill frNew args3) (FP wave1 0 0%R false false) 0 (1, 2)%R eq_refl N C eq_refl eq_refl).
  - reflexivity.
Qed.
(* the wave name of a wave with an isobar of flat mass dependence contains "flat" (massDependence.cc 177-185): its imaginary
   parameter is not found, its integrals are those of the flat wave, whatever the matrix says *)
Theorem C67_flat_isobar_refuted : exists a r w i, r = fill frNew a /\ w = waveF /\ nth_error (faAmpNames a) i = Some (ampName 0 w) /\ nth_error (faAmps a) i = Some (3, 4)%R /\
  fitParameterOf r (LikParModel.parName (FP w 0 0%R false false)) = Some 0%R /\
  nth_error (frWaveNames r) i = Some w /\ normIntegral r i i = RtoC 2 /\ normIntegralForProdAmp r i i = Some (RtoC 1) /\
  normIntegral r 0 i = (1, 1)%R /\ normIntegralForProdAmp r 0 i = Some (RtoC 0).
Proof. exists args3, (fill frNew args3), waveF, 1. repeat (split; [reflexivity|]). reflexivity. Qed.

(* ---- C30: a copy without matrices ---- *)
(* fill(result, false, _) drops the covariance matrix, fill(result, _, false) the integrals; everything else is that of the full copy *)
Theorem C30_stripped_copy : forall this r cov int, let s := fillFromResult this r cov int in
  (cov = false -> frCovValid s = false /\ frCov s = emptyR /\ frHasHessian s = false) /\
  (cov = true -> frCovValid r = true -> frCov s = frCov r) /\
  (int = false -> frNorm s = emptyC /\ frAcc s = emptyC /\ frPhaseSpace s = [] /\ forall k, frIdxMap s k = None) /\
  (int = true -> nonEmpty (frNorm r) = true -> frNorm s = frNorm r) /\ (int = true -> nonEmpty (frAcc r) = true -> frAcc s = frAcc r) /\ (int = true -> frPhaseSpace s = frPhaseSpace r) /\
  frNmbEvents s = frNmbEvents r /\ frNormNmbEvents s = frNormNmbEvents r /\ frBounds s = frBounds r /\ frLogL s = frLogL r /\ frRank s = frRank r /\
  frAmps s = frAmps r /\ frAmpNames s = frAmpNames r /\ frCovIdx s = frCovIdx r /\ frConverged s = frConverged r.
Proof.
  intros this r cov int s. unfold s, fillFromResult, fill. cbn [faAmpNames faCov faNorm faAcc]. destruct (fillWaves _ _ _ _) as [w m]. cbn -[nonEmpty].
  split; [intros ->; repeat split|]. split; [intros -> ->; reflexivity|]. split; [intros ->; repeat split|].
  split; [intros -> ->; reflexivity|]. split; [intros -> ->; reflexivity|]. split; [|repeat split].
  intros ->. cbn [andb]. destruct (frPhaseSpace r); reflexivity.
Qed.
Example C30_stripped_ex : frCovValid (fillFromResult frNew (fill frNew args3) false true) = false /\ frNorm (fillFromResult frNew (fill frNew args3) false true) = norm3.
Proof. split; reflexivity. Qed.

(* ---- C35: the determinant of a matrix that is not square is 0 ---- *)
Theorem C35_determinant_not_square : forall m, m_rows m <> m_cols m -> determinantNonSquare m = Some (RtoC 0).
Proof. intros m H. unfold determinantNonSquare. apply Nat.eqb_neq in H. now rewrite H. Qed.

(* ---- C62: elements of the covariance matrix of production amplitudes ---- *)
Definition partIdx (p : Z * Z) (im : bool) : Z := if im then snd p else fst p.
(* row 2k is the real, row 2k+1 the imaginary part of the k-th selected amplitude; the element is that of the covariance matrix of
   the parameters, 0 if one of the two is not a parameter *)
Theorem C62_amplitude_covariance : forall covIdx cov indices k l x y a b, nth_error indices k = Some a -> nth_error indices l = Some b ->
  let i := partIdx (covIdx a) x in let j := partIdx (covIdx b) y in
  let e := prodAmpCov covIdx cov indices (2 * k + (if x then 1 else 0)) (2 * l + (if y then 1 else 0)) in
  ((0 <= i)%Z -> (0 <= j)%Z -> e = cov i j) /\ ((i < 0 \/ j < 0)%Z -> e = 0%R).
Proof.
  intros covIdx cov indices k l x y a b Ha Hb i j e.
  assert (P : forall q z c, nth_error indices q = Some c -> parCovIndex covIdx indices (2 * q + (if z : bool then 1 else 0)) = partIdx (covIdx c) z).
  { intros q z c Hc. unfold parCovIndex. apply nth_error_nth with (d := O) in Hc. destruct z; [rewrite half_odd, even_odd|rewrite Nat.add_0_r, half_even, even_even]; now rewrite Hc. }
  unfold e, prodAmpCov. rewrite (P k x a Ha), (P l y b Hb). fold i j. split.
  - intros H1 H2. apply Z.leb_le in H1. apply Z.leb_le in H2. now rewrite H1, H2.
  - intros [H|H]; apply Z.leb_gt in H; rewrite H; [reflexivity|]. now rewrite andb_false_r.
Qed.
Example C62_covariance_ex : prodAmpCov (fun i => (2 * Z.of_nat i, 2 * Z.of_nat i + 1)%Z) (fun i j => IZR (10 * i + j)) [1; 3] 1 2 = 36%R.
Proof. apply (C62_amplitude_covariance (fun i => (2 * Z.of_nat i, 2 * Z.of_nat i + 1)%Z) (fun i j => IZR (10 * i + j)) [1; 3] 0 1 true false 1 3 eq_refl eq_refl); cbn; lia. Qed.
