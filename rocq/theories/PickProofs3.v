(* Proofs for C82, continued: pickers that are ready. *)
From Coq Require Import List ZArith Reals Bool Lia Lra Psatz.
From Coquelicot Require Import Coquelicot.
From Verif Require Import ArrayModel CGBoxModel PhysModel PhaseModel PhaseSpec PhaseProofs PhaseProofs2 LikSetProofs ProdModel ProdSpec ProdProofs2 PickModel PickSpec PickProofs PickProofs2.
Import ListNotations.
Open Scope R_scope.

Definition goodRow (n : nat) (x : R * list R) : Prop := ((length (snd x) + 1) / 2 = n)%nat /\ goodParams (snd x).
Definition kinv (k : pk) : Prop :=
  kInit k = true /\ kSlopes k <> [] /\ ordered (kSlopes k) /\ (forall x, In x (kSlopes k) -> goodRow (kN k) x) /\ kTLo k <= kTHi k.

Lemma readSlopes_inv arr ms : forall ss k k', length ms = length ss -> readSlopes arr ms ss k = Some (true, k') -> ms <> [] \/ kSlopes k <> [] -> (arr = false -> kN k = 1%nat) -> (1 <= kN k)%nat ->
  ordered (kSlopes k) -> (forall x, In x (kSlopes k) -> goodRow (kN k) x) ->
  kSlopes k' <> [] /\ ordered (kSlopes k') /\ (forall x, In x (kSlopes k') -> goodRow (kN k') x) /\ kTLo k' = kTLo k /\ kTHi k' = kTHi k /\ kMLo k' = kMLo k /\ kMHi k' = kMHi k /\ kN k' = kN k.
Proof.
  induction ms as [|em ms IH]; intros [|es ss] k k' L H NE N1 N2 O G; try discriminate; cbn [readSlopes] in H.
  - injection H as <-. destruct NE as [NE|NE]; [congruence|]. repeat split; assumption || apply G; assumption.
  - assert (forall p, ((length p + 1) / 2 = kN k)%nat -> p <> [] ->
      (do ok <- checkParams (kN k) 0 p; do m <- toDouble em; if ok then readSlopes arr ms ss (Pk (kInit k) (kMLo k) (kMHi k) (kTLo k) (kTHi k) (mapInsert m p (kSlopes k)) (kN k) (kCoM k) (kCoT k)) else Some (false, k)) = Some (true, k') ->
      kSlopes k' <> [] /\ ordered (kSlopes k') /\ (forall x, In x (kSlopes k') -> goodRow (kN k') x) /\ kTLo k' = kTLo k /\ kTHi k' = kTHi k /\ kMLo k' = kMLo k /\ kMHi k' = kMHi k /\ kN k' = kN k) as HK.
    { intros p HL PN E. destruct (check0_ok (kN k) p HL PN) as (ok & E1 & OK). rewrite E1 in E. cbn [bnd] in E. apply bnd_some in E as (m & EM & E). destruct ok; [|discriminate].
      apply IH in E; [exact E|cbn in L; lia| |exact N1|exact N2|now apply mapInsert_ordered|].
      - right. cbn [kSlopes]. intros Z. assert (In (m, p) (mapInsert m p (kSlopes k)) \/ exists x, In x (kSlopes k)) as Q.
        { destruct (kSlopes k) as [|x l]; [left; now left|right; exists x; now left]. }
        rewrite Z in Q. destruct Q as [[]|[x X]]. apply (mapInsert_mono m p) in X. rewrite Z in X. destruct X.
      - cbn [kSlopes kN]. intros x X. destruct (mapInsert_in _ _ _ _ X) as [->|X']; [split; [exact HL|now apply OK]|now apply G]. }
    destruct arr.
    + destruct es as [| |l| |]; try discriminate. destruct ((length l + 1) / 2 =? kN k)%nat eqn:EN; cbn [negb] in H; [|discriminate]. apply Nat.eqb_eq in EN.
      apply bnd_some in H as (p & EP & H). assert (length p = length l) as LL.
      { clear - EP. revert p EP. induction l as [|e l IHl]; intros p EP; cbn [doubles] in EP; [now injection EP as <-|]. apply bnd_some in EP as (x & _ & EP). apply bnd_some in EP as (r & ER & EP). injection EP as <-. cbn. now rewrite (IHl r ER). }
      apply (HK p); [rewrite LL; exact EN| |exact H]. intros ->. cbn in LL. rewrite <- LL in EN. cbn in EN. lia.
    + apply bnd_some in H as (x & EX & H). apply (HK [x]); [rewrite (N1 eq_refl); reflexivity|discriminate|exact H].
Qed.
Lemma initRanges_inv c k ok k' : initRanges c k = Some (ok, k') -> kInit k' = kInit k /\ kSlopes k' = kSlopes k /\ kN k' = kN k /\ kCoM k' = kCoM k /\ kCoT k' = kCoT k
  /\ (ok = true -> kTLo k' <= kTHi k' /\ kMLo k' <= kMHi k' /\ kInit k = false).
Proof.
  unfold initRanges. destruct (kInit k) eqn:EI; [intros H; injection H as <- <-; repeat split; try assumption; discriminate|]. destruct (negb _); [intros H; injection H as <- <-; repeat split; try assumption; discriminate|].
  set (lo := lookup (cMassMin c) 0). set (hi := lookup (cMassMax c) 0).
  destruct (Rlt_le_dec hi lo) as [H1|H1]; [rewrite (rltb_true _ _ H1)|rewrite (rltb_false _ _ H1)]; [intros H; injection H as <- <-; repeat split; try assumption; discriminate|].
  cbn [kTLo kTHi kInit]. set (a := lookup (cTMin c) (kTLo k)). set (b := lookup (cTMax c) (kTHi k)). intros H. injection H as <- <-. cbn. split; [reflexivity|]. do 4 (split; [reflexivity|]). intros HB.
  destruct (Rlt_le_dec b a) as [H2|H2]; [rewrite (rltb_true _ _ H2) in HB; discriminate|]. split; [exact H2|]. split; [exact H1|reflexivity].
Qed.
Lemma ready_inv k : ready k -> kinv k.
Proof.
  induction 1 as [c k H|k lo hi k' _ IH H].
  - unfold initExp in H. apply bnd_some in H as ((ok & k1) & E1 & H). destruct (initRanges_inv _ _ _ _ E1) as (I1 & I2 & I3 & _ & _ & I4). destruct ok; cbn [negb] in H; [|discriminate]. specialize (I4 eq_refl).
    destruct (cMasses c) as [[| |masses| |]|]; try discriminate. destruct (cSlopes c) as [[| | |slopes|]|]; try discriminate.
    destruct (length masses =? length slopes)%nat eqn:EL; cbn [negb] in H; [|discriminate]. apply Nat.eqb_eq in EL.
    apply bnd_some in H as (m0 & EM & H). destruct (isNumber m0); cbn [negb] in H; [|discriminate]. apply bnd_some in H as (s0 & ES & H).
    assert (masses <> []) as NE by (destruct masses; [discriminate|congruence]).
    assert (forall arr n, (arr = false -> n = 1%nat) -> (1 <= n)%nat -> (do (ok, k) <- readSlopes arr masses slopes (Pk (kInit k1) (kMLo k1) (kMHi k1) (kTLo k1) (kTHi k1) (kSlopes k1) n (kCoM k1) (kCoT k1));
      if ok : bool then Some (true, Pk true (kMLo k) (kMHi k) (kTLo k) (kTHi k) (kSlopes k) (kN k) (kCoM k) (kCoT k)) else Some (false, k)) = Some (true, k) -> kinv k) as HF.
    { intros arr n N1 N2 E. apply bnd_some in E as ((ok & k2) & E2 & E). destruct ok; [|discriminate]. injection E as <-.
      apply readSlopes_inv in E2; [|exact EL|now left|exact N1|exact N2|cbn [kSlopes]; rewrite I2; exact I|cbn [kSlopes]; rewrite I2; intros x []].
      destruct E2 as (Q1 & Q2 & Q3 & Q4 & Q5 & _). unfold kinv. cbn [kInit kSlopes kN kTLo kTHi]. split; [reflexivity|]. split; [exact Q1|]. split; [exact Q2|]. split; [exact Q3|]. rewrite Q4, Q5. cbn. apply I4. }
    destruct (isNumber s0); [apply (HF false 1%nat); [reflexivity|lia|exact H]|]. destruct s0 as [| |l| |]; try discriminate.
    apply bnd_some in H as (x0 & EX & H). destruct (isNumber x0); cbn [negb] in H; [|discriminate]. destruct (Nat.odd (length l)) eqn:EO; cbn [negb] in H; [|discriminate].
    apply (HF true ((length l + 1) / 2)%nat); [discriminate| |exact H]. destruct l; [discriminate|]. cbn [length]. apply Nat.div_le_lower_bound; lia.
  - unfold overrideMassRange in H. destruct (negb (kInit k)); [discriminate|]. injection H as <-. exact IH.
Qed.

(* ---- interpolation ---- *)
Lemma interpolate_ok m m1 m2 p1 p2 : m1 < m2 -> interpolate m m1 m2 p1 p2 = Some (p1 + (p2 - p1) * ((m - m1) / (m2 - m1))).
Proof. intros H. unfold interpolate. rewrite rdiv_ne by lra. cbn [bnd]. f_equal. field. lra. Qed.
Lemma interpolateAll_ok m m1 m2 : m1 < m2 -> forall l1 l2, length l1 = length l2 -> exists p, interpolateAll m m1 m2 l1 l2 = Some p /\ length p = length l1
  /\ forall j, (j < length p)%nat -> nth j p 0 = nth j l1 0 + (nth j l2 0 - nth j l1 0) * ((m - m1) / (m2 - m1)).
Proof.
  intros H. induction l1 as [|x l1 IH]; intros [|y l2] L; try discriminate; cbn [interpolateAll].
  - exists []. split; [reflexivity|]. split; [reflexivity|]. cbn. lia.
  - rewrite interpolate_ok by exact H. destruct (IH l2 ltac:(cbn in L; lia)) as (p & -> & L1 & P). cbn [bnd]. eexists. split; [reflexivity|]. split; [cbn; now rewrite L1|].
    intros [|j] Hj; [reflexivity|]. cbn [nth]. apply P. cbn in Hj. lia.
Qed.
Lemma pairs_good w p : 0 <= w <= 1 -> forall n l1 l2, (length p <= n)%nat -> length l1 = length p -> length l2 = length p ->
  (forall j, (j < length p)%nat -> nth j p 0 = nth j l1 0 + (nth j l2 0 - nth j l1 0) * w) ->
  List.Forall (fun ca => 0 <= fst ca /\ snd ca < 0) (pairsOf l1) -> List.Forall (fun ca => 0 <= fst ca /\ snd ca < 0) (pairsOf l2) -> List.Forall (fun ca => 0 <= fst ca /\ snd ca < 0) (pairsOf p).
Proof.
  intros W n. revert p. induction n as [|n IH]; intros p l1 l2 LN L1 L2 E G1 G2; [destruct p; [constructor|cbn in LN; lia]|].
  destruct p as [|c [|a p]]; [constructor|constructor|]. destruct l1 as [|c1 [|a1 l1]]; try discriminate. destruct l2 as [|c2 [|a2 l2]]; try discriminate.
  cbn [pairsOf] in *. inversion G1 as [|? ? [A1 B1] G1']; subst. inversion G2 as [|? ? [A2 B2] G2']; subst. cbn [fst snd] in *.
  pose proof (E 0%nat ltac:(cbn; lia)) as E0. pose proof (E 1%nat ltac:(cbn; lia)) as E1. cbn [nth] in E0, E1. constructor.
  - cbn [fst snd]. split; nra.
  - apply (IH p l1 l2); [cbn in LN; lia|cbn in L1; lia|cbn in L2; lia| |exact G1'|exact G2']. intros j Hj. exact (E (S (S j)) ltac:(cbn; lia)).
Qed.
Lemma interp_good w p l1 l2 : 0 <= w <= 1 -> length l1 = length p -> length l2 = length p -> (forall j, (j < length p)%nat -> nth j p 0 = nth j l1 0 + (nth j l2 0 - nth j l1 0) * w) ->
  goodParams l1 -> goodParams l2 -> goodParams p.
Proof.
  intros W L1 L2 E [N1 G1] [N2 G2]. destruct l1 as [|a1 l1]; [congruence|]. destruct l2 as [|a2 l2]; [cbn in L1, L2; lia|]. destruct p as [|a p]; [discriminate|].
  unfold goodParams. cbn [termsOf] in *. inversion G1 as [|? ? [_ B1] G1']; subst. inversion G2 as [|? ? [_ B2] G2']; subst. cbn [snd] in *.
  split; [discriminate|]. constructor; [cbn; pose proof (E 0%nat ltac:(cbn; lia)) as E0; cbn [nth] in E0; split; nra|].
  apply (pairs_good w p W (length p) l1 l2); [lia|cbn in L1; lia|cbn in L2; lia| |exact G1'|exact G2']. intros j Hj. exact (E (S j) ltac:(cbn; lia)).
Qed.
Lemma ordered_le l : ordered l -> forall i j x y, (i < j)%nat -> nth_error l i = Some x -> nth_error l j = Some y -> fst x < fst y.
Proof.
  induction l as [|z l IH]; intros O i j x y H X Y; [destruct i; discriminate|]. destruct O as [O1 O2]. destruct j as [|j]; [lia|]. destruct i as [|i]; cbn in X, Y.
  - injection X as <-. apply O1. exact (nth_error_In _ _ Y).
  - apply (IH O2 i j); [lia|exact X|exact Y].
Qed.
Lemma neighbours_ok m l : ordered l -> forall i prev, (forall x, prev = Some x -> fst x < m) -> (exists y, In y (skipn i l) /\ m <= fst y) ->
  (match prev with Some x => exists i', i = S i' /\ nth_error l i' = Some x | None => i = 0%nat /\ exists x, hd_error l = Some x /\ fst x < m end) ->
  exists i' a b, neighbours m prev (skipn i l) = Some (a, b) /\ nth_error l i' = Some a /\ nth_error l (S i') = Some b /\ fst a < m <= fst b.
Proof.
  intros O i. remember (length l - i)%nat as n eqn:EN. revert i EN. induction n as [|n IH]; intros i EN prev HP (y & Y1 & Y2) HI.
  - exfalso. rewrite (skipn_all2 l) in Y1 by lia. destruct Y1.
  - destruct (skipn i l) as [|x r] eqn:E; [destruct Y1|].
    assert (nth_error l i = Some x) as NX. { rewrite <- (firstn_skipn i l), E, nth_error_app2; rewrite firstn_length_le by lia; [|lia]. now rewrite Nat.sub_diag. }
    assert (skipn (S i) l = r) as ER. { change (S i) with (1 + i)%nat. rewrite <- skipn_skipn, E. reflexivity. }
    cbn [neighbours]. destruct (Rlt_le_dec (fst x) m) as [H|H]; [rewrite (rltb_true _ _ H)|rewrite (rltb_false _ _ H)].
    + rewrite <- ER. apply IH; [lia| | |].
      * intros z Z. injection Z as <-. exact H.
      * exists y. rewrite ER. destruct Y1 as [<-|Y1]; [lra|]. split; [exact Y1|exact Y2].
      * exists i. split; [reflexivity|exact NX].
    + destruct prev as [a|].
      * destruct HI as (i' & -> & NA). cbn [bnd]. exists i', a, x. split; [reflexivity|]. split; [exact NA|]. split; [exact NX|]. split; [now apply HP|exact H].
      * destruct HI as (-> & z & Z1 & Z2). exfalso. destruct l; [discriminate|]. cbn in Z1, NX. injection Z1 as <-. injection NX as <-. lra.
Qed.
Lemma paramsFor_ok k m : kinv k -> sameLengths k -> notFirst k m -> exists p, paramsFor m (kSlopes k) = Some p /\ slopesAt (kSlopes k) m p /\ ((length p + 1) / 2 = kN k)%nat /\ goodParams p.
Proof.
  intros (_ & NE & O & G & _) SL NF. unfold paramsFor, notFirst, sameLengths in *. destruct (kSlopes k) as [|x0 r] eqn:EK; [congruence|]. cbn [nth_error bnd]. rewrite <- EK in *.
  assert (In x0 (kSlopes k)) as I0 by (rewrite EK; now left).
  assert (exists xl, nth_error (kSlopes k) (length (kSlopes k) - 1) = Some xl) as (xl & EL).
  { destruct (nth_error _ _) as [xl|] eqn:E; [now exists xl|]. apply nth_error_None in E. rewrite EK in E. cbn in E. lia. }
  rewrite EL. cbn [bnd]. pose proof (nth_error_In _ _ EL) as Il.
  assert (forall y, In y (kSlopes k) -> fst x0 <= fst y) as HMin. { intros y Y. rewrite EK in Y, O. destruct O as [O1 _]. destruct Y as [<-|Y]; [lra|]. left. now apply O1. }
  assert (forall y, In y (kSlopes k) -> fst y <= fst xl) as HMax.
  { intros y Y. apply In_nth_error in Y as (i & Y). assert (i < length (kSlopes k))%nat as Li by (apply nth_error_Some; congruence).
    destruct (Nat.eq_dec i (length (kSlopes k) - 1)) as [->|D]; [replace y with xl by congruence; lra|]. left. apply (ordered_le _ O i (length (kSlopes k) - 1)); [lia|exact Y|exact EL]. }
  assert (forall x, In x (kSlopes k) -> slopesAt (kSlopes k) m (snd x) -> exists p, Some (snd x) = Some p /\ slopesAt (kSlopes k) m p /\ ((length p + 1) / 2 = kN k)%nat /\ goodParams p) as FIN.
  { intros x X SA. exists (snd x). split; [reflexivity|]. split; [exact SA|]. exact (G x X). }
  destruct (length (kSlopes k) =? 1)%nat eqn:E1.
  - apply Nat.eqb_eq in E1. apply FIN; [exact I0|]. assert (kSlopes k = [x0]) as K1 by (rewrite EK in E1 |- *; destruct r; [reflexivity|cbn in E1; lia]).
    destruct (Rle_lt_dec m (fst x0)) as [H|H]; [left; exists x0|right; left; exists x0]; (split; [exact I0|]; split; [reflexivity|]; split; [|lra]); intros y Y; rewrite K1 in Y; destruct Y as [<-|[]]; lra.
  - apply Nat.eqb_neq in E1. destruct (Rlt_le_dec (fst xl) m) as [H|H]; [rewrite (rltb_true _ _ H)|rewrite (rltb_false _ _ H)].
    { apply FIN; [exact Il|]. right. left. exists xl. split; [exact Il|]. split; [reflexivity|]. split; [exact HMax|lra]. }
    destruct (Rlt_le_dec m (fst x0)) as [H'|H']; [rewrite (rltb_true _ _ H')|rewrite (rltb_false _ _ H')].
    { apply FIN; [exact I0|]. left. exists x0. split; [exact I0|]. split; [reflexivity|]. split; [exact HMin|lra]. }
    assert (m <> fst x0) as NM. { apply NF; [rewrite EK in E1 |- *; cbn in *; lia|rewrite EK; reflexivity]. }
    destruct (neighbours_ok m (kSlopes k) O 0 None) as (i & a & b & EN & NA & NB & B).
    + discriminate.
    + exists xl. split; [exact Il|exact H].
    + split; [reflexivity|]. exists x0. split; [rewrite EK; reflexivity|lra].
    + change (skipn 0 (kSlopes k)) with (kSlopes k) in EN. rewrite EN. cbn [bnd]. destruct a as [m1 p1], b as [m2 p2]. cbn [fst snd] in *.
      pose proof (nth_error_In _ _ NA) as IA. pose proof (nth_error_In _ _ NB) as IB. destruct (G _ IA) as [GA1 GA2]. destruct (G _ IB) as [GB1 GB2]. cbn [snd] in *.
      pose proof (SL _ _ IA IB) as LL. cbn [snd] in LL. destruct (interpolateAll_ok m m1 m2 ltac:(lra) p1 p2 LL) as (p & EP & LP & P). exists p. split; [exact EP|]. split.
      { right. right. exists i, m1, p1, m2, p2. split; [exact NA|]. split; [exact NB|]. split; [exact B|]. split; [exact LP|exact P]. }
      split; [rewrite LP; exact GA1|]. apply (interp_good ((m - m1) / (m2 - m1)) p p1 p2); try assumption; [|congruence|congruence]. split.
      * apply Rmult_le_pos; [lra|]. apply Rlt_le, Rinv_0_lt_compat. lra.
      * apply (Rmult_le_reg_r (m2 - m1)); [lra|]. unfold Rdiv. rewrite Rmult_assoc, Rinv_l by lra. lra.
Qed.
