(* C84: prior, likelihood, parameters. *)
From Coq Require Import List ZArith Reals Bool Lia Lra Psatz.
From Verif Require Import ArrayModel CGBoxModel PhysModel PhysProps PhaseModel PhaseSpec PhaseProofs PhaseProofs2 PhaseProofs3 PhaseProofs4 PhaseProps PhaseProps2 PhaseProps4 PhaseProps5 FrameModel ProdModel SampleModel SampleSpec SampleProofs.
From Verif Require Import LikSetProofs.
Import ListNotations.
Open Scope R_scope.

Lemma chungWeight ms g : consistent ms g -> gWT g = S_U_CHUNG -> Forall (fun m => 0 <= m) ms -> allowedMasses ms (gM g) -> 0 < nth 1 (gM g) 0 ->
  let M := nth (length ms - 1) (gM g) 0 in
  exists g' qs, calcWeight g = Some g' /\ momenta ms (gM g) qs /\ 0 < M
    /\ gW g' = Fin (gNorm g * (M - sumR ms) ^ (length ms - 2) * prodR (map (fun i => nth i qs 0) (seq 1 (length ms - 1))) / M).
Proof.
  intros C T Hp AM M1 M. pose proof (co_n2 ms g C) as Hn. pose proof AM as (LA & A0 & A).
  assert (forall i, (1 <= i < length ms)%nat -> 0 < nth i (gM g) 0) as Mpos.
  { induction i as [|i IH]; intros Hi; [lia|]. destruct (Nat.eq_dec i 0) as [->|]; [exact M1|].
    specialize (IH ltac:(lia)). specialize (A (S i) Hi). replace (S i - 1)%nat with i in A by lia. pose proof (pos_nth ms (S i) Hp). lra. }
  destruct (breakup_ok ms g C Hp AM Mpos) as (qs & E & LQ & HQ). set (g1 := withQ qs g) in *. pose proof (breakup_consistent ms g g1 C E) as C1.
  assert (0 < M) as M0 by (apply Mpos; lia).
  assert (rd (gM g1) (length ms - 1) = Some M) as RM by (rewrite (rd_nth _ _ 0) by (cbn; lia); reflexivity).
  assert (momProd g1 = Some (prodR (map (fun i => nth i qs 0) (seq 1 (length ms - 1))))) as EP.
  { rewrite momProd_eq; rewrite (co_n ms g1 C1); [reflexivity|]. intros i Hi. apply rd_nth. cbn. lia. }
  unfold calcWeight. rewrite (co_n ms g C). rewrite (proj2 (Nat.ltb_ge _ 2)) by lia. rewrite E. cbn [bnd].
  unfold rawWeight. change (gWT g1) with (gWT g). rewrite T, EP. cbn [bnd]. rewrite (co_n ms g1 C1), RM. cbn [bnd]. rewrite (sum_rd ms g1 C1). cbn [bnd idiv]. rewrite reqb_false by lra.
  eexists _, qs. split; [reflexivity|]. split; [split; assumption|]. split; [exact M0|]. reflexivity.
Qed.
Lemma prodR_pos {A} (f : A -> R) l : (forall x, In x l -> 0 < f x) -> 0 < prodR (map f l).
Proof. induction l as [|x l IH]; intros H; [cbn [map]; rewrite prodR_nil; lra|]. cbn [map]. rewrite prodR_cons. apply Rmult_lt_0_compat; [apply H; now left|apply IH; intros; apply H; now right]. Qed.
Lemma prodR_zero {A} (f : A -> R) l x : In x l -> f x = 0 -> prodR (map f l) = 0.
Proof. induction l as [|y l IH]; intros Hx E; [destruct Hx|]. cbn [map]. rewrite prodR_cons. destruct Hx as [->|Hx]; [rewrite E; ring|rewrite (IH Hx E); ring]. Qed.
Lemma isBreakup_pos M m1 m2 q : 0 <= m1 -> 0 <= m2 -> isBreakup M m1 m2 q -> m1 + m2 < M -> 0 < q.
Proof.
  intros H1 H2 [Q E] L. destruct (Rle_lt_or_eq_dec 0 q Q) as [P|P]; [exact P|]. exfalso. subst q. replace (m1 ^ 2 + 0 ^ 2) with (Rsqr m1) in E by (unfold Rsqr; ring).
  replace (m2 ^ 2 + 0 ^ 2) with (Rsqr m2) in E by (unfold Rsqr; ring). rewrite !sqrt_Rsqr in E by assumption. lra.
Qed.
Lemma breakup_zero m1 m2 q : 0 <= m1 -> 0 <= m2 -> 0 < m1 + m2 -> 0 <= q -> sqrt (m1 * m1 + q * q) + sqrt (m2 * m2 + q * q) = m1 + m2 -> q = 0.
Proof.
  intros H1 H2 S Q E. destruct (Rle_lt_or_eq_dec 0 q Q) as [P|P]; [|now symmetry]. exfalso.
  assert (forall m, 0 <= m -> m < sqrt (m * m + q * q)) as K.
  { intros m Hm. rewrite <- (sqrt_Rsqr m Hm) at 1. apply sqrt_lt_1; unfold Rsqr; nra. }
  pose proof (K m1 H1). pose proof (K m2 H2). lra.
Qed.
Lemma massX_rd ms pars : (2 <= length ms)%nat -> isPoint ms pars -> rd pars (3 * length ms - 6) = Some (massX ms pars).
Proof. intros N P. unfold isPoint in P. unfold massX. rewrite pm_nth by lia. replace (3 * (length ms - 1) - 3)%nat with (3 * length ms - 6)%nat by lia. apply rd_nth. lia. Qed.
Lemma allowed_of_inside ms Ms : length Ms = length ms -> nth 0 Ms 0 = nth 0 ms 0 -> insideMasses ms Ms -> allowedMasses ms Ms.
Proof. intros L H0 H. split; [exact L|]. split; [exact H0|]. intros i Hi. specialize (H i Hi). lra. Qed.
Lemma sum_below ms Ms : (2 <= length ms)%nat -> allowedMasses ms Ms -> sumR ms <= nth (length ms - 1) Ms 0.
Proof.
  intros N (L & A0 & A). assert (forall i, (i < length ms)%nat -> pre ms i <= nth i Ms 0) as K.
  { induction i as [|i IH]; intros Hi; [rewrite pre_0 by lia; lra|]. rewrite pre_step by lia. specialize (A (S i) ltac:(lia)). replace (S i - 1)%nat with i in * by lia. specialize (IH ltac:(lia)). lra. }
  rewrite <- pre_all by lia. apply K. lia.
Qed.

(* The prior is the density of phase space in the sampled parameters, times the prior for the mass of X;
   outside of phase space and on its border the probability is zero. *)
Theorem C84_prior ms range s pars : made ms range s -> isPoint ms pars -> Forall (fun m => 0 <= m) ms ->
  let Ms := pointMasses ms pars in let mX := massX ms pars in
  let p := match iPrior s with Some f => f mX | None => 1 end in
  (~ allowedMasses ms Ms -> logAPrioriProbability pars s = Some (Inf true))
  /\ (insideMasses ms Ms -> exists qs, (forall i, (1 <= i < length ms)%nat -> isBreakup (nth i Ms 0) (nth (i - 1) Ms 0) (nth i ms 0) (nth i qs 0))
        /\ let D := (2 * PI) ^ 4 / INR (fact (length ms - 2)) * phaseSpace (length ms) Ms qs in
           0 < D /\ (0 < p -> logAPrioriProbability pars s = Some (Fin (ln (D * p)))) /\ (p = 0 -> logAPrioriProbability pars s = Some (Inf true)))
  /\ (allowedMasses ms Ms -> ~ insideMasses ms Ms -> 0 < nth 1 Ms 0 -> sumR ms < mX \/ length ms = 2%nat -> logAPrioriProbability pars s = Some (Inf true)).
Proof.
  intros HM HP Hm Ms mX p. destruct (made_ok ms range s HM) as (N & _ & EM & ES & _). destruct (init_ok ms range s pars false HM HP) as (r & ER & QR). fold Ms in QR.
  unfold logAPrioriProbability. rewrite ER. cbn [bnd]. unfold nPart. rewrite EM, ES. destruct r as [g|].
  2: { split; [reflexivity|]. assert (nth 0 Ms 0 = nth 0 ms 0) as M0 by reflexivity. split; [|intros Q; contradiction]. intros IN. exfalso. apply QR. apply allowed_of_inside; [apply pm_len; lia|exact M0|exact IN]. }
  destruct QR as (AM & U & T & _ & GM & _). split; [intros Q; contradiction|]. rewrite (massX_rd ms pars N HP). cbn [bnd]. fold mX.
  pose proof (usedFor_consistent ms g (sameType_usedFor ms g U)) as C. rewrite <- GM in AM.
  split.
  - intros IN. rewrite <- GM in IN. destruct AM as (LA & A0 & A). destruct (C72_weight_is_phase_space ms g U Hm A0 IN) as (g' & w & CW & W & _ & BR & PS & _). specialize (PS T).
    destruct (strict_OK ms g C Hm LA A0 IN) as [HO HS]. change (nth (length ms - 1) (gM g) 0) with (nth (length ms - 1) (gM g) 0) in HS.
    assert (nth (length ms - 1) (gM g) 0 = mX) as EX by (rewrite GM; reflexivity). rewrite EX in *.
    exists (gQ g'). rewrite <- GM. split; [exact BR|]. set (D := (2 * PI) ^ 4 / INR (fact (length ms - 2)) * phaseSpace (length ms) (gM g) (gQ g')). cbv zeta.
    assert (0 < (mX - sumR ms) ^ (length ms - 2)) as PW by (apply pow_lt; lra). pose proof (INR_fact_lt_0 (length ms - 2)) as FA. pose proof PI_RGT_0 as PI0.
    assert (0 < phaseSpace (length ms) (gM g) (gQ g')) as PP.
    { assert (forall i, (1 <= i < length ms)%nat -> 0 < nth i (gM g) 0) as Mpos by (intros i Hi; now apply HO).
      unfold phaseSpace. apply Rmult_lt_0_compat; apply prodR_pos; intros i Hi; apply in_seq in Hi.
      - pose proof (Mpos i ltac:(lia)) as Mi. assert (0 < nth i (gQ g') 0) as Qi.
        { apply (isBreakup_pos (nth i (gM g) 0) (nth (i - 1) (gM g) 0) (nth i ms 0)); [|now apply pos_nth|apply BR; lia|apply IN; lia].
          destruct (Nat.eq_dec i 1) as [->|]; [cbn [Nat.sub]; rewrite A0; now apply pos_nth|left; apply Mpos; lia]. }
        assert (0 < (2 * PI) ^ 6) by (apply pow_lt; lra). repeat apply Rdiv_lt_0_compat; try assumption. apply Rmult_lt_0_compat; [|lra]. apply Rdiv_lt_0_compat; lra.
      - pose proof (Mpos i ltac:(lia)). assert (0 < (2 * PI) ^ 3) by (apply pow_lt; lra). apply Rmult_lt_0_compat; lra. }
    assert (0 < D) as D0. { unfold D. apply Rmult_lt_0_compat; [|exact PP]. apply Rdiv_lt_0_compat; [apply pow_lt; lra|exact FA]. }
    split; [exact D0|]. rewrite CW. cbn [bnd]. rewrite W.
    assert (idiv (Fin w) (ipow (Fin (mX - sumR ms)) (length ms - 2)) = Fin D) as ->.
    { assert (ipow (Fin (mX - sumR ms)) (length ms - 2) = Fin ((mX - sumR ms) ^ (length ms - 2))) as -> by (destruct (length ms - 2)%nat; reflexivity).
      cbn [idiv]. rewrite reqb_false by lra. f_equal. unfold orderedDensity in PS. unfold D.
      apply Rmult_eq_reg_r with (INR (fact (length ms - 2))); [|lra]. transitivity (w * (INR (fact (length ms - 2)) / (mX - sumR ms) ^ (length ms - 2))); [field; lra|].
      rewrite PS. field. lra. }
    fold p. assert (match iPrior s with Some f => imul (Fin D) (Fin (f mX)) | None => Fin D end = Fin (D * p)) as ->.
    { unfold p. destruct (iPrior s); cbn [imul]; [reflexivity|f_equal; ring]. }
    cbn [ilog]. split.
    + intros P0. rewrite rltb_true by (apply Rmult_lt_0_compat; assumption). reflexivity.
    + intros ->. rewrite Rmult_0_r. rewrite !rltb_false by lra. reflexivity.
  - intros _ NI M1 TH. rewrite <- GM in M1. destruct (chungWeight ms g C T Hm AM M1) as (g' & qs & CW & (LQ & HQ) & M0 & W). rewrite CW. cbn [bnd]. rewrite W.
    assert (nth (length ms - 1) (gM g) 0 = mX) as EX by (rewrite GM; reflexivity). rewrite EX in *.
    assert (exists i, (1 <= i < length ms)%nat /\ nth (i - 1) Ms 0 + nth i ms 0 = nth i Ms 0) as (i & Hi & EI).
    { rewrite GM in AM. destruct AM as (_ & _ & A). unfold insideMasses in NI.
      assert (forall k, (forall i, (1 <= i < S k)%nat -> (i < length ms)%nat -> nth (i - 1) Ms 0 + nth i ms 0 < nth i Ms 0) \/ exists i, (1 <= i < length ms)%nat /\ nth (i - 1) Ms 0 + nth i ms 0 = nth i Ms 0) as K.
      { induction k as [|k IH]; [left; intros; lia|]. destruct IH as [IH|IH]; [|now right].
        destruct (Nat.lt_ge_cases (S k) (length ms)) as [L|L]; [|left; intros i H1 H2; apply IH; lia].
        destruct (Rle_lt_or_eq_dec _ _ (A (S k) ltac:(lia))) as [Q|Q].
        - left. intros i H1 H2. destruct (Nat.eq_dec i (S k)) as [->|]; [exact Q|]. apply IH; lia.
        - right. exists (S k). split; [lia|exact Q]. }
      destruct (K (length ms)) as [Q|Q]; [|exact Q]. exfalso. apply NI. intros i Hi. apply Q; lia. }
    assert (nth i qs 0 = 0) as Q0.
    { destruct (HQ i Hi) as (_ & Q & EQ). rewrite GM in EQ. fold Ms in EQ. rewrite GM in AM, M1. fold Ms in AM, M1. destruct AM as (LA & A0 & A).
      assert (forall j, (1 <= j < length ms)%nat -> 0 < nth j Ms 0) as Mpos.
      { induction j as [|j IH]; intros Hj; [lia|]. destruct (Nat.eq_dec j 0) as [->|]; [exact M1|]. specialize (IH ltac:(lia)). specialize (A (S j) Hj). replace (S j - 1)%nat with j in A by lia. pose proof (pos_nth ms (S j) Hm). lra. }
      apply (breakup_zero (nth (i - 1) Ms 0) (nth i ms 0)); try assumption.
      - destruct (Nat.eq_dec i 1) as [->|]; [cbn [Nat.sub]; rewrite A0; now apply pos_nth|left; apply Mpos; lia].
      - now apply pos_nth.
      - rewrite EI. now apply Mpos.
      - rewrite EQ. now rewrite EI. }
    assert (In i (seq 1 (length ms - 1))) as HI by (apply in_seq; lia).
    rewrite (prodR_zero (fun j => nth j qs 0) _ i HI Q0), Rmult_0_r. replace (0 / mX) with 0 by (unfold Rdiv; ring).
    assert (ipow (Fin (mX - sumR ms)) (length ms - 2) = Fin ((mX - sumR ms) ^ (length ms - 2))) as -> by (destruct (length ms - 2)%nat; reflexivity).
    assert ((mX - sumR ms) ^ (length ms - 2) <> 0) as PW. { destruct TH as [TH|TH]; [apply Rgt_not_eq, pow_lt; lra|]. replace (length ms - 2)%nat with 0%nat by lia. cbn. lra. }
    cbn [idiv]. rewrite reqb_false by exact PW. replace (0 / (mX - sumR ms) ^ (length ms - 2)) with 0 by (unfold Rdiv; ring).
    assert (match iPrior s with Some f => imul (Fin 0) (Fin (f mX)) | None => Fin 0 end = Fin 0) as -> by (destruct (iPrior s); cbn [imul]; [f_equal; ring|reflexivity]).
    cbn [ilog]. rewrite !rltb_false by lra. reflexivity.
Qed.
