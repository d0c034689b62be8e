(* C03 on particles (isMeson, isSpinExotic) and C20 (filling a particle by name) *)
From Coq Require Import String Ascii List ZArith NArith Bool Reals Lia.
From Verif Require Import PathModel StrModel DecModel SpinModel SpinSpec SpinProofs SpinProps ParticleModel ParticleProps ParticleProps2.
Import ListNotations.
Open Scope Z_scope.
Open Scope list_scope.

(* ---------------- C03: particles ---------------- *)
(* what the class calls a meson: the ranges of quantum numbers of a quark-antiquark pair, and
   G = (-1)^I C for neutral ones; spins in units of hbar/2 *)
Definition mesonNumbers (p : pprops) : Prop :=
  -1 <= pCharge p <= 1 /\ pB p = 0 /\ pI p <= 2 /\ -1 <= pS p <= 1 /\ -1 <= pCharm p <= 1 /\ -1 <= pBeauty p <= 1 /\
  (exists J, pJ p = 2 * J) /\ isSign (pP p) /\ -1 <= pC p <= 1 /\
  (pCharge p = 0 -> pG p = minusOnePow (pI p / 2) * pC p).

Lemma isMeson_spec p : 0 <= pI p -> (isMeson p = true <-> mesonNumbers p).
Proof.
  intros HI. unfold isMeson, mesonNumbers, isSign. rewrite !andb_true_iff, orb_true_iff, negb_true_iff.
  rewrite !Z.leb_le, !Z.eqb_eq, Z.eqb_neq. rewrite minusOnePow_odd.
  rewrite (Z.quot_div_nonneg (pI p) 2) by lia.
  assert (E : isEven (pJ p) = true <-> exists J, pJ p = 2 * J).
  { unfold isEven, isOdd. rewrite negb_true_iff. split.
    - intros H. apply odd_false_div2 in H. exact H.
    - intros [k ->]. rewrite Z.odd_mul. reflexivity. }
  rewrite E. split.
  - intros (((((((((H1 & H2) & H3) & H4) & H5) & H6) & H7) & H8) & H9) & H10).
    split; [lia|]. split; [exact H2|]. split; [lia|]. split; [lia|]. split; [lia|]. split; [lia|].
    split; [exact H7|]. split; [lia|]. split; [lia|]. intros Q. destruct H10 as [H|H]; [lia|exact H].
  - intros (H1 & H2 & H3 & H4 & H5 & H6 & H7 & H8 & H9 & H10).
    split; [split; [split; [split; [split; [split; [split; [split; [split|]|]|]|]|]|]|]|];
      try lia; exact H7.
Qed.

(* a particle is called spin-exotic exactly if it is a meson with integer isospin and defined G parity whose quantum
   numbers no quark-antiquark state has *)
Theorem C03_particle_exotic_exact : forall p, normalised p ->
  (isSpinExotic p = true <->
   mesonNumbers p /\ exists I J, pI p = 2 * I /\ pJ p = 2 * J /\ pG p <> 0 /\ ~ quarkModelIGJP I (pG p) J (pP p)).
Proof.
  intros p N. unfold isSpinExotic. rewrite andb_true_iff, (isMeson_spec p) by apply N. split.
  - intros [M E]. split; [exact M|].
    assert (G : (pP p =? 0) || (pG p =? 0) || (pI p <? 0) || isOdd (pI p) || (pJ p <? 0) || isOdd (pJ p) = false).
    { unfold igjpIsExotic in E. destruct ((pP p =? 0) || (pG p =? 0) || (pI p <? 0) || isOdd (pI p) || (pJ p <? 0) || isOdd (pJ p)); [discriminate E|reflexivity]. }
    rewrite !orb_false_iff in G. destruct G as (((((G1 & G2) & G3) & G4) & G5) & G6).
    unfold isOdd in G4, G6. apply odd_false_div2 in G4 as [i Ei]. apply odd_false_div2 in G6 as [j Ej].
    apply Z.eqb_neq in G2. exists i, j. split; [exact Ei|]. split; [exact Ej|]. split; [exact G2|].
    rewrite Ei, Ej in E. apply C03_igjp_exotic_iff_not_quark_model; auto.
    + pose proof (n_I p N); lia.
    + pose proof (n_J p N); lia.
    + apply M.
    + pose proof (n_G p N). unfold isSign. lia.
  - intros [M (i & j & Ei & Ej & G & Q)]. split; [exact M|]. rewrite Ei, Ej.
    apply C03_igjp_exotic_iff_not_quark_model; auto.
    + pose proof (n_I p N); lia.
    + pose proof (n_J p N); lia.
    + apply M.
    + pose proof (n_G p N). unfold isSign. lia.
Qed.

(* an exotic meson 1^-(1^-+), and a particle with the same isospin, G, J and P that is no meson *)
Definition pi1 : pprops := PP (lit "pi1") (lit "pi1") 0 2 (2 * 2)%R 0 0 2 0 0 0 (-1) 2 (-1) 1 [].
Example C03_particle_ex : normalised pi1 /\ isSpinExotic pi1 = true /\ isSpinExotic (setBaryonNmb 1 pi1) = false.
Proof.
  split; [|split; vm_compute; reflexivity].
  assert (W : ~ endsWith chargeChar (lit "pi1")).
  { intros (s & c & E & H). change (lit "pi1") with (["p"%char; "i"%char] ++ ["1"%char]) in E. apply app_inj_tail in E as [_ <-].
    destruct H as [H|[H|H]]; discriminate H. }
  constructor; cbn; try lia; auto; split; auto; discriminate.
Qed.

(* ---------------- C20: filling a particle from the table ---------------- *)
(* looking up a name finds the entry of exactly that name; only if there is none and the name carries no
   charge, the neutral particle of that name; other names are never returned *)
Theorem C20_fill_by_name : forall ps n, n <> [] ->
  ((exists p, In p ps /\ name p = n) -> fillFromDataTable (addAll ps) n = Some (firstNamed n ps)) /\
  ((forall p, In p ps -> name p <> n) -> ~ endsWith chargeChar n ->
     fillFromDataTable (addAll ps) n = Some (firstNamed (n ++ ["0"%char]) ps)) /\
  ((forall p, In p ps -> name p <> n) -> endsWith chargeChar n -> (1 < length n)%nat ->
     fillFromDataTable (addAll ps) n = Some None).
Proof.
  intros ps n Hn. split; [|split].
  - intros H. unfold fillFromDataTable. rewrite (proj2 (C20_isInTable_exact ps n) H).
    rewrite C20_first_definition_wins. reflexivity.
  - intros H E. unfold fillFromDataTable.
    destruct (isInTable (addAll ps) n) eqn:I; [apply C20_isInTable_exact in I as (p & I1 & I2); exfalso; exact (H p I1 I2)|].
    unfold stripChargeFromName. rewrite C17_no_suffix_is_neutral by auto. cbn [bindP].
    rewrite str_eqb_refl, C20_first_definition_wins. reflexivity.
  - intros H E L. unfold fillFromDataTable.
    destruct (isInTable (addAll ps) n) eqn:I; [apply C20_isInTable_exact in I as (p & I1 & I2); exfalso; exact (H p I1 I2)|].
    assert (F : firstNamed n ps = None).
    { unfold firstNamed. destruct (find _ ps) as [p|] eqn:F; [|reflexivity].
      apply find_some in F as [F1 F2]. apply str_eqb_eq in F2. exfalso; exact (H p F1 F2). }
    assert (S : exists s, stripChargeFromName n = Some s /\ (length s < length n)%nat).
    { destruct E as (s & c & -> & Hc). unfold stripChargeFromName, chargeFromName. rewrite rev_app_distr. cbn [rev app].
      rewrite app_length in *. cbn [length] in *.
      assert (K : Ascii.eqb c "+" || Ascii.eqb c "0" || Ascii.eqb c "-" = true) by (destruct Hc as [->|[->| ->]]; reflexivity).
      rewrite K. destruct (rev s) as [|d r] eqn:R.
      - apply (f_equal (@length _)) in R. rewrite rev_length in R. cbn in R. lia.
      - assert (LR : length s = S (length r)) by (rewrite <- (rev_length s), R; reflexivity).
        destruct (castDigit d =? 0); cbn [bindP]; eexists; (split; [reflexivity|]);
          rewrite rev_length; cbn [length]; lia. }
    destruct S as (s & S1 & S2). rewrite S1. cbn [bindP].
    destruct (str_eqb n s) eqn:Q; [apply str_eqb_eq in Q; subst; lia|].
    rewrite C20_first_definition_wins, F. reflexivity.
Qed.

Example C20_fill_ex : fillFromDataTable (addAll [kaon; pi1]) (lit "pi1") = Some (Some pi1)
  /\ fillFromDataTable (addAll [kaon; pi1]) (lit "K+") = Some (Some kaon)
  /\ fillFromDataTable (addAll [kaon; pi1]) (lit "K") = Some None
  /\ fillFromDataTable (addAll [kaon; pi1]) (lit "pi1-") = Some None.
Proof. repeat split; vm_compute; reflexivity. Qed.
