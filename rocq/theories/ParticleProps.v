(* C17 (names and charges), C18 (antiparticles), C19 (decay modes) *)
From Coq Require Import String Ascii List ZArith NArith Bool Reals Permutation Lia.
From Verif Require Import PathModel StrModel DecModel SpinModel ParticleModel.
Import ListNotations.
Open Scope Z_scope.
Open Scope list_scope.

(* ---------------- specification ---------------- *)
Definition chargeChar (c : ascii) : Prop := c = "+"%char \/ c = "0"%char \/ c = "-"%char.
Definition nonzeroDigit (c : ascii) : Prop := In c (list_ascii_of_string "123456789").
Definition endsWith (P : ascii -> Prop) (s : str) : Prop := exists s' c, s = s' ++ [c] /\ P c.

(* ---------------- auxiliary ---------------- *)
Lemma nonzeroDigit_iff c : nonzeroDigit c <-> castDigit c <> 0.
Proof.
  unfold nonzeroDigit, castDigit.
  destruct c as [[] [] [] [] [] [] [] []]; cbn; split; intros H; try tauto; try congruence;
    try lia; repeat (destruct H as [H|H]; [discriminate H|]); try contradiction.
Qed.
Lemma castDigit_range c : 0 <= castDigit c <= 9.
Proof. destruct c as [[] [] [] [] [] [] [] []]; vm_compute; split; congruence. Qed.

Lemma digitVal_range c : isDigit c = true -> 0 <= digitVal c <= 9.
Proof. intros H. pose proof (castDigit_range c). unfold castDigit in *. rewrite H in *; lia. Qed.

Lemma castChar_big v : 10 <= v -> castChar v = [].
Proof.
  intros H. unfold castChar, showInt. destruct (Z.ltb_spec v 0); [lia|].
  destruct (showNN_spec v) as (N & D & V); [lia|].
  destruct (showNN v) as [|c [|c' l]]; auto. exfalso.
  cbn [forallb] in D. apply andb_true_iff in D as [D _]. pose proof (digitVal_range c D).
  unfold digitsVal in V. cbn [fold_left] in V. lia.
Qed.
Lemma castChar_small v : 2 <= v <= 9 -> exists c, castChar v = [c] /\ castDigit c = v.
Proof.
  intros H. assert (v = 2 \/ v = 3 \/ v = 4 \/ v = 5 \/ v = 6 \/ v = 7 \/ v = 8 \/ v = 9) as E by lia.
  repeat (destruct E as [->|E]; [eexists; split; reflexivity|]). subst; eexists; split; reflexivity.
Qed.
Lemma signStr_one q : exists c, signStr q = [c] /\ chargeChar c /\ signOfChar c = Z.sgn q.
Proof.
  unfold signStr, chargeChar. destruct (Z.ltb_spec q 0); [|destruct (Z.ltb_spec 0 q)].
  - eexists; split; [reflexivity|]. split; [tauto|]. cbn. symmetry; apply Z.sgn_neg; lia.
  - eexists; split; [reflexivity|]. split; [tauto|]. cbn. symmetry; apply Z.sgn_pos; lia.
  - eexists; split; [reflexivity|]. split; [tauto|]. replace q with 0 by lia. reflexivity.
Qed.
Lemma chargeChar_b c : chargeChar c -> Ascii.eqb c "+" || Ascii.eqb c "0" || Ascii.eqb c "-" = true.
Proof. intros [->|[->| ->]]; reflexivity. Qed.
Lemma chargeChar_b_inv c : Ascii.eqb c "+" || Ascii.eqb c "0" || Ascii.eqb c "-" = true -> chargeChar c.
Proof.
  unfold chargeChar. intros H. apply orb_true_iff in H as [H|H]; [apply orb_true_iff in H as [H|H]|];
    apply Ascii.eqb_eq in H; auto.
Qed.

Lemma rev_last {A} (s : list A) x : rev (s ++ [x]) = x :: rev s.
Proof. rewrite rev_app_distr; auto. Qed.

(* parse of "<x><c><sign>" *)
Lemma cfn_two x c sg : chargeChar sg -> chargeFromName (x ++ [c; sg]) =
  if castDigit c =? 0 then Some (x ++ [c], signOfChar sg) else Some (x, signOfChar sg * castDigit c).
Proof.
  intros H. unfold chargeFromName. change [c; sg] with ([c] ++ [sg]).
  rewrite app_assoc, !rev_last, chargeChar_b by auto.
  destruct (castDigit c =? 0); cbn [rev]; rewrite rev_involutive; auto.
Qed.
Lemma cfn_plain x c : ~ chargeChar c -> chargeFromName (x ++ [c]) = Some (x ++ [c], 0).
Proof.
  intros H. unfold chargeFromName. rewrite rev_last.
  destruct (Ascii.eqb c "+" || Ascii.eqb c "0" || Ascii.eqb c "-") eqn:E; auto.
  apply chargeChar_b_inv in E; contradiction.
Qed.
Lemma snoc_cases {A} (s : list A) : s = [] \/ exists s' c, s = s' ++ [c].
Proof. destruct s using rev_ind; eauto. Qed.

Lemma nwc_nonempty bare q : bare <> [] ->
  nameWithCharge bare q = bare ++ (if 1 <? Z.abs q then castChar (Z.abs q) else []) ++ signStr q.
Proof. destruct bare; [congruence|reflexivity]. Qed.

(* ---------------- C17 ---------------- *)
(* A charge appended to a name is recovered exactly if the bare name is not empty,
   |charge| <= 9, and a bare name that gets no multiplicity digit does not itself
   end in a digit 1-9. *)
Theorem C17_charge_round_trip_exact : forall bare q,
  chargeFromName (nameWithCharge bare q) = Some (bare, q) <->
  bare <> [] /\ Z.abs q <= 9 /\ (Z.abs q <= 1 -> ~ endsWith nonzeroDigit bare).
Proof.
  intros bare q. destruct (snoc_cases bare) as [->|(x & c & ->)].
  { cbn. split; [discriminate|intros [H _]; congruence]. }
  assert (NE : x ++ [c] <> []) by (destruct x; discriminate).
  rewrite nwc_nonempty by auto.
  destruct (signStr_one q) as (sg & -> & Hs & Hv).
  destruct (Z.ltb_spec 1 (Z.abs q)) as [Hq|Hq].
  - destruct (Z_le_gt_dec (Z.abs q) 9) as [H9|H9].
    + destruct (castChar_small (Z.abs q)) as (d & -> & Hd); [lia|].
      cbn [app]. rewrite cfn_two by auto. rewrite Hd, Hv.
      destruct (Z.eqb_spec (Z.abs q) 0); [lia|]. split.
      * intros _. split; [auto|]. split; [auto|lia].
      * intros _. do 2 f_equal. lia.
    + rewrite castChar_big by lia. cbn [app]. rewrite <- app_assoc; cbn [app]. rewrite cfn_two by auto.
      split; [|lia]. intros H. exfalso. pose proof (castDigit_range c).
      destruct (castDigit c =? 0); inversion H; nia.
  - cbn [app]. rewrite <- app_assoc; cbn [app]. rewrite cfn_two by auto. rewrite Hv.
    destruct (Z.eqb_spec (castDigit c) 0) as [E|E].
    + split.
      * intros _. split; [auto|]. split; [lia|]. intros _ (s' & c' & E' & Hc').
        apply app_inj_tail in E' as [_ <-]. apply nonzeroDigit_iff in Hc'. contradiction.
      * intros _. do 2 f_equal. lia.
    + split.
      * intros H. inversion H as [[H1 H2]]. exfalso. apply (f_equal (@length _)) in H1.
        rewrite app_length in H1; cbn in H1; lia.
      * intros (_ & _ & H). exfalso. apply H; [lia|]. exists x, c; split; auto. apply nonzeroDigit_iff; auto.
Qed.

(* The parse reads outside the string exactly for the empty name and for a name
   that consists of a single charge character. *)
Theorem C17_parse_undefined_exact : forall s,
  chargeFromName s = None <-> s = [] \/ exists c, s = [c] /\ chargeChar c.
Proof.
  intros s. destruct (snoc_cases s) as [->|(x & c & ->)]; [cbn; intuition|].
  unfold chargeFromName. rewrite rev_last.
  destruct (Ascii.eqb c "+" || Ascii.eqb c "0" || Ascii.eqb c "-") eqn:E.
  - apply chargeChar_b_inv in E. destruct (snoc_cases x) as [->|(y & d & ->)].
    + cbn. split; auto. intros _. right. eauto.
    + rewrite rev_last. split; [destruct (castDigit d =? 0); discriminate|].
      intros [H|(c' & H & _)]; apply (f_equal (@length _)) in H; rewrite !app_length in H; cbn in H; lia.
  - split; [discriminate|]. intros [H|(c' & H & Hc)].
    + apply (f_equal (@length _)) in H; rewrite app_length in H; cbn in H; lia.
    + destruct x; [inversion H; subst; apply chargeChar_b in Hc; congruence|].
      apply (f_equal (@length _)) in H. cbn in H. rewrite app_length in H; cbn in H; lia.
Qed.

(* a name without a charge suffix is kept as it is with charge 0; no parse ever
   gives a charge beyond 9, so setName cannot abort *)
Theorem C17_no_suffix_is_neutral : forall s, s <> [] -> ~ endsWith chargeChar s -> chargeFromName s = Some (s, 0).
Proof.
  intros s Hs H. destruct (snoc_cases s) as [->|(x & c & ->)]; [congruence|].
  apply cfn_plain. intros Hc; apply H. exists x, c; auto.
Qed.

Theorem C17_parsed_charge_is_storable : forall s b q p, chargeFromName s = Some (b, q) ->
  Z.abs q <= 9 /\ exists p', setName s p = Some p' /\ pName p' = b /\ pCharge p' = q.
Proof.
  intros s b q p H. assert (B : Z.abs q <= 9).
  { destruct (snoc_cases s) as [->|(x & c & ->)]; [discriminate|].
    unfold chargeFromName in H. rewrite rev_last in H.
    destruct (Ascii.eqb c "+" || Ascii.eqb c "0" || Ascii.eqb c "-") eqn:E; [|inversion H; lia].
    destruct (rev x) as [|d r]; [discriminate|]. pose proof (castDigit_range d).
    assert (Z.abs (signOfChar c) <= 1) by (unfold signOfChar; destruct (Ascii.eqb c "+"), (Ascii.eqb c "-"); cbn; lia).
    destruct (castDigit d =? 0); inversion H; subst; [lia|]. rewrite Z.abs_mul. nia. }
  split; auto. unfold setName. rewrite H. cbn [bindP]. unfold setCharge.
  destruct (Z.ltb_spec (Z.abs q) 10); [|lia]. eexists; split; [reflexivity|]. auto.
Qed.

(* non-vacuity, and what the naming rule of the header comment forbids *)
Example C17_ex : chargeFromName (nameWithCharge (lit "Delta(1232)") 2) = Some (lit "Delta(1232)", 2)
  /\ chargeFromName (nameWithCharge (lit "pi2") 1) = Some (lit "pi", 2)
  /\ nameWithCharge (lit "rho(770)") (-1) = lit "rho(770)-"
  /\ chargeFromName (nameWithCharge (lit "Q") 10) = Some (lit "Q", 1).
Proof. repeat split; vm_compute; reflexivity. Qed.

(* ---------------- C18 ---------------- *)
(* A record as the setters leave it: bare names carry no charge suffix. *)
Record normalised (p : pprops) : Prop := {
  n_name : pName p <> [] /\ ~ endsWith chargeChar (pName p);
  n_anti : pAnti p <> [] /\ ~ endsWith chargeChar (pAnti p);
  n_q : Z.abs (pCharge p) <= 9;
  n_m2 : pMass2 p = (pMass p * pMass p)%R;
  n_I : 0 <= pI p; n_J : 0 <= pJ p;
  n_G : Z.abs (pG p) <= 1; n_P : Z.abs (pP p) <= 1; n_C : Z.abs (pC p) <= 1 }.

(* the physical content of charge conjugation, stated on the fields and on the names *)
Record conjugate (p a : pprops) : Prop := {
  c_names : name a = antiPartName p /\ antiPartName a = name p;
  c_bare : pName a = pAnti p /\ pAnti a = pName p;
  c_q : pCharge a = - pCharge p;
  c_B : pB a = - pB p; c_S : pS a = - pS p; c_c : pCharm a = - pCharm p; c_b : pBeauty a = - pBeauty p;
  c_I3 : isospinProj a = - isospinProj p;
  c_m : pMass a = pMass p; c_m2 : pMass2 a = pMass2 p; c_w : pWidth a = pWidth p;
  c_I : pI a = pI p; c_G : pG a = pG p; c_J : pJ a = pJ p; c_P : pP a = pP p; c_C : pC a = pC p }.

Lemma signum_id z : Z.abs z <= 1 -> signum z = z.
Proof. unfold signum. destruct (Z.ltb_spec z 0), (Z.ltb_spec 0 z); lia. Qed.

Definition antiFields (p : pprops) : pprops :=
  PP (pAnti p) (pName p) (- pCharge p) (pMass p) (pMass p * pMass p)%R (pWidth p) (- pB p) (pI p) (- pS p)
     (- pCharm p) (- pBeauty p) (pG p) (pJ p) (pP p) (pC p) [].

Lemma anti_other t conv p : normalised p -> isItsOwnAntiPart p = false ->
  antiPartProperties t conv p =
  if conv then doP ds <- mapP (antiDecay t) (pDecays p); Some (setDecays ds (antiFields p))
  else Some (antiFields p).
Proof.
  intros N H. unfold antiPartProperties. rewrite H.
  unfold setName. rewrite (C17_no_suffix_is_neutral (pAnti p)) by (apply (n_anti p N)). cbn [bindP].
  unfold setCharge at 1. change (Z.abs 0 <? 10) with true. cbv iota. cbn [bindP].
  unfold setAntiPartName, stripChargeFromName.
  rewrite (C17_no_suffix_is_neutral (pName p)) by (apply (n_name p N)). cbn [bindP].
  unfold setCharge. pose proof (n_q p N). destruct (Z.ltb_spec (Z.abs (- pCharge p)) 10); [|lia]. cbn [bindP].
  destruct N as [_ _ _ _ NI NJ NG NP NC]. destruct p as [a1 a2 a3 a4 a5 a6 a7 a8 a9 b1 b2 b3 b4 b5 b6 b7].
  cbv [setC setP setJ setG setBeauty setCharm setStrangeness setIsospin setBaryonNmb setWidth setMass antiFields setDecays
       pName pAnti pCharge pMass pMass2 pWidth pB pI pS pCharm pBeauty pG pJ pP pC pDecays pDefault] in *.
  rewrite !signum_id by auto. rewrite !Z.abs_eq by auto. reflexivity.
Qed.

Lemma own_conj p a : conjugate p a -> isItsOwnAntiPart a = isItsOwnAntiPart p.
Proof.
  intros [[N1 N2] _ Q B S c b I3 _ _ _ I G J P C].
  unfold isItsOwnAntiPart, isMeson, isPhoton.
  rewrite N1, N2, Q, B, S, c, b, I3, I, G, J, P, C, !Z.abs_opp, (str_eqb_sym (antiPartName p)).
  assert (O : forall z, (- z =? 0) = (z =? 0)) by (intros z; destruct (Z.eqb_spec (- z) 0), (Z.eqb_spec z 0); lia).
  rewrite !O. reflexivity.
Qed.

Lemma conj_own p : normalised p -> isItsOwnAntiPart p = true -> conjugate p (setDecays [] p).
Proof.
  intros N H. unfold isItsOwnAntiPart in H. repeat (apply andb_true_iff in H; destruct H as [H ?]).
  repeat match goal with E : (_ =? _) = true |- _ => apply Z.eqb_eq in E end.
  match goal with E : str_eqb _ _ = true |- _ => apply str_eqb_eq in E; rename E into EN end.
  assert (bare : pName p = pAnti p).
  { unfold name, antiPartName in EN.
    rewrite (nwc_nonempty (pName p)), (nwc_nonempty (pAnti p)) in EN by apply N.
    match goal with E : pCharge p = 0 |- _ => rewrite E in EN end. cbn in EN.
    apply app_inj_tail in EN. tauto. }
  split; unfold name, antiPartName, isospinProj in *; cbn [setDecays pName pAnti pCharge pMass pMass2 pWidth pB pI pS pCharm pBeauty pG pJ pP pC]; auto; try lia.
Qed.

(* antiPartProperties gives the charge conjugate, and applying it twice gives the
   particle back (without decay modes, which are not copied). *)
Theorem C18_conjugation_flips_charges : forall t p, normalised p ->
  exists a, antiPartProperties t false p = Some a /\ conjugate p a /\ pDecays a = [] /\ normalised a.
Proof.
  intros t p N. destruct (isItsOwnAntiPart p) eqn:E.
  - exists (setDecays [] p). unfold antiPartProperties. rewrite E. split; [auto|].
    split; [apply conj_own; auto|]. split; [auto|]. destruct N; split; auto.
  - rewrite anti_other by auto. exists (antiFields p). split; [auto|]. split; [|split; [auto|]].
    + split; unfold name, antiPartName, isospinProj, antiFields;
        cbn [pName pAnti pCharge pMass pMass2 pWidth pB pI pS pCharm pBeauty pG pJ pP pC]; auto; try lia.
      * rewrite Z.opp_involutive; auto.
      * symmetry; apply N.
    + destruct N; split; cbn [antiFields pName pAnti pCharge pMass pMass2 pWidth pB pI pS pCharm pBeauty pG pJ pP pC]; auto; lia.
Qed.

Lemma conj_involutive p a b : conjugate p a -> conjugate a b -> pDecays b = [] -> b = setDecays [] p.
Proof.
  intros [_ [B1 B2] Q B S c bb I3 m m2 w I G J P C] [_ [B1' B2'] Q' B' S' c' bb' I3' m' m2' w' I' G' J' P' C'] D.
  destruct b; cbn in *. unfold setDecays.
  rewrite B1', B2, B2', B1, m', m, m2', m2, w', w, D, Q', Q, B', B, I', I, S', S, c', c, bb', bb, G', G, J', J, P', P, C', C, !Z.opp_involutive.
  reflexivity.
Qed.

Theorem C18_conjugation_is_an_involution : forall t p, normalised p ->
  exists a, antiPartProperties t false p = Some a /\ antiPartProperties t false a = Some (setDecays [] p).
Proof.
  intros t p N. destruct (C18_conjugation_flips_charges t p N) as (a & Ea & Ca & _ & Na).
  destruct (C18_conjugation_flips_charges t a Na) as (b & Eb & Cb & Db & _).
  exists a. split; auto. rewrite Eb. f_equal. eapply conj_involutive; eauto.
Qed.

(* Undefined exactly in these cases: a particle that is not its own antiparticle and
   whose antiparticle or own bare name is empty or a lone charge character. *)
Theorem C18_undefined_without_antiparticle_name : forall t p,
  isItsOwnAntiPart p = false -> pAnti p = [] -> antiPartProperties t false p = None.
Proof. intros t p H E. unfold antiPartProperties. rewrite H, E. reflexivity. Qed.

(* With conversion of decay modes: if the table knows every daughter together with
   its antiparticle, the twofold conjugate restores the decay modes as well. *)
Definition conjugableDaughter (t : table) (d : str) : Prop :=
  exists pd ad, entry t d = Some pd /\ entry t (antiPartName pd) = Some ad /\ antiPartName ad = d.

Lemma antiDaughter_in t d pd : entry t d = Some pd -> antiDaughter t d = Some (antiPartName pd).
Proof. intros H. unfold antiDaughter, fillFromDataTable, isInTable, entry in *. rewrite H. cbn [bindP]. reflexivity. Qed.

Lemma mapP_in {A B} (f : A -> option B) l ys : mapP f l = Some ys -> Forall2 (fun x y => f x = Some y) l ys.
Proof.
  revert ys; induction l as [|x l IH]; cbn [mapP]; intros ys H; [inversion H; auto|].
  destruct (f x) eqn:E; [|discriminate]. cbn [bindP] in H.
  destruct (mapP f l) eqn:E2; [|discriminate]. inversion H; subst. constructor; auto.
Qed.
Lemma mapP_ok {A B} (f : A -> option B) l : (forall x, In x l -> exists y, f x = Some y) -> exists ys, mapP f l = Some ys.
Proof.
  induction l as [|x l IH]; cbn [mapP]; intros H; eauto.
  destruct (H x) as [y ->]; [left; auto|]. cbn [bindP].
  destruct IH as [ys ->]; [intros; apply H; right; auto|]. cbn [bindP]. eauto.
Qed.
Lemma mapP_perm {A B} (f : A -> option B) l l' ys : Permutation l l' -> mapP f l = Some ys ->
  exists ys', mapP f l' = Some ys' /\ Permutation ys ys'.
Proof.
  intros P; revert ys; induction P; intros ys H.
  - exists ys; auto.
  - cbn [mapP] in *. destruct (f x); [|discriminate]. cbn [bindP] in *.
    destruct (mapP f l) eqn:E; [|discriminate]. inversion H; subst.
    destruct (IHP _ eq_refl) as (ys' & -> & P'). cbn [bindP]. eexists; split; [eauto|constructor; auto].
  - cbn [mapP] in *. destruct (f y); [|discriminate]. destruct (f x); [|discriminate].
    cbn [bindP] in *. destruct (mapP f l); [|discriminate]. cbn [bindP] in *. inversion H; subst.
    eexists; split; [eauto|constructor].
  - destruct (IHP1 _ H) as (y1 & H1 & P3). destruct (IHP2 _ H1) as (y2 & H2 & P4).
    exists y2; split; auto. eapply Permutation_trans; eauto.
Qed.

Lemma antiDaughters_twice t ds : (forall d, In d ds -> conjugableDaughter t d) ->
  exists ys, mapP (antiDaughter t) ds = Some ys /\ mapP (antiDaughter t) ys = Some ds.
Proof.
  induction ds as [|d ds IH]; intros H; [exists []; auto|].
  destruct IH as (ys & E1 & E2); [intros; apply H; right; auto|].
  destruct (H d) as (pd & ad & A1 & A2 & A3); [left; auto|].
  exists (antiPartName pd :: ys). cbn [mapP]. rewrite (antiDaughter_in _ _ _ A1), E1. cbn [bindP]. split; auto.
  rewrite (antiDaughter_in _ _ _ A2), E2, A3. reflexivity.
Qed.

Lemma antiDecay_twice t m : ms_of (dmDaughters m) = dmDaughters m ->
  (forall d, In d (dmDaughters m) -> conjugableDaughter t d) ->
  exists m', antiDecay t m = Some m' /\ antiDecay t m' = Some m.
Proof.
  intros S H. destruct (antiDaughters_twice t _ H) as (ys & E1 & E2).
  unfold antiDecay. rewrite E1. cbn [bindP]. eexists; split; [reflexivity|].
  cbn [dmDaughters dmL dmS dmMassDeps].
  destruct (ms_of_perm_sorted ys) as [P _].
  destruct (mapP_perm _ _ _ _ P E2) as (zs & -> & P2). cbn [bindP].
  apply ms_of_eq_iff in P2. destruct m; cbn in *. congruence.
Qed.

Theorem C18_conjugation_with_decays_is_an_involution : forall t p, normalised p ->
  (forall m, In m (pDecays p) -> exists ds, dmDaughters m = ms_of ds) ->
  (forall m d, In m (pDecays p) -> In d (dmDaughters m) -> conjugableDaughter t d) ->
  exists a, antiPartProperties t true p = Some a /\ antiPartProperties t true a = Some p.
Proof.
  intros t p N S H. destruct (isItsOwnAntiPart p) eqn:E.
  - exists p. unfold antiPartProperties. rewrite E. auto.
  - rewrite anti_other by auto.
    assert (G : exists ds, mapP (antiDecay t) (pDecays p) = Some ds /\ mapP (antiDecay t) ds = Some (pDecays p)).
    { clear N E. induction (pDecays p) as [|m l IH]; [exists []; auto|].
      destruct IH as (ds & E1 & E2); [intros; apply S; right; auto|intros; eapply H; [right|]; eauto|].
      destruct (antiDecay_twice t m) as (m' & M1 & M2).
      - destruct (S m) as [d0 ->]; [left; auto|]. apply ms_of_eq_iff. symmetry. apply ms_of_perm_sorted.
      - intros d Hd; eapply H; [left; auto|auto].
      - exists (m' :: ds). cbn [mapP]. rewrite M1, E1, M2, E2. auto. }
    destruct G as (ds & E1 & E2). rewrite E1. cbn [bindP]. eexists; split; [reflexivity|].
    destruct (C18_conjugation_flips_charges t p N) as (a & Ea & Ca & _ & Na).
    rewrite anti_other in Ea by auto. inversion Ea; subst a.
    assert (Ca' : conjugate p (setDecays ds (antiFields p))) by (destruct Ca; split; auto).
    assert (Na' : normalised (setDecays ds (antiFields p))) by (destruct Na; split; auto).
    rewrite anti_other; [|auto|rewrite (own_conj _ _ Ca'); auto].
    cbn [setDecays pDecays]. rewrite E2. cbn [bindP]. f_equal.
    destruct N, p; unfold antiFields, setDecays; cbn in *. f_equal; auto; lia.
Qed.

(* non-vacuity: a K+ conjugates to a K- and back *)
Definition kaon : pprops := PP (lit "K") (lit "K") 1 2 4 0 0 1 1 0 0 0 0 (-1) 0 [].
Example C18_ex : normalised kaon /\ isItsOwnAntiPart kaon = false /\
  antiPartProperties [] false kaon = Some (PP (lit "K") (lit "K") (-1) 2 (2 * 2)%R 0 0 1 (-1) 0 0 0 0 (-1) 0 []).
Proof.
  split; [|split; reflexivity].
  assert (W : ~ endsWith chargeChar (lit "K")).
  { intros (s & c & E & Hc). destruct s as [|a s]; [|destruct s; discriminate].
    inversion E; subst. destruct Hc as [X|[X|X]]; discriminate X. }
  split; cbn [kaon pName pAnti pCharge pMass pMass2 pI pJ pG pP pC];
    try (split; [discriminate|exact W]); try (vm_compute; congruence).
Qed.

(* ---------------- C19 ---------------- *)
Theorem C19_refl : forall m, decayEq m m = true.
Proof.
  intros m. unfold decayEq.
  rewrite (proj2 (list_eqb_eq _ _) eq_refl), !Z.eqb_refl. cbn. rewrite !andb_false_r. auto.
Qed.
Theorem C19_sym : forall m n, decayEq m n = decayEq n m.
Proof.
  intros m n. unfold decayEq.
  assert (S : list_eqb (dmDaughters m) (dmDaughters n) = list_eqb (dmDaughters n) (dmDaughters m)).
  { destruct (list_eqb (dmDaughters n) (dmDaughters m)) eqn:E.
    - apply list_eqb_eq in E; rewrite E. apply list_eqb_eq; auto.
    - destruct (list_eqb (dmDaughters m) (dmDaughters n)) eqn:E2; auto.
      apply list_eqb_eq in E2. rewrite E2, (proj2 (list_eqb_eq _ _) eq_refl) in E. discriminate. }
  rewrite S, (Z.eqb_sym (dmL m) (dmL n)), (Z.eqb_sym (dmS m) (dmS n)).
  destruct (dmL m =? -1), (dmL n =? -1), (dmS m =? -1), (dmS n =? -1); reflexivity.
Qed.
(* exact meaning: same daughters up to order; L and S agree unless one side leaves them open *)
Theorem C19_meaning : forall ds1 L1 S1 ds2 L2 S2,
  decayEq (mkDecay ds1 L1 S1) (mkDecay ds2 L2 S2) = true <->
  Permutation ds1 ds2 /\ (L1 = -1 \/ L2 = -1 \/ L1 = L2) /\ (S1 = -1 \/ S2 = -1 \/ S1 = S2).
Proof.
  intros. unfold decayEq, mkDecay; cbn [dmDaughters dmL dmS]. rewrite <- ms_of_eq_iff, <- list_eqb_eq.
  destruct (list_eqb (ms_of ds1) (ms_of ds2)); cbn [negb]; [|intuition discriminate].
  destruct (Z.eqb_spec L1 (-1)), (Z.eqb_spec L2 (-1)), (Z.eqb_spec L1 L2),
    (Z.eqb_spec S1 (-1)), (Z.eqb_spec S2 (-1)), (Z.eqb_spec S1 S2); cbn; intuition congruence.
Qed.
Theorem C19_not_transitive : exists a b c, decayEq a b = true /\ decayEq b c = true /\ decayEq a c = false.
Proof.
  exists (mkDecay [lit "pi+"; lit "pi-"] 0 0), (mkDecay [lit "pi-"; lit "pi+"] (-1) 0), (mkDecay [lit "pi+"; lit "pi-"] 2 0).
  repeat split; vm_compute; reflexivity.
Qed.
(* transitivity does hold for decays that specify both quantum numbers in the middle *)
Theorem C19_transitive_if_specified : forall a b c, dmL b <> -1 -> dmS b <> -1 ->
  decayEq a b = true -> decayEq b c = true -> dmL a <> -1 -> dmS a <> -1 -> decayEq a c = true.
Proof.
  intros a b c HL HS H1 H2 HLa HSa. unfold decayEq in *.
  destruct (list_eqb (dmDaughters a) (dmDaughters b)) eqn:E1; [|discriminate].
  destruct (list_eqb (dmDaughters b) (dmDaughters c)) eqn:E2; [|discriminate].
  apply list_eqb_eq in E1, E2. rewrite E1, E2, (proj2 (list_eqb_eq _ _) eq_refl). cbn [negb] in *.
  destruct (Z.eqb_spec (dmL a) (-1)), (Z.eqb_spec (dmL b) (-1)), (Z.eqb_spec (dmS a) (-1)), (Z.eqb_spec (dmS b) (-1)); try congruence.
  cbn [negb andb] in *.
  destruct (Z.eqb_spec (dmL a) (dmL b)); cbn [negb andb] in *; [|discriminate].
  destruct (Z.eqb_spec (dmS a) (dmS b)); cbn [negb andb] in *; [|discriminate].
  rewrite e, e0. exact H2.
Qed.
(* a search for a decay finds a listed one *)
Theorem C19_hasDecay_exact : forall p d,
  hasDecay p d = true <-> exists x, In x (pDecays p) /\ decayEq x d = true.
Proof. intros; unfold hasDecay; apply existsb_exists. Qed.
