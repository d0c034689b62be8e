(* Proofs about WaveSetModel, used in WaveSetProps. *)
From Coq Require Import String List ZArith QArith Bool Reals Lia Lra Permutation Sorted.
From Verif Require Import PathModel StrModel SpinModel SpinSpec SpinProofs SpinProps CGModel CGSpec CGProofs ParticleModel ParticleProps ParticleProps2 PhysModel WaveSetModel WaveSetSpec.
Import ListNotations.
Open Scope list_scope. Open Scope Z_scope.

(* ---------------- lists of results ---------------- *)
Lemma concatO_in {A B} (f : A -> option (list B)) l r : concatO f l = Some r ->
  (forall y, In y r <-> exists x ys, In x l /\ f x = Some ys /\ In y ys) /\ (forall x, In x l -> exists ys, f x = Some ys).
Proof.
  revert r. induction l as [|a l IH]; intros r H; cbn [concatO] in H.
  - injection H as <-. split; [|intros x []]. intros y. split; [intros []|intros (x & ys & [] & _)].
  - destruct (f a) as [u|] eqn:E; cbn [bindP] in H; [|discriminate H]. destruct (concatO f l) as [v|]; cbn [bindP] in H; [|discriminate H].
    injection H as <-. destruct (IH v eq_refl) as [I1 I2]. split.
    + intros y. rewrite in_app_iff, I1. split.
      * intros [H|(x & ys & H1 & H2 & H3)]; [exists a, u; split; [now left|auto]|exists x, ys; split; [now right|auto]].
      * intros (x & ys & [<-|H1] & H2 & H3); [left; congruence|right; eauto].
    + intros x [<-|H]; eauto.
Qed.
Lemma concatO_total {A B} (f : A -> option (list B)) l : (forall x, In x l -> exists ys, f x = Some ys) -> exists r, concatO f l = Some r.
Proof.
  induction l as [|a l IH]; intros H; cbn [concatO]; [eauto|]. destruct (H a (or_introl eq_refl)) as [u ->]. cbn [bindP].
  destruct IH as [v ->]; [intros x Hx; apply H; now right|]. cbn [bindP]. eauto.
Qed.
Lemma concatO_NoDup {A B} (f : A -> option (list B)) l r : concatO f l = Some r -> NoDup l ->
  (forall x ys, In x l -> f x = Some ys -> NoDup ys) ->
  (forall x x' ys ys' y, In x l -> In x' l -> f x = Some ys -> f x' = Some ys' -> In y ys -> In y ys' -> x = x') -> NoDup r.
Proof.
  revert r. induction l as [|a l IH]; intros r H HN H1 H2; cbn [concatO] in H.
  - injection H as <-. constructor.
  - destruct (f a) as [u|] eqn:E; cbn [bindP] in H; [|discriminate H]. destruct (concatO f l) as [v|] eqn:Ev; cbn [bindP] in H; [|discriminate H].
    injection H as <-. apply NoDup_cons_iff in HN as [Ha HN].
    assert (NV : NoDup v) by (apply IH; auto; [intros x ys Hx; apply H1; now right|intros x x' ys ys' y Hx Hx'; apply H2; now right]).
    assert (NU : NoDup u) by (apply (H1 a); [now left|exact E]).
    destruct (concatO_in f l v Ev) as [I _].
    assert (D : forall y, In y u -> ~ In y v).
    { intros y Hy Hv. apply I in Hv as (x & ys & Hx & Ex & Hys). apply Ha. rewrite (H2 a x u ys y); auto; [now left|now right]. }
    clear - NU NV D. induction u as [|y u IH]; [exact NV|]. apply NoDup_cons_iff in NU as [Hy NU]. cbn. constructor.
    + rewrite in_app_iff. intros [X|X]; [tauto|]. apply (D y); [now left|exact X].
    + apply IH; [exact NU|]. intros z Hz. apply D. now right.
Qed.

(* ---------------- loops ---------------- *)
Lemma loop_sorted_NoDup (l : list Z) : StronglySorted Z.lt l -> NoDup l.
Proof.
  intros H. induction H as [|x l H1 IH H2]; constructor; [|exact IH]. intros X. rewrite Forall_forall in H2. specialize (H2 x X). lia.
Qed.
Lemma spinLoop_NoDup r : NoDup (spinLoop r).
Proof. apply loop_sorted_NoDup. apply loopStep2_sorted. Qed.
Lemma LLoop_in r L : (forall k, 0 < fst r -> fst r <> 2 * k + 1) ->
  (In L (spinLoop (Z.max 0 (fst r), snd r)) <-> (exists l, 0 <= l /\ L = 2 * l) /\ inRange r L).
Proof.
  intros HL. rewrite spinLoop_In. cbn [fst snd]. unfold inRange.
  assert (HE : exists k, 0 <= k /\ Z.max 0 (fst r) = 2 * k).
  { destruct (Z.le_gt_cases (fst r) 0); [exists 0; lia|]. destruct (Z.Even_or_Odd (fst r)) as [[k Hk]|[k Hk]]; [exists k; lia|]. exfalso. apply (HL k); lia. }
  destruct HE as (k & Hk & E). rewrite E. split.
  - intros (j & Hj & -> & Hle). split; [exists (k + j); lia|lia].
  - intros ((l & Hl & ->) & H). exists (l - k). lia.
Qed.

(* ---------------- the single rules ---------------- *)
Lemma can_spec j1 m1 j2 m2 J M b : spinStatesCanCouple j1 m1 j2 m2 J M = Some b ->
  (b = true <-> cgAdmissible j1 m1 j2 m2 J M /\ ~ (sumQ (Z.to_nat (J + M + 1)) (wignerTerm j1 m1 j2 m2 J M) == 0)%Q).
Proof.
  intros H. assert (B : j1 < 18 /\ j2 < 18 /\ J < 18).
  { unfold spinStatesCanCouple, cgCall in H. change (cgUse cgInit) with true in H. change cgMaxJ with 18 in H. cbn [andb] in H.
    destruct ((18 <=? j1) || (18 <=? j2) || (18 <=? J)) eqn:E; [discriminate H|]. rewrite !orb_false_iff in E. lia. }
  destruct (C05_spinStatesCanCouple_with_projections j1 m1 j2 m2 J M) as (b' & E & Hb); try tauto.
  rewrite E in H. injection H as <-. exact Hb.
Qed.
Lemma half_quot n k : 0 <= n -> n = 2 * k -> Z.quot n 2 = k.
Proof. intros H ->. rewrite Z.mul_comm, Z.quot_mul by lia. reflexivity. Qed.
Lemma sign_cases x : Z.abs x <= 1 -> x <> 0 -> isSign x.
Proof. unfold isSign. lia. Qed.
Lemma pow_abs n : Z.abs (minusOnePow n) = 1.
Proof. unfold minusOnePow. destruct (Z.even n); reflexivity. Qed.
Lemma exotic_spec I G J P : 0 <= I -> 0 <= J -> Z.abs G <= 1 -> Z.abs P <= 1 ->
  (igjpIsExotic I G J P = false <-> forall i j, I = 2 * i -> J = 2 * j -> G <> 0 -> P <> 0 -> quarkModelIGJP i G j P).
Proof.
  intros HI HJ HG HP. split.
  - intros E i j -> -> H1 H2. apply Classical_Prop.NNPP. intros N.
    apply (proj2 (igjpIsExotic_correct i G j P ltac:(lia) ltac:(lia) (sign_cases P HP H2) (sign_cases G HG H1))) in N. congruence.
  - intros H. destruct (igjpIsExotic I G J P) eqn:E; [|reflexivity]. exfalso. unfold igjpIsExotic in E.
    destruct ((P =? 0) || (G =? 0) || (I <? 0) || isOdd I || (J <? 0) || isOdd J) eqn:E0; [discriminate E|]. rewrite !orb_false_iff in E0.
    destruct E0 as (((((EP & EG) & _) & OI) & _) & OJ). unfold isOdd in OI, OJ.
    destruct (odd_false_div2 _ OI) as [i Hi]. destruct (odd_false_div2 _ OJ) as [j Hj].
    assert (HP' : P <> 0) by lia. assert (HG' : G <> 0) by lia. specialize (H i j Hi Hj HG' HP').
    assert (X : igjpIsExotic (2 * i) G (2 * j) P = true).
    { rewrite <- Hi, <- Hj. unfold igjpIsExotic, isOdd. rewrite OI, OJ.
      replace (P =? 0) with false by lia. replace (G =? 0) with false by lia. replace (I <? 0) with false by lia. replace (J <? 0) with false by lia. exact E. }
    apply (igjpIsExotic_correct i G j P ltac:(lia) ltac:(lia) (sign_cases P HP HP') (sign_cases G HG HG')) in X. tauto.
Qed.
Lemma decR_true x y : decR x y = true <-> x = y.
Proof. unfold decR. destruct (Req_EM_T x y); split; congruence. Qed.
Lemma isEqualTo_spec p q : isEqualTo p q = true <->
  name p = name q /\ antiPartName p = antiPartName q /\ pCharge p = pCharge q /\ pMass p = pMass q /\ pWidth p = pWidth q /\ pB p = pB q /\ pI p = pI q /\
  pS p = pS q /\ pCharm p = pCharm q /\ pBeauty p = pBeauty q /\ pG p = pG q /\ pJ p = pJ q /\ pP p = pP q /\ pC p = pC q.
Proof. unfold isEqualTo. rewrite !andb_true_iff, !str_eqb_eq, !decR_true, !Z.eqb_eq. tauto. Qed.
Lemma pair_spec t d1 d2 a : normalised d2 -> antiPartProperties t false d2 = Some a -> (isEqualTo a d1 = true <-> antiPair d1 d2).
Proof.
  intros N E. destruct (C18_conjugation_flips_charges t d2 N) as (a' & E' & Ca & _). rewrite E in E'. injection E' as <-.
  rewrite isEqualTo_spec. destruct Ca as [[N1 N2] _ Q B S c b _ m _ w I G J P C]. rewrite N1, N2, Q, B, S, c, b, m, w, I, G, J, P, C. unfold antiPair.
  split; intros H; repeat match goal with H : _ /\ _ |- _ => destruct H end; repeat (split; [congruence|]); congruence.
Qed.
Lemma same_spec p q : partEqual p q = true <-> sameParticle p q.
Proof. unfold partEqual, sameParticle. rewrite !andb_true_iff, isEqualTo_spec, !Z.eqb_eq. cbv zeta. tauto. Qed.

(* parity of the sum of equal spins *)
Lemma couples_even j J : couples j j J -> exists k, 0 <= k /\ J = 2 * k.
Proof. intros (H1 & H2 & k & Hk & -> & _). exists k. rewrite Z.sub_diag. cbn. lia. Qed.
Lemma couples_nonneg a b J : couples a b J -> 0 <= J.
Proof. intros (H1 & H2 & k & Hk & -> & _). lia. Qed.
Lemma couples_parity a b J : couples a b J -> exists k, J = a + b + 2 * k.
Proof. intros (H1 & H2 & k & Hk & -> & _). destruct (Z.abs_spec (a - b)) as [[_ ->]|[_ ->]]; [exists (k - b)|exists (k - a)]; lia. Qed.

(* ---------------- mass dependences ---------------- *)
Definition reqVal (template : str) (r : option str) : str := match r with None => template | Some s => s end.
Definition reqStep (known : str -> bool) (template : str) (st : option (list str * list str)) (r : option str) : option (list str * list str) :=
  match r with
  | Some md => massDepStep known st md
  | None => doP s <- st; if inStr bwName (fst s) then Some s else Some ([] :: bwName :: fst s, snd s ++ [template])
  end.
Lemma inStr_In x l : inStr x l = true <-> In x l.
Proof. unfold inStr. rewrite existsb_exists. split; [intros (y & H & E); apply str_eqb_eq in E; congruence|intros H; exists x; split; [exact H|apply str_eqb_refl]]. Qed.
Lemma some_fold known template L : forall st, fold_left (massDepStep known) L st = fold_left (reqStep known template) (map Some L) st.
Proof. induction L as [|x L IH]; intros st; [reflexivity|]. cbn [map fold_left]. apply IH. Qed.
Lemma none_fold known L : fold_left (massDepStep known) L None = None.
Proof. induction L as [|x L IH]; [reflexivity|]. exact IH. Qed.
Lemma modes_fold known iso dm template st : fold_left (fun st mode =>
      doP s <- st;
      if negb (decayEq mode dm) then Some s
      else match dmMassDeps mode with
           | [] => if inStr bwName (fst s) then Some s else Some ([] :: bwName :: fst s, snd s ++ [template])
           | l => fold_left (massDepStep known) l (Some s)
           end) (pDecays iso) st = fold_left (reqStep known template) (requested iso dm) st.
Proof.
  unfold requested. revert st. induction (pDecays iso) as [|m ms IH]; intros st; [reflexivity|]. cbn [fold_left flat_map]. rewrite IH, fold_left_app.
  match goal with |- fold_left ?f ?l ?a = fold_left ?f ?l ?b => assert (E : a = b); [|rewrite E; reflexivity] end.
  destruct st as [s|]; cbn [bindP].
  - destruct (decayEq m dm); cbn [negb]; [|reflexivity]. destruct (dmMassDeps m) as [|a l]; [reflexivity|]. exact (some_fold known template (a :: l) (Some s)).
  - destruct (decayEq m dm); [|reflexivity]. destruct (dmMassDeps m) as [|a l]; [reflexivity|]. rewrite <- some_fold. symmetry. apply none_fold.
Qed.
Lemma rev_case {A} (l : list A) : l = [] \/ exists t x, l = t ++ [x].
Proof. destruct (rev l) as [|x t] eqn:E; [left|right]; rewrite <- (rev_involutive l), E; [reflexivity|]. exists (rev t), x. reflexivity. Qed.
Definition fresh (before : list (option str)) (r : option str) : Prop := forall r', In r' before -> meaning r' <> meaning r.
Lemma nil_bw : [] <> bwName. Proof. discriminate. Qed.
Lemma meaning_some x : meaning (Some x) = if str_eqb x [] then bwName else x.
Proof. destruct x; reflexivity. Qed.
Lemma reqs_inv known template l : forall st, fold_left (reqStep known template) l (Some ([], [])) = Some st ->
  (forall x, In x (fst st) <-> exists r, In r l /\ meaning r = meaning (Some x)) /\
  (forall m, In m (snd st) <-> exists b r a, l = b ++ r :: a /\ m = reqVal template r /\ fresh b r) /\
  (l <> [] -> snd st <> []) /\ (template = bwName -> NoDup (snd st)).
Proof.
  induction l as [|r l IH] using rev_ind; intros st H.
  - injection H as <-. cbn. split; [|split; [|split; [tauto|intros _; constructor]]].
    + intros x. split; [tauto|]. intros (r & [] & _).
    + intros m. split; [tauto|]. intros (b & r & a & E & _). destruct b; discriminate.
  - rewrite fold_left_app in H. cbn [fold_left] in H. destruct (fold_left (reqStep known template) l (Some ([], []))) as [[used res]|] eqn:E; [|destruct r; discriminate H].
    destruct (IH _ eq_refl) as (U & R & NE & ND). cbn [fst snd] in *. clear IH.
    (* a request is fresh iff its meaning is not among the used ones *)
    assert (FR : forall x, meaning (Some x) = meaning r -> (In x used <-> ~ fresh l r)).
    { intros x Hx. rewrite U. split.
      - intros (r' & Hr & E1) F. apply (F r' Hr). congruence.
      - intros F. apply Classical_Prop.NNPP. intros N. apply F. intros r' Hr E1. apply N. exists r'. split; [exact Hr|congruence]. }
    assert (OLD : forall m, (exists b r' a, l ++ [r] = b ++ r' :: a /\ m = reqVal template r' /\ fresh b r') <->
                  In m res \/ (m = reqVal template r /\ fresh l r)).
    { intros m. rewrite R. split.
      - intros (b & r' & a & E1 & Em & F). destruct (rev_case a) as [Ha|(a' & y & Ha)].
        + subst a. change (b ++ [r']) with (b ++ [r'] ++ []) in E1. rewrite app_nil_r in E1. apply app_inj_tail in E1 as [-> ->]. right. auto.
        + subst a. left. rewrite app_comm_cons, app_assoc in E1. apply app_inj_tail in E1 as [-> ->]. exists b, r', a'. auto.
      - intros [(b & r' & a & -> & Em & F)|[-> F]]; [exists b, r', (a ++ [r]); split; [now rewrite <- app_assoc|auto]|exists l, r, []; auto]. }
    (* one step either finds the meaning used, or adds the request *)
    assert (ST : (~ fresh l r /\ st = (used, res)) \/
                 (fresh l r /\ snd st = res ++ [reqVal template r] /\ forall x, In x (fst st) <-> In x used \/ meaning (Some x) = meaning r)).
    { destruct r as [md|]; cbn [reqStep massDepStep bindP fst snd] in H.
      - destruct (inStr md used) eqn:EI.
        + left. split; [apply (FR md eq_refl); now apply inStr_In|congruence].
        + right. destruct (known md); [|discriminate H]. cbn [negb] in H. injection H as <-. cbn [fst snd reqVal].
          split; [|split; [reflexivity|]].
          * apply Classical_Prop.NNPP. intros N. apply (FR md eq_refl) in N. apply inStr_In in N. congruence.
          * intros x. rewrite !meaning_some. destruct (str_eqb md bwName) eqn:Eb.
            -- apply str_eqb_eq in Eb. subst md. change (str_eqb bwName []) with false. cbn [In].
               destruct (str_eqb x []) eqn:Ex; [apply str_eqb_eq in Ex; subst x; tauto|]. apply str_eqb_neq in Ex.
               split; [intros [X|[X|X]]; [congruence|auto|auto]|intros [X|X]; [auto|right; left; congruence]].
            -- destruct (str_eqb md []) eqn:En.
               ++ apply str_eqb_eq in En. subst md. cbn [In]. destruct (str_eqb x []) eqn:Ex; [apply str_eqb_eq in Ex; subst x; tauto|]. apply str_eqb_neq in Ex.
                  split; [intros [X|[X|X]]; [right; congruence|congruence|auto]|intros [X|X]; [auto|left; congruence]].
               ++ cbn [In]. apply str_eqb_neq in Eb. apply str_eqb_neq in En. destruct (str_eqb x []) eqn:Ex; [apply str_eqb_eq in Ex; subst x|];
                  (split; [intros [X|X]; [right; congruence|auto]|intros [X|X]; [auto|left; congruence]]).
      - destruct (inStr bwName used) eqn:EI.
        + left. split; [apply (FR bwName eq_refl); now apply inStr_In|congruence].
        + right. injection H as <-. cbn [fst snd reqVal]. split; [|split; [reflexivity|]].
          * apply Classical_Prop.NNPP. intros N. apply (FR bwName eq_refl) in N. apply inStr_In in N. congruence.
          * intros x. rewrite meaning_some. cbn [In meaning]. destruct (str_eqb x []) eqn:Ex; [apply str_eqb_eq in Ex; subst x; tauto|]. apply str_eqb_neq in Ex.
            split; [intros [X|[X|X]]; [congruence|auto|auto]|intros [X|X]; [auto|right; left; congruence]]. }
    split; [|split; [|split]].
    + intros x. destruct ST as [[N ->]|(F & _ & I)]; cbn [fst].
      * rewrite U. split; [intros (r' & Hr & E1); exists r'; split; [apply in_app_iff; now left|exact E1]|].
        intros (r' & Hr & E1). apply in_app_iff in Hr as [Hr|[<-|[]]]; [eauto|]. apply U. apply (FR x); [now rewrite E1|exact N].
      * rewrite I, U. split.
        -- intros [(r' & Hr & E1)|E1]; [exists r'; split; [apply in_app_iff; now left|exact E1]|exists r; split; [apply in_app_iff; right; now left|congruence]].
        -- intros (r' & Hr & E1). apply in_app_iff in Hr as [Hr|[<-|[]]]; [left; eauto|right; congruence].
    + intros m. rewrite OLD. destruct ST as [[N ->]|(F & -> & _)]; cbn [snd].
      * tauto.
      * rewrite in_app_iff. cbn [In]. intuition.
    + intros _. destruct ST as [[N ->]|(F & -> & _)]; cbn [snd]; [|intros X; now apply app_eq_nil in X as [_ X]].
      intros ->. apply N. intros r' Hr. destruct l as [|z l]; [destruct Hr|]. exfalso. apply NE; [discriminate|reflexivity].
    + intros HT. specialize (ND HT). destruct ST as [[N ->]|(F & -> & _)]; cbn [snd]; [exact ND|].
      apply (Permutation_NoDup (Permutation_cons_append res _)). constructor; [|exact ND].
      intros X. apply R in X as (b & r' & a & -> & Ev & _). apply (F r'); [apply in_app_iff; right; now left|].
      subst template. destruct r as [[|]|], r' as [[|]|]; cbn [reqVal meaning] in *; congruence.
Qed.
Lemma setMassDeps_spec known iso dm template l : setMassDeps known iso dm template = Some l ->
  (forall m, In m l <-> massDepChoice iso dm template m) /\ (template = bwName -> NoDup l).
Proof.
  unfold setMassDeps. rewrite modes_fold. intros H. destruct (fold_left _ (requested iso dm) _) as [st|] eqn:E; [|discriminate H]. cbn [bindP] in H.
  destruct (reqs_inv known template _ _ E) as (_ & R & NE & ND). unfold massDepChoice.
  destruct (snd st) as [|m0 ms] eqn:Es.
  - injection H as <-. assert (Hr : requested iso dm = []) by (destruct (requested iso dm); [reflexivity|]; exfalso; apply NE; [discriminate|reflexivity]).
    split; [|intros _; repeat constructor; auto]. intros m. rewrite Hr. cbn. split; [intros [<-|[]]; now left|]. intros [[_ ->]|(b & r & a & X & _)]; [now left|destruct b; discriminate X].
  - assert (Hl : l = m0 :: ms) by congruence. rewrite Hl. split; [|exact ND]. intros m. rewrite R. split; [intros (b & r & a & X); right; exists b, r, a; exact X|].
    intros [[X _]|X]; [|exact X]. exfalso. assert (Y : In m0 (m0 :: ms)) by now left. rewrite R, X in Y. destruct Y as (b & r & a & Y & _). destruct b; discriminate Y.
Qed.
Lemma setMassDeps_total known iso dm template : (forall m, In m (pDecays iso) -> Forall (fun s => known s = true) (dmMassDeps m)) ->
  exists l, setMassDeps known iso dm template = Some l.
Proof.
  intros H. unfold setMassDeps. rewrite modes_fold.
  assert (HR : forall s, In (Some s) (requested iso dm) -> known s = true).
  { intros s Hs. unfold requested in Hs. apply in_flat_map in Hs as (m & Hm & Hs). destruct (decayEq m dm); [|destruct Hs].
    specialize (H m Hm). rewrite Forall_forall in H. apply H. destruct (dmMassDeps m) as [|a l]; [destruct Hs as [Hs|[]]; discriminate Hs|].
    apply in_map_iff in Hs as (x & Ex & Hx). congruence. }
  assert (G : forall l st, (forall s, In (Some s) l -> known s = true) -> exists st', fold_left (reqStep known template) l (Some st) = Some st').
  { clear. intros l. induction l as [|r l IH]; intros st Hk; [cbn; eauto|]. cbn [fold_left].
    assert (exists st1, reqStep known template (Some st) r = Some st1) as [st1 ->].
    { destruct st as [u v]. destruct r as [s|]; cbn [reqStep massDepStep bindP fst snd].
      - destruct (inStr s u); [eauto|]. rewrite (Hk s) by now left. cbn [negb]. eauto.
      - destruct (inStr bwName u); eauto. }
    apply IH. intros s Hs. apply Hk. now right. }
  destruct (G (requested iso dm) ([], []) HR) as [st ->]. cbn [bindP]. destruct (snd st); eauto.
Qed.
