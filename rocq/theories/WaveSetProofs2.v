(* Proofs about WaveSetModel, second part: the quantum-number loops. *)
From Coq Require Import String List ZArith QArith Bool Reals Lia Lra Permutation Sorted.
From Verif Require Import PathModel StrModel SpinModel SpinSpec SpinProofs SpinProps CGModel CGSpec CGProofs ParticleModel ParticleProps ParticleProps2 PhysModel PhysProps WaveSetModel WaveSetSpec WaveSetProofs.
Import ListNotations.
Open Scope list_scope. Open Scope Z_scope.

Lemma pm1 n : powMinusOne n = minusOnePow n.
Proof. unfold powMinusOne, minusOnePow. rewrite <- Z.negb_odd. destruct (Z.odd n); reflexivity. Qed.
Lemma mop_add a b : minusOnePow (a + b) = minusOnePow a * minusOnePow b.
Proof. rewrite <- !pm1. apply powMinusOne_add. Qed.
Lemma mop_sq a : minusOnePow a * minusOnePow a = 1.
Proof. unfold minusOnePow. destruct (Z.even a); reflexivity. Qed.
Lemma mop_opp a : minusOnePow (- a) = minusOnePow a.
Proof. unfold minusOnePow. now rewrite Z.even_opp. Qed.

(* ---------------- spin projection and reflectivity of X ---------------- *)
Lemma mloop_spec c J M : 0 <= J -> (cUseRefl c = true -> exists j, J = 2 * j) ->
  (In M (spinLoop (spinQnLargerEqual (if cUseRefl c then spinQnSmallerEqual J 0 else - J) (fst (cM c)), spinQnSmallerEqual J (snd (cM c)))) <->
   isProjOf J M /\ inRange (cM c) M /\ (cUseRefl c = true -> 0 <= M)).
Proof.
  intros HJ HE. rewrite spinLoop_In. cbn [fst snd]. unfold inRange, isProjOf.
  set (b := if cUseRefl c then spinQnSmallerEqual J 0 else - J).
  assert (Hb : exists k, b = J + 2 * k /\ - J <= b <= J /\ (cUseRefl c = true -> b = 0) /\ (cUseRefl c = false -> b = - J)).
  { unfold b. destruct (cUseRefl c) eqn:E.
    - destruct (HE eq_refl) as [j Hj]. pose proof (smallerEqual_spec J 0) as H. cbv zeta in H. destruct H as (H1 & H2 & (k & H3) & H4).
      pose proof (H4 0 (- j) ltac:(lia) ltac:(lia) ltac:(lia)). exists k. repeat split; try lia; try congruence.
    - exists (- J). repeat split; try lia; congruence. }
  clearbody b. destruct Hb as (kb & Eb & Hb & B1 & B2).
  pose proof (largerEqual_spec b (fst (cM c))) as Hl. pose proof (smallerEqual_spec J (snd (cM c))) as Hs. cbv zeta in Hl, Hs.
  destruct Hl as (Hl1 & Hl2 & (kl & Hl3) & Hl4). destruct Hs as (Hs1 & Hs2 & (ks & Hs3) & Hs4).
  split.
  - intros (k & Hk & HM & Hle). split; [|split; [lia|]].
    + split; [lia|]. exists (J + kb + kl + k). lia.
    + intros U. specialize (B1 U). lia.
  - intros ((_ & k & Hk & HM) & Hr & HU).
    assert (Hbm : b <= M) by (destruct (cUseRefl c); [specialize (B1 eq_refl); specialize (HU eq_refl)|specialize (B2 eq_refl)]; lia).
    pose proof (Hl4 M (k - J - kb) ltac:(lia) ltac:(lia) ltac:(lia)).
    pose proof (Hs4 M (k - J) ltac:(lia) ltac:(lia) ltac:(lia)).
    exists (k - J - kb - kl). lia.
Qed.
Lemma rloop_spec c refl : 
  In refl (spinLoop (if cUseRefl c then (if cRefl c =? 0 then (-1, 1) else (signum (cRefl c), signum (cRefl c))) else (0, 0))) <->
  (if cUseRefl c then isSign refl /\ (cRefl c <> 0 -> refl = Z.sgn (cRefl c)) else refl = 0).
Proof.
  rewrite spinLoop_In. destruct (cUseRefl c).
  - destruct (Z.eqb_spec (cRefl c) 0) as [E|E]; cbn [fst snd]; unfold isSign.
    + split.
      * intros (k & Hk & -> & Hl). split; [lia|]. tauto.
      * intros [[->| ->] _]; [exists 1|exists 0]; lia.
    + assert (ES : signum (cRefl c) = Z.sgn (cRefl c)) by (unfold signum; destruct (Z.ltb_spec (cRefl c) 0), (Z.ltb_spec 0 (cRefl c)); lia).
      rewrite ES. split.
      * intros (k & Hk & -> & Hl). split; lia.
      * intros [_ H]. rewrite (H E). exists 0. lia.
  - cbn [fst snd]. split; [intros (k & Hk & -> & Hl); lia|intros ->; exists 0; lia].
Qed.
Lemma newParent_total parent iso q : Z.abs q <= 9 ->
  newParent parent iso q = Some (Part (PP (pName iso) (pAnti iso) q (pMass iso) (pMass2 iso) (pWidth iso) (pB iso) (pI iso) (pS iso) (pCharm iso) (pBeauty iso)
             (pG iso) (pJ iso) (pP iso) (pC iso) (pDecays iso)) (ptM parent) (ptIndex parent) (ptRefl parent)).
Proof. intros H. unfold newParent, setCharge. replace (Z.abs q <? 10) with true by lia. reflexivity. Qed.
Lemma reflFactor_zero J P j refl : J = 2 * j -> Z.abs P <= 1 -> isSign refl -> (reflectivityFactor J P 0 refl =? 1) = false <-> refl * P * minusOnePow j <> 1.
Proof.
  intros -> HP HR. rewrite Z.eqb_neq. destruct (Z.eq_dec P 0) as [->|N].
  - rewrite (proj1 (C10_inadmissible_arguments_give_zero (2 * j) 0 0 refl)) by (left; unfold isSign; lia). rewrite Z.mul_0_r. lia.
  - pose proof (C10_reflectivity_factor_value (2 * j) P j refl (sign_cases P HP N) HR ltac:(lia)) as E. rewrite Z.sub_diag in E. rewrite E. tauto.
Qed.
Lemma emitX_total c parent md prop q L S J P x1 x2 : Z.abs q <= 9 -> exists ys, emitX c parent md prop q L S J P x1 x2 = Some ys.
Proof.
  intros Hq. unfold emitX. apply concatO_total. intros M _. apply concatO_total. intros refl _. destruct (_ && _); [eauto|]. rewrite newParent_total by exact Hq. cbn [bindP]. eauto.
Qed.
Lemma emitX_spec c parent md prop q L S J P x1 x2 ys : 0 <= J -> Z.abs q <= 9 -> Z.abs P <= 1 -> (cUseRefl c = true -> exists j, J = 2 * j) ->
  emitX c parent md prop q L S J P x1 x2 = Some ys ->
  (forall x, In x ys <-> exists M refl, allowedMRefl c J P M refl /\
     x = DNode (Part (PP (pName prop) (pAnti prop) q (pMass prop) (pMass2 prop) (pWidth prop) (pB prop) (pI prop) (pS prop) (pCharm prop) (pBeauty prop)
             (pG prop) (pJ prop) (pP prop) (pC prop) (pDecays prop)) M (ptIndex parent) refl) L S md x1 x2) /\ NoDup ys.
Proof.
  intros HJ Hq HP HE H. unfold emitX in H.
  set (BODY := fun M refl => if cUseRefl c && (M =? 0) && (reflectivityFactor J P M refl =? 1) then Some []
    else doP p <- newParent parent prop q; Some [DNode (Part (ptP p) M (ptIndex p) refl) L S md x1 x2]) in *.
  set (RR := if cUseRefl c then (if cRefl c =? 0 then (-1, 1) else (signum (cRefl c), signum (cRefl c))) else (0, 0)) in *.
  assert (EB : forall M refl, BODY M refl = Some (if cUseRefl c && (M =? 0) && (reflectivityFactor J P M refl =? 1) then [] else
     [DNode (Part (PP (pName prop) (pAnti prop) q (pMass prop) (pMass2 prop) (pWidth prop) (pB prop) (pI prop) (pS prop) (pCharm prop) (pBeauty prop)
             (pG prop) (pJ prop) (pP prop) (pC prop) (pDecays prop)) M (ptIndex parent) refl) L S md x1 x2])).
  { intros M refl. unfold BODY. rewrite newParent_total by exact Hq. cbn [bindP ptP ptIndex]. destruct (_ && _); reflexivity. }
  assert (IN : forall M zs, concatO (fun refl => BODY M refl) (spinLoop RR) = Some zs -> forall x, In x zs <-> exists refl, In refl (spinLoop RR) /\
     cUseRefl c && (M =? 0) && (reflectivityFactor J P M refl =? 1) = false /\
     x = DNode (Part (PP (pName prop) (pAnti prop) q (pMass prop) (pMass2 prop) (pWidth prop) (pB prop) (pI prop) (pS prop) (pCharm prop) (pBeauty prop)
             (pG prop) (pJ prop) (pP prop) (pC prop) (pDecays prop)) M (ptIndex parent) refl) L S md x1 x2).
  { intros M zs Hz x. rewrite (proj1 (concatO_in _ _ _ Hz) x). split.
    - intros (refl & l & Hr & E & Hx). rewrite EB in E. injection E as <-. exists refl. destruct (_ && _); [destruct Hx|]. destruct Hx as [<-|[]]. auto.
    - intros (refl & Hr & E & ->). exists refl. eexists. split; [exact Hr|]. rewrite EB, E. split; [reflexivity|now left]. }
  split.
  - intros x. rewrite (proj1 (concatO_in _ _ _ H) x). split.
    + intros (M & l & HM & E & Hx). apply (IN M l E) in Hx as (refl & Hr & Ez & ->). exists M, refl. split; [|reflexivity].
      apply mloop_spec in HM; [|exact HJ|exact HE]. apply rloop_spec in Hr. destruct HM as (H1 & H2 & H3). split; [exact H1|]. split; [exact H2|].
      destruct (cUseRefl c); [|exact Hr]. split; [auto|]. split; [apply Hr|]. split; [apply Hr|]. intros -> j Ej. cbn [andb Z.eqb] in Ez.
      apply (reflFactor_zero J P j refl); auto. apply Hr.
    + intros (M & refl & (H1 & H2 & H3) & ->). exists M.
      assert (HM : In M (spinLoop (spinQnLargerEqual (if cUseRefl c then spinQnSmallerEqual J 0 else - J) (fst (cM c)), spinQnSmallerEqual J (snd (cM c))))).
      { apply mloop_spec; auto. split; [exact H1|]. split; [exact H2|]. intros U. rewrite U in H3. apply H3. }
      assert (HR : In refl (spinLoop RR)) by (unfold RR; apply rloop_spec; destruct (cUseRefl c); [tauto|exact H3]).
      destruct (proj2 (concatO_in _ _ _ H) M HM) as [l El]. exists l. split; [exact HM|]. split; [exact El|]. apply (IN M l El). exists refl. split; [exact HR|]. split; [|reflexivity].
      destruct (cUseRefl c) eqn:U; [|reflexivity]. destruct (Z.eqb_spec M 0) as [->|]; [|reflexivity]. cbn [andb]. destruct (HE eq_refl) as [j Hj].
      apply (reflFactor_zero J P j refl); [exact Hj|exact HP|apply H3|apply H3; [reflexivity|exact Hj]].
  - eapply concatO_NoDup; [exact H|apply spinLoop_NoDup| |].
    + intros M l _ El. eapply concatO_NoDup; [exact El|apply spinLoop_NoDup| |].
      * intros refl u _ Eu. change (BODY M refl = Some u) in Eu. rewrite EB in Eu. injection Eu as <-. destruct (_ && _); repeat constructor. intros [].
      * intros r r' u u' y _ _ Eu Eu' Hy Hy'. change (BODY M r = Some u) in Eu. change (BODY M r' = Some u') in Eu'. rewrite EB in Eu, Eu'. injection Eu as <-. injection Eu' as <-.
        match type of Hy with In y (if ?b then _ else _) => destruct b; [destruct Hy|destruct Hy as [Hy|[]]] end.
        match type of Hy' with In y (if ?b then _ else _) => destruct b; [destruct Hy'|destruct Hy' as [Hy'|[]]] end. congruence.
    + intros M M' l l' y _ _ El El' Hy Hy'. apply (IN M l El) in Hy as (r & _ & _ & ->). apply (IN M' l' El') in Hy' as (r' & _ & _ & E). congruence.
Qed.

(* ---------------- isobars ---------------- *)
Lemma table_NoDup ps : NoDup (map snd (addAll ps)).
Proof.
  destruct (C20_table_in_name_order ps) as [Hs K].
  assert (G : forall t, StronglySorted key_lt t -> (forall k p, In (k, p) t -> k = name p) -> NoDup (map snd t)).
  { clear. intros t Hs. induction Hs as [|[k p] t Hs IH F]; intros Hn; [constructor|]. cbn [map snd]. constructor.
    - intros X. apply in_map_iff in X as ([k' p'] & E & HI). cbn [snd] in E. subst p'. rewrite Forall_forall in F. specialize (F _ HI). unfold key_lt in F. cbn [fst] in F.
      rewrite (Hn k p (or_introl eq_refl)), (Hn k' p (or_intror HI)) in F. rewrite str_ltb_irrefl in F. discriminate F.
    - apply IH. intros k' p' HI. apply Hn. now right. }
  apply G; [exact Hs|]. intros k p HI. apply (K k p HI).
Qed.
Lemma mk_nonempty a b L S : (0 <? Z.of_nat (length (dmDaughters (mkDecay [a; b] L S)))) = true.
Proof. unfold mkDecay. cbn [dmDaughters]. unfold ms_of. cbn. destruct (str_ltb b a); reflexivity. Qed.

Lemma newParent_iso parent iso q : Z.abs q <= 9 -> pCharge iso = q -> newParent parent iso q = Some (Part iso (ptM parent) (ptIndex parent) (ptRefl parent)).
Proof. intros H <-. rewrite newParent_total by exact H. destruct iso; reflexivity. Qed.
Definition candidate ps c (prop : pprops) (d1 d2 : pprops) L S p : Prop :=
  entry (addAll ps) (name p) = Some p /\ selEq p prop (lit "allQn"%string) = true /\ isCandidate c d1 d2 L S p.
Lemma candidates_spec ps c prop d1 d2 L S p :
  In p (entriesMatching (addAll ps) prop (lit "allQn"%string) (if cMinMass c then (pMass d1 - cSigma c * pWidth d1) + (pMass d2 - cSigma c * pWidth d2) else 0)%R
          (cSigma c) (cWhite c) (cBlack c) (mkDecay [name d1; name d2] L S) (cForce c)) <-> candidate ps c prop d1 d2 L S p.
Proof.
  rewrite C58_matching_entries_exact, mk_nonempty. cbn [andb]. unfold candidate, isCandidate. cbv zeta.
  assert (EM : ((0 < if cMinMass c then (pMass d1 - cSigma c * pWidth d1) + (pMass d2 - cSigma c * pWidth d2) else 0)%R ->
      ((if cMinMass c then (pMass d1 - cSigma c * pWidth d1) + (pMass d2 - cSigma c * pWidth d2) else 0) <= pMass p + cSigma c * pWidth p)%R) <->
    (cMinMass c = true -> (0 < (pMass d1 - cSigma c * pWidth d1) + (pMass d2 - cSigma c * pWidth d2))%R ->
     ((pMass d1 - cSigma c * pWidth d1) + (pMass d2 - cSigma c * pWidth d2) <= pMass p + cSigma c * pWidth p)%R)).
  { destruct (cMinMass c); split; intros H; [intros _; exact H|exact (H eq_refl)|discriminate|intros X; exfalso; lra]. }
  rewrite EM. clear EM. destruct (pDecays p) as [|m ms].
  - cbn [length Z.of_nat Z.ltb Z.compare]. intuition congruence.
  - assert (E : (0 <? Z.of_nat (length (m :: ms))) = true) by (apply Z.ltb_lt; cbn [List.length]; lia). rewrite E. assert (m :: ms <> []) by discriminate. intuition congruence.
Qed.
Lemma emitIsobar_spec ps known c parent md prop q L S x1 x2 ys : Z.abs q <= 9 -> pCharge prop = q ->
  emitIsobar (addAll ps) known c parent md prop q L S x1 x2 = Some ys ->
  (forall x, In x ys <-> exists p m, candidate ps c prop (ptP (topPart x1)) (ptP (topPart x2)) L S p /\
     massDepChoice p (mkDecay [name (ptP (topPart x1)); name (ptP (topPart x2))] L S) md m /\
     x = DNode (Part p (ptM parent) (ptIndex parent) (ptRefl parent)) L S m x1 x2) /\ (md = bwName -> NoDup ys).
Proof.
  intros Hq HC H. unfold emitIsobar in H.
  set (BODY := fun iso => doP p <- newParent parent iso q;
    doP mds <- setMassDeps known iso (mkDecay [name (ptP (topPart x1)); name (ptP (topPart x2))] L S) md;
    Some (map (fun m => DNode p L S m x1 x2) mds)) in *.
  assert (EB : forall p l, candidate ps c prop (ptP (topPart x1)) (ptP (topPart x2)) L S p -> BODY p = Some l ->
     exists mds, setMassDeps known p (mkDecay [name (ptP (topPart x1)); name (ptP (topPart x2))] L S) md = Some mds /\
       l = map (fun m => DNode (Part p (ptM parent) (ptIndex parent) (ptRefl parent)) L S m x1 x2) mds).
  { intros p l (_ & Hsel & _) E. unfold BODY in E. apply C58_allQn_checks_everything in Hsel. rewrite newParent_iso in E by (try exact Hq; destruct Hsel; congruence).
    cbn [bindP] in E. destruct (setMassDeps _ _ _ _) as [mds|]; [|discriminate E]. cbn [bindP] in E. exists mds. split; [reflexivity|congruence]. }
  destruct (concatO_in _ _ _ H) as [IN TOT]. split.
  - intros x. rewrite IN. split.
    + intros (p & l & Hp & E & Hx). apply candidates_spec in Hp. destruct (EB p l Hp E) as (mds & Em & ->). apply in_map_iff in Hx as (m & <- & Hm).
      exists p, m. split; [exact Hp|]. split; [|reflexivity]. apply (setMassDeps_spec _ _ _ _ _ Em). exact Hm.
    + intros (p & m & Hp & Hm & ->). pose proof Hp as Hc. apply candidates_spec in Hp. destruct (TOT p Hp) as [l El]. exists p, l. split; [exact Hp|]. split; [exact El|].
      destruct (EB p l Hc El) as (mds & Em & ->). apply in_map_iff. exists m. split; [reflexivity|]. apply (setMassDeps_spec _ _ _ _ _ Em). exact Hm.
  - intros Hmd. eapply concatO_NoDup; [exact H| | |].
    + apply NoDup_filter. apply table_NoDup.
    + intros p l Hp El. apply candidates_spec in Hp. destruct (EB p l Hp El) as (mds & Em & ->). destruct (setMassDeps_spec _ _ _ _ _ Em) as [_ ND].
      specialize (ND Hmd). apply FinFun.Injective_map_NoDup; [|exact ND]. intros a b E. congruence.
    + intros p p' l l' y Hp Hp' El El' Hy Hy'. apply candidates_spec in Hp. apply candidates_spec in Hp'.
      destruct (EB p l Hp El) as (mds & _ & ->). destruct (EB p' l' Hp' El') as (mds' & _ & ->).
      apply in_map_iff in Hy as (m & <- & _). apply in_map_iff in Hy' as (m' & E & _). congruence.
Qed.
Lemma emitIsobar_total ps known c parent md prop q L S x1 x2 : Z.abs q <= 9 ->
  (forall p, In p ps -> forall m, In m (pDecays p) -> Forall (fun s => known s = true) (dmMassDeps m)) ->
  exists ys, emitIsobar (addAll ps) known c parent md prop q L S x1 x2 = Some ys.
Proof.
  intros Hq HK. unfold emitIsobar. apply concatO_total. intros p Hp. apply candidates_spec in Hp. destruct Hp as (He & _). rewrite newParent_total by exact Hq. cbn [bindP].
  rewrite C20_first_definition_wins in He. unfold firstNamed in He. apply find_some in He as [Hin _].
  destruct (setMassDeps_total known p (mkDecay [name (ptP (topPart x1)); name (ptP (topPart x2))] L S) md (HK p Hin)) as [l ->]. cbn [bindP]. eauto.
Qed.

(* ---------------- one combination of quantum numbers ---------------- *)
Definition rules (c : cfg) (p1 p2 : particle) (S L J I : Z) : Prop :=
  (let i1 := isospinProj (ptP p1) in let i2 := isospinProj (ptP p2) in
   cgAdmissible (pI (ptP p1)) i1 (pI (ptP p2)) i2 I (i1 + i2) /\
   ~ (sumQ (Z.to_nat (I + (i1 + i2) + 1)) (wignerTerm (pI (ptP p1)) i1 (pI (ptP p2)) i2 I (i1 + i2)) == 0)%Q) /\
  (cExotic c = true \/ forall i j l, I = 2 * i -> J = 2 * j -> L = 2 * l ->
       let G := pG (ptP p1) * pG (ptP p2) in let P := pP (ptP p1) * pP (ptP p2) * minusOnePow l in
       G <> 0 -> P <> 0 -> quarkModelIGJP i G j P) /\
  (antiPair (ptP p1) (ptP p2) -> forall n, I + L + S = 2 * n -> pG (ptP p1) * pG (ptP p2) = minusOnePow n) /\
  (sameParticle p1 p2 -> forall n, I + L + S = 2 * n -> minusOnePow n = minusOnePow (pI (ptP p1))).
Lemma allowed_rules c p1 p2 S L J I : allowedVertex c p1 p2 S L J I <->
  (couples (pJ (ptP p1)) (pJ (ptP p2)) S /\ inRange (cS c) S) /\ ((exists l, 0 <= l /\ L = 2 * l) /\ inRange (cL c) L) /\
  (couples L S J /\ inRange (cJ c) J) /\ (couples (pI (ptP p1)) (pI (ptP p2)) I /\ inRange (cI c) I) /\ rules c p1 p2 S L J I.
Proof. unfold rules. split; [intros [A1 A2 A3 A4 A5 A6 A7 A8]; tauto|intros (A1 & A2 & A3 & A4 & A5 & A6 & A7 & A8); split; assumption]. Qed.

Definition qnG (x1 x2 : decay) : Z := pG (ptP (topPart x1)) * pG (ptP (topPart x2)).
Definition qnP (x1 x2 : decay) (L : Z) : Z := pP (ptP (topPart x1)) * pP (ptP (topPart x2)) * powMinusOne (Z.quot L 2).
Definition qnC (x1 x2 : decay) (I : Z) : Z :=
  let d1 := ptP (topPart x1) in let d2 := ptP (topPart x2) in
  let B := pB d1 + pB d2 in let Q := pCharge d1 + pCharge d2 in let St := pS d1 + pS d2 in
  let ch := pCharm d1 + pCharm d2 in let be := pBeauty d1 + pBeauty d2 in
  if (B =? 0) && (2 * Q - (B + St + ch + be) =? 0) && (St =? 0) && (ch =? 0) && (be =? 0) then qnG x1 x2 * powMinusOne (Z.quot I 2) else 0.
Definition qnProp (parent : particle) (x1 x2 : decay) (L J I : Z) : pprops :=
  let d1 := ptP (topPart x1) in let d2 := ptP (topPart x2) in
  isobarProps (ptP parent) (pB d1 + pB d2) (pS d1 + pS d2) (pCharm d1 + pCharm d2) (pBeauty d1 + pBeauty d2) I (qnG x1 x2) J (qnP x1 x2 L) (qnC x1 x2 I).
Definition emit t known c parent md x1 x2 S L J I : option (list decay) :=
  let Q := pCharge (ptP (topPart x1)) + pCharge (ptP (topPart x2)) in
  if isXParticle (ptP parent) then emitX c parent md (qnProp parent x1 x2 L J I) Q L S J (qnP x1 x2 L) x1 x2
  else emitIsobar t known c parent md (qnProp parent x1 x2 L J I) Q L S x1 x2.

Lemma abs_mul a b : Z.abs a <= 1 -> Z.abs b <= 1 -> Z.abs (a * b) <= 1.
Proof. intros. rewrite Z.abs_mul. nia. Qed.
Lemma qnP_abs x1 x2 L : normalised (ptP (topPart x1)) -> normalised (ptP (topPart x2)) -> Z.abs (qnP x1 x2 L) <= 1.
Proof.
  intros N1 N2. unfold qnP. apply abs_mul; [apply abs_mul; [apply N1|apply N2]|]. rewrite pm1. rewrite pow_abs. lia.
Qed.
Lemma qnG_abs x1 x2 : normalised (ptP (topPart x1)) -> normalised (ptP (topPart x2)) -> Z.abs (qnG x1 x2) <= 1.
Proof. intros N1 N2. unfold qnG. apply abs_mul; [apply N1|apply N2]. Qed.
Lemma qnC_abs x1 x2 I : normalised (ptP (topPart x1)) -> normalised (ptP (topPart x2)) -> Z.abs (qnC x1 x2 I) <= 1.
Proof.
  intros N1 N2. unfold qnC. cbv zeta. destruct (_ && _); [|cbn; lia]. apply abs_mul; [now apply qnG_abs|]. rewrite pm1, pow_abs. lia.
Qed.
Lemma pair_even p1 p2 S l I : couples (pJ (ptP p1)) (pJ (ptP p2)) S -> couples (pI (ptP p1)) (pI (ptP p2)) I -> pJ (ptP p1) = pJ (ptP p2) -> pI (ptP p1) = pI (ptP p2) ->
  exists i s, I = 2 * i /\ S = 2 * s /\ I + 2 * l + S = 2 * (i + l + s) /\ 0 <= i /\ 0 <= s.
Proof. intros HS HI EJ EI. rewrite EJ in HS. rewrite EI in HI. apply couples_even in HS as (s & ? & ->). apply couples_even in HI as (i & ? & ->). exists i, s. lia. Qed.

Lemma tryQn_eq t known c parent md x1 x2 S L J I a :
  normalised (ptP (topPart x1)) -> normalised (ptP (topPart x2)) -> couples (pJ (ptP (topPart x1))) (pJ (ptP (topPart x2))) S -> (exists l, 0 <= l /\ L = 2 * l) -> couples L S J ->
  couples (pI (ptP (topPart x1))) (pI (ptP (topPart x2))) I ->
  spinStatesCanCouple (pI (ptP (topPart x1))) (isospinProj (ptP (topPart x1))) (pI (ptP (topPart x2))) (isospinProj (ptP (topPart x2))) I
    (isospinProj (ptP (topPart x1)) + isospinProj (ptP (topPart x2))) = Some a ->
  (rules c (topPart x1) (topPart x2) S L J I /\ tryQn t known c parent md x1 x2 S L J I = emit t known c parent md x1 x2 S L J I) \/
  (~ rules c (topPart x1) (topPart x2) S L J I /\ tryQn t known c parent md x1 x2 S L J I = Some []).
Proof.
  intros N1 N2 HS (l & Hl & EL) HJ HI HA. pose proof (couples_nonneg _ _ _ HJ) as J0. pose proof (couples_nonneg _ _ _ HI) as I0.
  unfold tryQn. cbv zeta. set (p1 := topPart x1) in *. set (p2 := topPart x2) in *.
  assert (EIz : 2 * (pCharge (ptP p1) + pCharge (ptP p2)) - (pB (ptP p1) + pB (ptP p2) + (pS (ptP p1) + pS (ptP p2)) + (pCharm (ptP p1) + pCharm (ptP p2)) + (pBeauty (ptP p1) + pBeauty (ptP p2)))
    = isospinProj (ptP p1) + isospinProj (ptP p2)) by (unfold isospinProj; lia).
  rewrite EIz, HA. cbn [bindP]. pose proof (can_spec _ _ _ _ _ _ _ HA) as CS. unfold rules. cbv zeta.
  destruct a; cbn [negb].
  2:{ right. split; [|reflexivity]. intros (X & _). apply CS in X. discriminate X. }
  assert (CS' := proj1 CS eq_refl). clear CS.
  assert (EP : pP (ptP p1) * pP (ptP p2) * powMinusOne (Z.quot L 2) = pP (ptP p1) * pP (ptP p2) * minusOnePow l).
  { rewrite pm1, (half_quot L l) by lia. reflexivity. }
  pose proof (exotic_spec I (pG (ptP p1) * pG (ptP p2)) J (pP (ptP p1) * pP (ptP p2) * powMinusOne (Z.quot L 2)) I0 J0 (qnG_abs x1 x2 N1 N2) (qnP_abs x1 x2 L N1 N2)) as EX.
  assert (RX : negb (cExotic c) && igjpIsExotic I (pG (ptP p1) * pG (ptP p2)) J (pP (ptP p1) * pP (ptP p2) * powMinusOne (Z.quot L 2)) = false <->
     (cExotic c = true \/ forall i j l, I = 2 * i -> J = 2 * j -> L = 2 * l ->
       let G := pG (ptP p1) * pG (ptP p2) in let P := pP (ptP p1) * pP (ptP p2) * minusOnePow l in G <> 0 -> P <> 0 -> quarkModelIGJP i G j P)).
  { destruct (cExotic c); cbn [negb andb]; [tauto|]. rewrite EX, EP. cbv zeta. split.
    - intros H. right. intros i j l' Ei Ej El'. replace l' with l by lia. now apply H.
    - intros [H|H]; [discriminate H|]. intros i j Ei Ej. now apply (H i j l). }
  cbv zeta in RX. destruct (negb (cExotic c) && _) eqn:EE.
  { right. split; [|reflexivity]. intros (_ & X & _). apply RX in X. discriminate X. }
  assert (RX' := proj1 RX eq_refl). clear RX EX.
  destruct (C18_conjugation_flips_charges t (ptP p2) N2) as (an & Ean & _). rewrite Ean. cbn [bindP].
  pose proof (pair_spec t (ptP p1) (ptP p2) an N2 Ean) as PS.
  assert (RP : isEqualTo an (ptP p1) && negb (pG (ptP p1) * pG (ptP p2) =? powMinusOne (Z.quot (I + L + S) 2)) = false <->
     (antiPair (ptP p1) (ptP p2) -> forall n, I + L + S = 2 * n -> pG (ptP p1) * pG (ptP p2) = minusOnePow n)).
  { destruct (isEqualTo an (ptP p1)) eqn:EA; cbn [andb].
    - assert (AP := proj1 PS eq_refl). unfold antiPair in AP. destruct (pair_even p1 p2 S l I HS HI) as (i & s & Ei & Es & Et & Hi & Hs); try tauto.
      rewrite EL, Et, (half_quot (2 * (i + l + s)) (i + l + s)) by lia. rewrite negb_false_iff, Z.eqb_eq, pm1. split.
      + intros H _ n Hn. replace n with (i + l + s) by lia. exact H.
      + intros H. apply H; [now apply PS|lia].
    - split; [|reflexivity]. intros _ AP. apply PS in AP. discriminate AP. }
  destruct (isEqualTo an (ptP p1) && negb (_ =? powMinusOne (Z.quot (I + L + S) 2))) eqn:EA.
  { right. split; [|reflexivity]. intros (_ & _ & X & _). apply RP in X. discriminate X. }
  assert (RP' := proj1 RP eq_refl). clear RP.
  match goal with |- context [if ?b then None else _] => assert (ER : b = false) end.
  { destruct (isEqualTo an (ptP p1)); [|reflexivity]. assert (AP := proj1 PS eq_refl). pose proof AP as AP0.
    destruct AP as (_ & _ & Q & _ & _ & B & St & Ch & Be & EI & _ & EJ & _). destruct (pair_even p1 p2 S l I HS HI EJ EI) as (i & s & Ei & Es & Et & Hi & Hs).
    cbn [andb]. replace (pB (ptP p1) + pB (ptP p2) =? 0) with true by lia. replace (pS (ptP p1) + pS (ptP p2) =? 0) with true by lia.
    replace (pCharm (ptP p1) + pCharm (ptP p2) =? 0) with true by lia. replace (pBeauty (ptP p1) + pBeauty (ptP p2) =? 0) with true by lia.
    replace (isospinProj (ptP p1) + isospinProj (ptP p2) =? 0) with true by (unfold isospinProj; lia). cbn [andb]. rewrite negb_false_iff, Z.eqb_eq.
    rewrite (RP' AP0 (i + l + s)) by lia. rewrite (half_quot I i), (half_quot (L + S) (l + s)) by lia. rewrite !pm1.
    replace (i + l + s) with (i + (l + s)) by lia. rewrite (mop_add i). rewrite <- (Z.mul_1_l (minusOnePow (l + s))) at 2. rewrite <- (mop_sq i). ring. }
  rewrite ER. clear ER.
  pose proof (same_spec p1 p2) as SS.
  assert (RI : partEqual p1 p2 && negb (powMinusOne (Z.quot (I + L + S) 2) =? powMinusOne (pI (ptP p1))) = false <->
     (sameParticle p1 p2 -> forall n, I + L + S = 2 * n -> minusOnePow n = minusOnePow (pI (ptP p1)))).
  { destruct (partEqual p1 p2) eqn:EQ; cbn [andb].
    - assert (AP := proj1 SS eq_refl). unfold sameParticle in AP. cbv zeta in AP. destruct (pair_even p1 p2 S l I HS HI) as (i & s & Ei & Es & Et & Hi & Hs); try tauto.
      rewrite EL, Et, (half_quot (2 * (i + l + s)) (i + l + s)) by lia. rewrite negb_false_iff, Z.eqb_eq, !pm1. split.
      + intros H _ n Hn. replace n with (i + l + s) by lia. exact H.
      + intros H. apply H; [now apply SS|lia].
    - split; [|reflexivity]. intros _ AP. apply SS in AP. discriminate AP. }
  destruct (partEqual p1 p2 && _).
  { right. split; [|reflexivity]. intros (_ & _ & _ & X). apply RI in X. discriminate X. }
  left. split; [tauto|]. unfold emit, qnProp, qnC, qnG, qnP. cbv zeta. fold p1 p2. rewrite EIz. reflexivity.
Qed.
