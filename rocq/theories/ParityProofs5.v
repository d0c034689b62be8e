(* C75: decay amplitudes for mirrored momenta. *)
From Coq Require Import ZArith Reals List Bool Lia Lra Psatz Permutation.
From Coquelicot Require Import Complex.
From Verif Require Import SpinSpec CGSpec CGBoxModel CGProofs CGValProofs DFuncSpec DFuncProofs PhysModel PhaseModel PhaseSpec PhaseProofs FrameModel FrameSpec FrameProofs FrameProofs2 FrameProofs3 FrameProofs4 FrameProps FrameProps2 AmpModel AmpSpec AmpProofs AmpProofs2 AmpProofs3 AmpProofs4 AmpProps ParityModel ParitySpec ParityProofs ParityProofs2 ParityProofs3 ParityProofs4.
Import ListNotations.
Open Scope C_scope.

Fixpoint eps (t : topo) : C := match t with Fs _ => RtoC 1 | Iso _ v a b => sz (vL v / 2) * eps a * eps b end.

Lemma mirrorTree_root nx K u w t : mirrorTree nx K u w t -> w (root t) = mir K (u (root t)).
Proof. destruct t; cbn [mirrorTree]; tauto. Qed.
Lemma iso_parts (P : nat -> Prop) p v a b : (forall x, In x (allp (Iso p v a b)) -> P x) -> P p /\ (forall x, In x (allp a) -> P x) /\ (forall x, In x (allp b) -> P x).
Proof.
  intros H. split; [apply H; now left|]. split; intros x Hx; apply H; right; rewrite below_iso; apply in_app_iff; [now left|now right].
Qed.
Lemma iso_vertices (P : vtx -> Prop) p v a b : (forall q x c d, In (Iso q x c d) (vertices (Iso p v a b)) -> P x) ->
  P v /\ (forall q x c d, In (Iso q x c d) (vertices a) -> P x) /\ (forall q x c d, In (Iso q x c d) (vertices b) -> P x).
Proof.
  intros H. split; [apply (H p v a b); now left|]. split; intros q x c d Hx; apply (H q x c d); cbn [vertices]; right; apply in_app_iff; [now left|now right].
Qed.

(* sums over the projections of two daughters with momenta for which the projections change sign *)
Lemma combine ja jb (V1 V2 : Z -> Z -> C) (A1 A2 B1 B2 x y : Z -> C) c ea eb : (0 <= ja)%Z -> (0 <= jb)%Z ->
  (forall l1 l2, isProjOf ja l1 -> isProjOf jb l2 -> V1 l1 l2 = c * x l1 * y l2 * V2 (- l1)%Z (- l2)%Z) ->
  (forall l, isProjOf ja l -> A1 l = ea * x l * A2 (- l)%Z) -> (forall l, isProjOf jb l -> B1 l = eb * y l * B2 (- l)%Z) ->
  (forall l, x l * x l = RtoC 1) -> (forall l, y l * y l = RtoC 1) ->
  csum (projections ja) (fun l1 => csum (projections jb) (fun l2 => V1 l1 l2 * A1 l1 * B1 l2))
  = c * ea * eb * csum (projections ja) (fun l1 => csum (projections jb) (fun l2 => V2 l1 l2 * A2 l1 * B2 l2)).
Proof.
  intros Ha Hb HV HA HB X Y. rewrite (csum_neg ja (fun l1 => csum (projections jb) (fun l2 => V2 l1 l2 * A2 l1 * B2 l2)) Ha).
  rewrite <- csum_scal_l. apply csum_ext. intros l1 H1. apply projections_in in H1.
  rewrite (csum_neg jb (fun l2 => V2 (- l1)%Z l2 * A2 (- l1)%Z * B2 l2) Hb). rewrite <- csum_scal_l. apply csum_ext. intros l2 H2. apply projections_in in H2.
  rewrite HV, HA, HB by assumption. pose proof (X l1) as X1. pose proof (Y l2) as Y1.
  transitivity ((x l1 * x l1) * (y l2 * y l2) * (c * ea * eb * (V2 (- l1)%Z (- l2)%Z * A2 (- l1)%Z * B2 (- l2)%Z))); [ring|rewrite X1, Y1; ring].
Qed.
Lemma nextOf_Y f : nextOf f KY = KY. Proof. destruct f; reflexivity. Qed.

Section Pure.
Variables (ps : parts) (ur : bool) (u w : lvs).

(* the momenta of everything below are mirrored at the xz plane *)
Lemma pure_Y f : forall t,
  lvM (w (root t)) = lvM (u (root t)) ->
  match t with Fs _ => True | Iso _ _ a b => mirrorTree (nextOf f) KY u w a /\ mirrorTree (nextOf f) KY u w b end ->
  (forall p, In p (allp t) -> (0 <= pJ ps p)%Z /\ Z.even (pJ ps p) = true) -> (forall p, In p (fsParts t) -> pJ ps p = 0%Z) ->
  (forall q x c d, In (Iso q x c d) (vertices t) -> (0 <= vL x)%Z /\ Z.even (vL x) = true) ->
  forall l, isProjOf (pJ ps (root t)) l ->
  pureAmp ps (gOf f ps ur w) false t l = eps t * sz ((pJ ps (root t) - l) / 2) * pureAmp ps (gOf f ps ur u) false t (- l).
Proof.
  induction t as [p|p v a IHa b IHb]; intros EM MT HJ HF HL l Hl.
  - cbn [root pureAmp eps] in *. rewrite (HF p) in * by now left. assert (l = 0)%Z as -> by (destruct Hl as (_ & k & ? & ->); lia). change (sz ((0 - 0) / 2)) with (RtoC 1). ring.
  - destruct MT as [Ma Mb]. cbn [root] in *. pose proof (mirrorTree_root _ _ _ _ _ Ma) as Ra. pose proof (mirrorTree_root _ _ _ _ _ Mb) as Rb.
    apply iso_parts in HJ as (Jp & Ja & Jb). apply iso_vertices in HL as (Lv0 & La & Lb).
    assert (forall x, In x (fsParts a) -> pJ ps x = 0%Z) as Fa by (intros x Hx; apply HF; cbn [fsParts]; apply in_app_iff; now left).
    assert (forall x, In x (fsParts b) -> pJ ps x = 0%Z) as Fb by (intros x Hx; apply HF; cbn [fsParts]; apply in_app_iff; now right).
    destruct (Ja (root a) (root_parts a)) as [Pa Ea], (Jb (root b) (root_parts b)) as [Pb Eb]. destruct Jp as [Pp Ep], Lv0 as [PL EL].
    cbn [pureAmp eps].
    rewrite (combine (pJ ps (root a)) (pJ ps (root b)) _ (fun l1 l2 => gOf f ps ur u false p v (root a) (root b) (- l) l1 l2) _ (pureAmp ps (gOf f ps ur u) false a) _ (pureAmp ps (gOf f ps ur u) false b)
      (fun l1 => sz ((pJ ps (root a) - l1) / 2)) (fun l2 => sz ((pJ ps (root b) - l2) / 2)) (sz (vL v / 2) * sz ((pJ ps p - l) / 2)) (eps a) (eps b) Pa Pb).
    + ring.
    + intros l1 l2 H1 H2. unfold gOf. cbn [andb]. destruct f; [now apply hel_Y|now apply can_Y].
    + apply IHa; try assumption; [rewrite Ra; apply mir_lvM|]. destruct a; [exact I|]. cbn [mirrorTree] in Ma. rewrite nextOf_Y in Ma. tauto.
    + apply IHb; try assumption; [rewrite Rb; apply mir_lvM|]. destruct b; [exact I|]. cbn [mirrorTree] in Mb. rewrite nextOf_Y in Mb. tauto.
    + intros; apply sz_sq.
    + intros; apply sz_sq.
Qed.

(* helicity formalism: momentum turned around *)
Lemma pure_X : forall t, mirrorTree nextHel KI u w t ->
  (forall p, In p (allp t) -> (0 <= pJ ps p)%Z /\ Z.even (pJ ps p) = true) -> (forall p, In p (fsParts t) -> pJ ps p = 0%Z) ->
  (forall q x c d, In (Iso q x c d) (vertices t) -> (0 <= vL x)%Z /\ Z.even (vL x) = true) -> (forall p, In p (allp t) -> offAxis (u p)) ->
  forall l, isProjOf (pJ ps (root t)) l ->
  pureAmp ps (gOf Helicity ps ur w) false t l = eps t * sz (pJ ps (root t) / 2) * pureAmp ps (gOf Helicity ps ur u) false t (- l).
Proof.
  intros [p|p v a b] MT HJ HF HL HO l Hl.
  - cbn [root pureAmp eps] in *. rewrite (HF p) in * by now left. change (sz (0 / 2)) with (RtoC 1). ring.
  - cbn [mirrorTree] in MT. destruct MT as (Rp & Ma & Mb). change (nextHel KI) with KX in *. cbn [root] in *. pose proof (mirrorTree_root _ _ _ _ _ Ma) as Ra. pose proof (mirrorTree_root _ _ _ _ _ Mb) as Rb.
    apply iso_parts in HJ as (Jp & Ja & Jb). apply iso_vertices in HL as (Lv0 & La & Lb). apply iso_parts in HO as (_ & Oa & Ob).
    assert (forall x, In x (fsParts a) -> pJ ps x = 0%Z) as Fa by (intros x Hx; apply HF; cbn [fsParts]; apply in_app_iff; now left).
    assert (forall x, In x (fsParts b) -> pJ ps x = 0%Z) as Fb by (intros x Hx; apply HF; cbn [fsParts]; apply in_app_iff; now right).
    destruct (Ja (root a) (root_parts a)) as [Pa Ea], (Jb (root b) (root_parts b)) as [Pb Eb]. destruct Jp as [Pp Ep], Lv0 as [PL EL].
    cbn [pureAmp eps].
    rewrite (combine (pJ ps (root a)) (pJ ps (root b)) _ (fun l1 l2 => gOf Helicity ps ur u false p v (root a) (root b) (- l) l1 l2) _ (pureAmp ps (gOf Helicity ps ur u) false a) _ (pureAmp ps (gOf Helicity ps ur u) false b)
      (fun l1 => sz ((pJ ps (root a) - l1) / 2)) (fun l2 => sz ((pJ ps (root b) - l2) / 2)) (sz (vL v / 2) * sz (pJ ps p / 2)) (eps a) (eps b) Pa Pb).
    + ring.
    + intros l1 l2 H1 H2. unfold gOf. cbn [andb]. apply hel_X; try assumption; [rewrite Rp; apply mir_lvM|apply Oa, root_parts].
    + apply (pure_Y Helicity); try assumption; [rewrite Ra; apply mir_lvM|]. destruct a; [exact I|]. cbn [mirrorTree] in Ma. tauto.
    + apply (pure_Y Helicity); try assumption; [rewrite Rb; apply mir_lvM|]. destruct b; [exact I|]. cbn [mirrorTree] in Mb. tauto.
    + intros; apply sz_sq.
    + intros; apply sz_sq.
Qed.
Lemma pure_I_hel p v a b : let t := Iso p v a b in w p = u p -> mirrorTree nextHel KI u w a -> mirrorTree nextHel KI u w b ->
  (forall q, In q (allp t) -> (0 <= pJ ps q)%Z /\ Z.even (pJ ps q) = true) -> (forall q, In q (fsParts t) -> pJ ps q = 0%Z) ->
  (forall q x c d, In (Iso q x c d) (vertices t) -> (0 <= vL x)%Z /\ Z.even (vL x) = true) -> (forall q, In q (below t) -> offAxis (u q)) ->
  forall l, isProjOf (pJ ps p) l ->
  pureAmp ps (gOf Helicity ps ur w) false t l = eps t * pureAmp ps (gOf Helicity ps ur u) false t l.
Proof.
  intros t Rp Ma Mb HJ HF HL HO l Hl. unfold t in *. pose proof (mirrorTree_root _ _ _ _ _ Ma) as Ra. pose proof (mirrorTree_root _ _ _ _ _ Mb) as Rb.
  apply iso_parts in HJ as (Jp & Ja & Jb). apply iso_vertices in HL as (Lv0 & La & Lb). rewrite below_iso in HO.
  assert (forall x, In x (allp a) -> offAxis (u x)) as Oa by (intros x Hx; apply HO; apply in_app_iff; now left).
  assert (forall x, In x (allp b) -> offAxis (u x)) as Ob by (intros x Hx; apply HO; apply in_app_iff; now right).
  assert (forall x, In x (fsParts a) -> pJ ps x = 0%Z) as Fa by (intros x Hx; apply HF; cbn [fsParts]; apply in_app_iff; now left).
  assert (forall x, In x (fsParts b) -> pJ ps x = 0%Z) as Fb by (intros x Hx; apply HF; cbn [fsParts]; apply in_app_iff; now right).
  destruct (Ja (root a) (root_parts a)) as [Pa Ea], (Jb (root b) (root_parts b)) as [Pb Eb]. destruct Jp as [Pp Ep], Lv0 as [PL EL].
  cbn [pureAmp eps].
  rewrite (combine (pJ ps (root a)) (pJ ps (root b)) _ (fun l1 l2 => gOf Helicity ps ur u false p v (root a) (root b) l l1 l2) _ (pureAmp ps (gOf Helicity ps ur u) false a) _ (pureAmp ps (gOf Helicity ps ur u) false b)
      (fun l1 => sz (pJ ps (root a) / 2)) (fun l2 => sz (pJ ps (root b) / 2)) (sz (vL v / 2)) (eps a) (eps b) Pa Pb).
  + ring.
  + intros l1 l2 H1 H2. unfold gOf. cbn [andb]. apply hel_I; try assumption; [now rewrite Rp|apply Oa, root_parts].
  + now apply pure_X.
  + now apply pure_X.
  + intros; apply sz_sq.
  + intros; apply sz_sq.
Qed.
(* canonical formalism: everything turned around *)
Lemma pure_I_can : forall t, lvM (w (root t)) = lvM (u (root t)) ->
  match t with Fs _ => True | Iso _ _ a b => mirrorTree (fun K => K) KI u w a /\ mirrorTree (fun K => K) KI u w b end ->
  (forall q x c d, In (Iso q x c d) (vertices t) -> (0 <= vL x)%Z /\ Z.even (vL x) = true) ->
  forall l, pureAmp ps (gOf Canonical ps ur w) false t l = eps t * pureAmp ps (gOf Canonical ps ur u) false t l.
Proof.
  induction t as [p|p v a IHa b IHb]; intros EM MT HL l; [cbn [pureAmp eps]; ring|].
  destruct MT as [Ma Mb]. pose proof (mirrorTree_root _ _ _ _ _ Ma) as Ra. pose proof (mirrorTree_root _ _ _ _ _ Mb) as Rb.
  apply iso_vertices in HL as ((PL & EL) & La & Lb). cbn [pureAmp eps].
  rewrite <- csum_scal_l. apply csum_ext. intros l1 _. rewrite <- csum_scal_l. apply csum_ext. intros l2 _.
  assert (pureAmp ps (gOf Canonical ps ur w) false a l1 = eps a * pureAmp ps (gOf Canonical ps ur u) false a l1) as ->.
  { apply IHa; [rewrite Ra; apply mir_lvM| |exact La]. destruct a; [exact I|]. cbn [mirrorTree] in Ma. tauto. }
  assert (pureAmp ps (gOf Canonical ps ur w) false b l2 = eps b * pureAmp ps (gOf Canonical ps ur u) false b l2) as ->.
  { apply IHb; [rewrite Rb; apply mir_lvM| |exact Lb]. destruct b; [exact I|]. cbn [mirrorTree] in Mb. tauto. }
  assert (gOf Canonical ps ur w false p v (root a) (root b) l l1 l2 = sz (vL v / 2) * gOf Canonical ps ur u false p v (root a) (root b) l l1 l2) as ->.
  { unfold gOf. cbn [andb]. now apply can_I. }
  ring.
Qed.
End Pure.

(* the reflectivity basis for X *)
Lemma reflState_csum_id {A} J P M rf (l : list A) (F : A -> Z -> C) :
  csum l (fun x => reflState J P M rf (F x)) = reflState J P M rf (fun m => csum l (fun x => F x m)).
Proof.
  rewrite (csum_ext l _ (fun x => reflState J P M rf (F x) * RtoC 1)) by (intros; ring). rewrite reflState_csum. unfold reflState.
  rewrite (csum_ext l (fun x => F x M * RtoC 1) (fun x => F x M)), (csum_ext l (fun x => F x (- M)%Z * RtoC 1) (fun x => F x (- M)%Z)) by (intros; ring). reflexivity.
Qed.
Lemma pure_top f ps ur u p v a b l : let t := Iso p v a b in
  pureAmp ps (gOf f ps ur u) true t l
  = if ur then reflState (pJ ps p) (pP ps p) l (pRefl ps p) (fun M => pureAmp ps (gOf f ps ur u) false t M) else pureAmp ps (gOf f ps ur u) false t l.
Proof.
  cbv zeta. cbn [pureAmp]. destruct ur.
  - rewrite <- (reflState_csum_id (pJ ps p) (pP ps p) l (pRefl ps p) (projections (pJ ps (root a)))). apply csum_ext. intros l1 _.
    rewrite <- (reflState_csum_id (pJ ps p) (pP ps p) l (pRefl ps p) (projections (pJ ps (root b)))). apply csum_ext. intros l2 _.
    rewrite vertex_core. cbn [andb]. unfold reflState. ring.
  - apply csum_ext. intros l1 _. apply csum_ext. intros l2 _. rewrite vertex_core. cbn [andb]. reflexivity.
Qed.
Lemma refl_Y J P M rf (F G : Z -> C) e : (0 <= J)%Z -> Z.even J = true -> isProjOf J M -> isSign P -> isSign rf ->
  (forall m, isProjOf J m -> F m = e * sz ((J - m) / 2) * G (- m)%Z) ->
  reflState J P M rf F = RtoC (IZR (- rf * P)) * e * reflState J P M rf G.
Proof.
  intros HJ EJ HM SP SR HF. unfold reflState. rewrite (HF M HM), (HF (- M)%Z) by now apply proj_neg. rewrite Z.opp_involutive.
  assert (RtoC (reflSign J P M rf) = RtoC (IZR (rf * P)) * sz ((J - M) / 2)) as ->.
  { unfold reflSign, sz. rewrite <- RtoC_mult, <- mult_IZR. reflexivity. }
  assert (sz ((J - - M) / 2) = sz ((J - M) / 2)) as ->.
  { apply sz_par. assert (Z.even M = true) as EM by now apply (proj_even J). destruct (half_even _ EJ) as (j & ->), (half_even _ EM) as (m & ->).
    rewrite (hf (2 * j - - (2 * m)) (j + m)), (hf (2 * j - 2 * m) (j - m)) by lia. replace (j + m - (j - m))%Z with (2 * m)%Z by lia. apply even_2k. }
  assert (RtoC (IZR (- rf * P)) = - RtoC (IZR (rf * P))) as ->.
  { rewrite <- RtoC_opp, <- opp_IZR. do 2 f_equal. lia. }
  set (r := RtoC (IZR (rf * P))). set (z := sz ((J - M) / 2)). assert (r * r = RtoC 1) as R1.
  { unfold r. rewrite <- RtoC_mult, <- mult_IZR. do 2 f_equal. destruct SP as [-> | ->], SR as [-> | ->]; reflexivity. }
  assert (z * z = RtoC 1) as Z1 by apply sz_sq.
  transitivity (RtoC (reflNorm M) * e * (z * G (- M)%Z - r * (z * z) * G M)); [ring|]. rewrite Z1.
  transitivity (RtoC (reflNorm M) * e * ((r * r) * z * G (- M)%Z - r * G M)); [rewrite R1; ring|ring].
Qed.
Lemma eps_sign ps : forall t, parityConserved ps t -> eps t = RtoC (IZR (pP ps (root t) * fsParticlesIntrinsicParity ps t)) /\ isSign (fsParticlesIntrinsicParity ps t).
Proof.
  intros t. unfold fsParticlesIntrinsicParity.
  assert (forall l a, fold_left (fun r p => (r * pP ps p)%Z) l a = (a * fold_left (fun r p => (r * pP ps p)%Z) l 1)%Z) as FL.
  { induction l as [|x l IH]; intros a; cbn [fold_left]; [lia|]. rewrite IH, (IH (1 * pP ps x)%Z). lia. }
  assert (forall x, isSign x -> (x * x = 1)%Z) as SQ by (intros x [-> | ->]; reflexivity).
  induction t as [p|p v a IHa b IHb]; intros [HS HV].
  - cbn [eps root fsParts fold_left]. specialize (HS p ltac:(now left)). rewrite Z.mul_1_l. split; [|exact HS]. now rewrite SQ.
  - apply iso_parts in HS as (Sp & Sa & Sb). pose proof (HV p v a b ltac:(now left)) as Ep.
    destruct IHa as [E1 S1]; [split; [exact Sa|]; intros q x c d Hx; apply (HV q x c d); cbn [vertices]; right; apply in_app_iff; now left|].
    destruct IHb as [E2 S2]; [split; [exact Sb|]; intros q x c d Hx; apply (HV q x c d); cbn [vertices]; right; apply in_app_iff; now right|].
    cbn [eps root fsParts]. rewrite fold_left_app, FL, E1, E2, Ep.
    set (A := fold_left _ (fsParts a) 1%Z) in *. set (B := fold_left _ (fsParts b) 1%Z) in *. split.
    + unfold sz. rewrite <- !RtoC_mult, <- !mult_IZR. do 2 f_equal. ring.
    + destruct S1 as [-> | ->], S2 as [-> | ->]; unfold isSign; lia.
Qed.
Lemma inv_value ps t : parityConserved ps t -> exists e, spaceInvEigenValue ps t = Some e /\ eps t = RtoC (IZR e).
Proof.
  intros PC. destruct (eps_sign ps t PC) as [E S]. destruct PC as [HS _]. specialize (HS (root t) ltac:(now left)). unfold spaceInvEigenValue, intDiv. rewrite E.
  destruct HS as [-> | ->], S as [-> | ->]; eexists; split; reflexivity.
Qed.
Lemma refl_value ps t : parityConserved ps t -> isSign (pRefl ps (root t)) ->
  exists e, reflectionEigenValue ps t = Some e /\ RtoC (IZR (- pRefl ps (root t) * pP ps (root t))) * eps t = RtoC (IZR e).
Proof.
  intros PC SR. destruct (eps_sign ps t PC) as [E S]. destruct PC as [HS _]. specialize (HS (root t) ltac:(now left)). unfold reflectionEigenValue, intDiv. rewrite E, <- RtoC_mult, <- mult_IZR.
  destruct HS as [-> | ->], S as [-> | ->], SR as [-> | ->]; eexists; split; reflexivity.
Qed.
