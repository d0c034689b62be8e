(* Property C74: the amplitude of an event is the coherent sum over all spin projections of the
   products of the two-body amplitudes, each evaluated in the rest frame of the decaying particle. *)
From Coq Require Import List ZArith Reals Bool Lia Lra Psatz.
From Coquelicot Require Import Complex.
From Verif Require Import SpinSpec CGValProofs DFuncSpec CGBoxModel PhysModel PhaseModel PhaseSpec PhaseProofs FrameModel FrameSpec FrameProofs FrameProofs2 FrameProofs3 FrameProofs4 FrameProps FrameProps2 AmpModel AmpSpec AmpProofs AmpProofs2 AmpProofs3 AmpProofs4.
Import ListNotations.
Open Scope R_scope.

(* the momenta are transformed step by step along the decay chain; [modified] is the event after the
   optional space inversion and reflection *)
Theorem C74_momenta : forall f inversion reflection ref t s, distinct t -> isDecay t -> physical s t ->
  (reflection = true -> norm3 (cross (vect ref) (vect (momentum s t))) <> 0) ->
  exists s', transformDaughters (stepOf f) inversion reflection ref t s = Some s'
    /\ framed (stepOf f) ref t (modified inversion reflection ref t s) s'.
Proof.
  intros f inv refl ref t s D HD PH HN. destruct (td_ok (stepOf f) inv refl ref t s (iso_step f) D HD PH HN) as (s' & E & F & _). eauto.
Qed.

Lemma mink_sq p : mink p p = lt p * lt p - norm3 (vect p) * norm3 (vect p).
Proof. rewrite norm3_sq. unfold mink, vect. cbn [vx vy vz]. ring. Qed.
(* the daughters of every decay are in the rest frame of the decaying particle, whose mass M is the
   invariant mass of the final-state particles it decays into; momentum of the daughters *)
Theorem C74_rest_frames : forall f inversion reflection ref t s s', distinct t -> physical s t ->
  (reflection = true -> norm3 (cross (vect ref) (vect (momentum s t))) <> 0) ->
  transformDaughters (stepOf f) inversion reflection ref t s = Some s' ->
  forall p v a b M, In (Iso p v a b) (vertices t) -> massive M (momentum s (Iso p v a b)) ->
    lvAdd (s' (root a)) (s' (root b)) = Lv 0 0 0 M /\ lvM (s' p) = M
    /\ 4 * (M * M) * (norm3 (vect (s' (root a))) * norm3 (vect (s' (root a))))
       = (M * M) * (M * M) + mink (s' (root a)) (s' (root a)) * mink (s' (root a)) (s' (root a)) + mink (s' (root b)) (s' (root b)) * mink (s' (root b)) (s' (root b))
         - 2 * (M * M) * mink (s' (root a)) (s' (root a)) - 2 * (M * M) * mink (s' (root b)) (s' (root b)) - 2 * mink (s' (root a)) (s' (root a)) * mink (s' (root b)) (s' (root b)).
Proof.
  intros f inv refl ref t s s' D PH HN E p v a b M Hv HM.
  assert (isDecay t) as HD by (destruct t; [destruct Hv|exact I]).
  destruct (td_ok (stepOf f) inv refl ref t s (iso_step f) D HD PH HN) as (s'' & E'' & F & PM & _). assert (s'' = s') as -> by congruence.
  destruct (framed_vertices (stepOf f) ref t (modified inv refl ref t s) s' (iso_step f)) with (p := p) (v := v) (a := a) (b := b) (M := M) (3 := Hv) as (RF & Q & LQ & EQ); try assumption.
  { intros x Hx. destruct (PH x Hx) as (m & Hm). exists m. now apply PM. }
  { now apply PM. }
  split; [exact RF|]. split.
  - assert (massive M (s' p)) as HMp by (rewrite EQ; apply massive_map; [exact LQ|]; now apply PM).
    apply massive_mink in HMp as EM. destruct HMp as (P & _). unfold mink in EM. unfold lvM. fold (lvM2 (s' p)).
    assert (lvM2 (s' p) = M * M) as -> by (rewrite <- EM; reflexivity). unfold rltb. destruct (Rlt_dec (M * M) 0) as [N|_]; [nra|]. apply sqrt_square. lra.
  - destruct (s' (root a)) as [x y z e], (s' (root b)) as [x' y' z' e']. unfold lvAdd in RF. cbn [lx ly lz lt] in RF.
    assert (x' = - x) as -> by (apply (f_equal lx) in RF; cbn [lx] in RF; lra). assert (y' = - y) as -> by (apply (f_equal ly) in RF; cbn [ly] in RF; lra).
    assert (z' = - z) as -> by (apply (f_equal lz) in RF; cbn [lz] in RF; lra). assert (e' = M - e) as -> by (apply (f_equal lt) in RF; cbn [lt] in RF; lra).
    rewrite norm3_sq. unfold mink, vect. cbn [lx ly lz lt vx vy vz]. ring.
Qed.
(* the invariant masses of the particles are those of the final-state particles in the laboratory *)
Theorem C74_masses : forall f ref t s s', distinct t -> physical s t ->
  transformDaughters (stepOf f) false false ref t s = Some s' ->
  forall p v a b, In (Iso p v a b) (vertices t) ->
    mink (s' (root a)) (s' (root a)) = mink (momentum s a) (momentum s a) /\ mink (s' (root b)) (s' (root b)) = mink (momentum s b) (momentum s b).
Proof.
  intros f ref t s s' D PH E p v a b Hv. assert (isDecay t) as HD by (destruct t; [destruct Hv|exact I]).
  destruct (td_ok (stepOf f) false false ref t s (iso_step f) D HD PH ltac:(discriminate)) as (s'' & E'' & F & PM & _). assert (s'' = s') as -> by congruence.
  destruct F as (G & EG & LG & EX & F).
  assert (forall t' K, isLorentz K -> placed (stepOf f) K s s' t' -> In (Iso p v a b) (vertices t') ->
    mink (s' (root a)) (s' (root a)) = mink (momentum s a) (momentum s a) /\ mink (s' (root b)) (s' (root b)) = mink (momentum s b) (momentum s b)) as R.
  { induction t' as [q|q w c IHc d IHd]; intros K LK [_ P] H; [destruct H|]. destruct P as (Q & LQ & _ & Pc & Pd).
    assert (isLorentz (lmul Q K)) as LQK by now apply isLorentz_mul.
    cbn [vertices] in H. destruct H as [E'|H].
    - injection E' as -> -> -> ->. split; [destruct a|destruct b]; cbn [placed] in Pc, Pd; [destruct Pc as [-> _]|destruct Pc as [-> _]|destruct Pd as [-> _]|destruct Pd as [-> _]]; apply (isl_mink _ LQK).
    - apply in_app_iff in H. destruct H as [H|H]; [now apply (IHc (lmul Q K))|now apply (IHd (lmul Q K))]. }
  destruct t as [q|q w c d]; [destruct HD|]. destruct F as [Fc Fd]. cbn [vertices] in Hv. destruct Hv as [E'|Hv].
  - injection E' as -> -> -> ->. split; [destruct a|destruct b]; cbn [placed] in Fc, Fd; [destruct Fc as [-> _]|destruct Fc as [-> _]|destruct Fd as [-> _]|destruct Fd as [-> _]]; apply (isl_mink _ LG).
  - apply in_app_iff in Hv. destruct Hv as [Hv|Hv]; [now apply (R c G)|now apply (R d G)].
Qed.

(* massive final-state particles are enough *)
Lemma massive_add m m' p q : massive m p -> massive m' q -> exists M, massive M (lvAdd p q).
Proof.
  intros Hp Hq. apply massive_iff in Hp, Hq. destruct Hp as (Pm & Pt & Ep), Hq as (Pm' & Pt' & Eq).
  destruct p as [x y z e], q as [x' y' z' e']. unfold mink in *. cbn [lx ly lz lt] in *.
  assert (0 < e * e' - (x * x' + y * y' + z * z')) as PQ.
  { set (A := x * x + y * y + z * z). set (B := x' * x' + y' * y' + z' * z').
    assert ((x * x' + y * y' + z * z') * (x * x' + y * y' + z * z') <= A * B) as CS.
    { unfold A, B. pose proof (Rle_0_sqr (x * y' - y * x')). pose proof (Rle_0_sqr (y * z' - z * y')). pose proof (Rle_0_sqr (z * x' - x * z')). unfold Rsqr in *. nra. }
    assert (0 <= A) by (unfold A; nra). assert (0 <= B) by (unfold B; nra).
    assert (e * e = m * m + A) as Ee by (unfold A; lra). assert (e' * e' = m' * m' + B) as Ee' by (unfold B; lra).
    assert (A * B < (e * e') * (e * e')) as LT.
    { replace (e * e' * (e * e')) with ((e * e) * (e' * e')) by ring. rewrite Ee, Ee'. assert (0 < m * m * (m' * m')) by (repeat apply Rmult_lt_0_compat; lra).
      assert (0 <= m * m * B) by (apply Rmult_le_pos; nra). assert (0 <= A * (m' * m')) by (apply Rmult_le_pos; nra). nra. }
    assert (0 < e * e') by now apply Rmult_lt_0_compat. nra. }
  set (m2 := (e + e') * (e + e') - ((x + x') * (x + x') + (y + y') * (y + y') + (z + z') * (z + z'))).
  assert (0 < m2) as Pm2 by (unfold m2; nra). exists (sqrt m2). apply massive_iff. unfold mink, lvAdd. cbn [lx ly lz lt]. split; [now apply sqrt_lt_R0|]. split; [lra|].
  rewrite sqrt_sqrt by lra. reflexivity.
Qed.
Theorem C74_massive_final_state : forall s t, (forall p, In p (fsParts t) -> exists m, massive m (s p)) -> physical s t.
Proof.
  intros s t H.
  assert (forall t', (forall p, In p (fsParts t') -> exists m, massive m (s p)) -> (exists M, massive M (momentum s t')) /\ physical s t') as K.
  { induction t' as [p|p w a IHa b IHb]; intros K; [split; [apply K; now left|intros v []]|].
    destruct IHa as [(ma & Ha) Pa]; [intros q Hq; apply K; cbn [fsParts]; apply in_app_iff; tauto|].
    destruct IHb as [(mb & Hb) Pb]; [intros q Hq; apply K; cbn [fsParts]; apply in_app_iff; tauto|].
    pose proof (massive_add _ _ _ _ Ha Hb) as HM. split; [exact HM|]. intros v [<-|Hv]; [exact HM|]. apply in_app_iff in Hv. destruct Hv; [now apply Pa|now apply Pb]. }
  now apply K.
Qed.

(* ---- amplitude ---- *)
Definition gOf (f : formalism) (ps : parts) (useRefl : bool) (s : lvs) (top : bool) : nat -> vtx -> nat -> nat -> Z -> Z -> Z -> C :=
  (match f with Helicity => helVertexAmp | Canonical => canVertexAmp end) ps (top && useRefl) s.
Lemma decayAmp_pure f ps useRefl s t h : distinct t -> isDecay t -> decayAmp f ps useRefl s t h = pureAmp ps (gOf f ps useRefl s) true t (h (root t)).
Proof.
  intros D HD. destruct t as [|p v a b]; [destruct HD|]. cbn [root]. rewrite <- (sum_top ps (gOf f ps useRefl s) p v a b true h D).
  unfold decayAmp. cbn [vertices]. apply csum_ext. intros h' _. reflexivity.
Qed.
Lemma vparts t p v a b : In (Iso p v a b) (vertices t) -> In p (allp t) /\ In (root a) (allp t) /\ In (root b) (allp t).
Proof.
  induction t as [q|q w c IHc d IHd]; intros H; [destruct H|]. cbn [vertices] in H. destruct H as [E|H].
  - injection E as -> -> -> ->. split; [now left|]. split; right; rewrite below_iso; apply in_app_iff; [left|right]; apply root_parts.
  - apply in_app_iff in H. assert (forall x, In x (allp c) \/ In x (allp d) -> In x (allp (Iso q w c d))) as K by (intros x Hx; right; rewrite below_iso; now apply in_app_iff).
    destruct H as [H|H]; [destruct (IHc H) as (A & B & E)|destruct (IHd H) as (A & B & E)]; repeat split; apply K; tauto.
Qed.
(* whatever the momenta in the frames are, the amplitude is the sum of the products *)
Theorem C74_coherent_sum : forall f ps useRefl inversion reflection ref t s s' h, distinct t -> isDecay t -> spinsOk ps t -> stateOk ps useRefl (root t) (h (root t)) ->
  transformDaughters (stepOf f) inversion reflection ref t s = Some s' ->
  termAmp f ps useRefl inversion reflection ref t s h = Some (decayAmp f ps useRefl s' t h).
Proof.
  intros f ps useRefl inv refl ref t s s' h D HD [SJ SV] [HM HR] E. unfold termAmp. fold (stepOf f). rewrite E. cbn [bnd].
  destruct (ampSum_pure ps (gOf f ps useRefl s') (fun top h => (match f with Helicity => helTwoBody | Canonical => canTwoBody end) ps useRefl top s' h) t D) with (top := true) (h := h) as (h' & EA & _).
  - intros p Hp. destruct (SJ p Hp). lia.
  - assert (forall top p v a b h0, In (Iso p v a b) (vertices t) -> isProjOf (pJ ps p) (h0 p) ->
      (top && useRefl = true -> (0 <= h0 p)%Z /\ isSign (pP ps p) /\ isSign (pRefl ps p)) ->
      (match f with Helicity => helTwoBody | Canonical => canTwoBody end) ps useRefl top s' h0 p v (root a) (root b)
      = Some (gOf f ps useRefl s' top p v (root a) (root b) (h0 p) (h0 (root a)) (h0 (root b)))) as K.
    { intros top p v a b h0 Hv Hp HRp. destruct (vparts _ _ _ _ _ Hv) as (I1 & I2 & I3). destruct (SV _ _ _ _ Hv) as (V1 & V2 & V3).
      assert (vspins ps p v (root a) (root b)) as VS by (repeat split; try lia; apply SJ; assumption).
      destruct f; [now apply hel_ok|now apply can_ok]. }
    intros p v a b Hv h0 Hp _ _. split.
    + intros _. apply K; [exact Hv|exact Hp|discriminate].
    + intros Er El. apply K; [exact Hv|exact Hp|]. cbn [andb]. intros ->. rewrite El. subst p. now apply HR.
  - exact HM.
  - rewrite EA. cbn [bnd snd]. now rewrite decayAmp_pure.
Qed.

(* the amplitude of an event: the momenta can be put into their frames and the amplitude is the
   coherent sum for these momenta *)
Theorem C74_amplitude : forall f ps useRefl inversion reflection ref t s h, distinct t -> isDecay t -> physical s t ->
  spinsOk ps t -> stateOk ps useRefl (root t) (h (root t)) ->
  (reflection = true -> norm3 (cross (vect ref) (vect (momentum s t))) <> 0) ->
  exists s', framed (stepOf f) ref t (modified inversion reflection ref t s) s'
    /\ termAmp f ps useRefl inversion reflection ref t s h = Some (decayAmp f ps useRefl s' t h).
Proof.
  intros f ps useRefl inv refl ref t s h D HD PH SO ST HN. destruct (C74_momenta f inv refl ref t s D HD PH HN) as (s' & E & F).
  exists s'. split; [exact F|]. now apply C74_coherent_sum.
Qed.

(* ---- the momenta in their frames are unique ---- *)
Lemma placed_same step : forall t F F' s s' s1 s2, (forall p, In p (fsParts t) -> lapply F (s p) = lapply F' (s' p)) ->
  placed step F s s1 t -> placed step F' s' s2 t -> forall q, In q (allp t) -> s1 q = s2 q.
Proof.
  induction t as [p|p v a IHa b IHb]; intros F F' s s' s1 s2 EF [E1 P1] [E2 P2] q Hq.
  - destruct Hq as [<-|[]]. cbn [root momentum] in *. rewrite E1, E2. apply EF. now left.
  - assert (s1 p = s2 p) as Ep.
    { cbn [root] in E1, E2. rewrite E1, E2. rewrite <- !(momentum_add _ _ _ (additive_lapply _)). now apply momentum_ext. }
    destruct P1 as (H1 & _ & S1 & Pa1 & Pb1), P2 as (H2 & _ & S2 & Pa2 & Pb2).
    assert (forall x, lapply H1 x = lapply H2 x) as EH by (intros x; specialize (S1 x); specialize (S2 x); rewrite Ep in S1; congruence).
    assert (forall x, In x (fsParts (Iso p v a b)) -> lapply (lmul H1 F) (s x) = lapply (lmul H2 F') (s' x)) as EF'.
    { intros x Hx. rewrite !lapply_mul, (EF x Hx). apply EH. }
    destruct Hq as [<-|Hq]; [exact Ep|]. rewrite below_iso in Hq. apply in_app_iff in Hq. destruct Hq as [Hq|Hq].
    + apply (IHa (lmul H1 F) (lmul H2 F') s s' s1 s2); try assumption. intros x Hx. apply EF'. cbn [fsParts]. apply in_app_iff. now left.
    + apply (IHb (lmul H1 F) (lmul H2 F') s s' s1 s2); try assumption. intros x Hx. apply EF'. cbn [fsParts]. apply in_app_iff. now right.
Qed.
Lemma framed_same step ref ref' t s s' s1 s2 : framed step ref t s s1 -> framed step ref' t s' s2 ->
  (forall G G', gjTransform ref (momentum s t) = Some G -> gjTransform ref' (momentum s' t) = Some G' ->
    forall p, In p (fsParts t) -> lapply G (s p) = lapply G' (s' p)) ->
  forall q, In q (below t) -> s1 q = s2 q.
Proof.
  intros (G & EG & _ & _ & P) (G' & EG' & _ & _ & P') K q Hq. specialize (K G G' EG EG'). destruct t as [p|p v a b]; [destruct Hq|].
  rewrite below_iso in Hq. apply in_app_iff in Hq. destruct P as [Pa Pb], P' as [Pa' Pb']. destruct Hq as [Hq|Hq].
  - apply (placed_same step a G G' s s' s1 s2); try assumption. intros x Hx. apply K. cbn [fsParts]. apply in_app_iff. now left.
  - apply (placed_same step b G G' s s' s1 s2); try assumption. intros x Hx. apply K. cbn [fsParts]. apply in_app_iff. now right.
Qed.
Lemma pure_ext ps g1 g2 : forall t top,
  (forall p v a b, In (Iso p v a b) (vertices t) -> forall l l1 l2, g1 (if Nat.eqb p (root t) then top else false) p v (root a) (root b) l l1 l2 = g2 (if Nat.eqb p (root t) then top else false) p v (root a) (root b) l l1 l2) ->
  distinct t -> forall l, pureAmp ps g1 top t l = pureAmp ps g2 top t l.
Proof.
  induction t as [p|p v a IHa b IHb]; intros top E D l; [reflexivity|]. cbn [pureAmp].
  apply distinct_iso in D as (Na & Nb & Da & Db & _).
  assert (forall l1, pureAmp ps g1 false a l1 = pureAmp ps g2 false a l1) as Ea.
  { apply IHa; [|exact Da]. intros p' v' a' b' Hv l0 l1 l2. specialize (E p' v' a' b' ltac:(cbn [vertices]; right; apply in_app_iff; now left) l0 l1 l2).
    cbn [root] in E. assert (Nat.eqb p' p = false) as Ne by (apply Nat.eqb_neq; intros ->; apply Na; change p with (root (Iso p v' a' b')); now apply vertices_root).
    rewrite Ne in E. destruct (Nat.eqb p' (root a)); exact E. }
  assert (forall l1, pureAmp ps g1 false b l1 = pureAmp ps g2 false b l1) as Eb.
  { apply IHb; [|exact Db]. intros p' v' a' b' Hv l0 l1 l2. specialize (E p' v' a' b' ltac:(cbn [vertices]; right; apply in_app_iff; now right) l0 l1 l2).
    cbn [root] in E. assert (Nat.eqb p' p = false) as Ne by (apply Nat.eqb_neq; intros ->; apply Nb; change p with (root (Iso p v' a' b')); now apply vertices_root).
    rewrite Ne in E. destruct (Nat.eqb p' (root b)); exact E. }
  apply csum_ext. intros l1 _. apply csum_ext. intros l2 _. rewrite Ea, Eb. f_equal. f_equal.
  specialize (E p v a b ltac:(now left) l l1 l2). cbn [root] in E. rewrite Nat.eqb_refl in E. exact E.
Qed.
Lemma decayAmp_ext f ps useRefl t s1 s2 h : distinct t -> isDecay t -> (forall q, In q (below t) -> s1 q = s2 q) -> lvM (s1 (root t)) = lvM (s2 (root t)) ->
  decayAmp f ps useRefl s1 t h = decayAmp f ps useRefl s2 t h.
Proof.
  intros D HD E EM. rewrite !decayAmp_pure by assumption. apply pure_ext; [|exact D].
  intros p v a b Hv l l1 l2. destruct (vparts _ _ _ _ _ Hv) as (I1 & _ & _).
  assert (forall r, In r [a; b] -> s1 (root r) = s2 (root r)) as Er.
  { intros r Hr. apply E. clear - Hv Hr. induction t as [q|q w c IHc d IHd]; [destruct Hv|]. cbn [vertices] in Hv. rewrite below_iso. apply in_app_iff. destruct Hv as [Q|Hv].
    - injection Q as -> -> -> ->. destruct Hr as [<-|[<-|[]]]; [left|right]; apply root_parts.
    - apply in_app_iff in Hv. destruct Hv as [Hv|Hv]; [left; right; now apply IHc|right; right; now apply IHd]. }
  assert (lvM (s1 p) = lvM (s2 p)) as Ep by (destruct I1 as [<-|I1]; [exact EM|now rewrite (E p I1)]).
  unfold gOf. destruct f; unfold helVertexAmp, canVertexAmp; now rewrite (Er a), (Er b), Ep by (cbn; tauto).
Qed.

(* the options doSpaceInversion and doReflection give the amplitude of the inverted (reflected) event *)
Theorem C74_modified_event : forall f ps useRefl inversion reflection ref t s h, distinct t -> isDecay t -> physical s t ->
  spinsOk ps t -> stateOk ps useRefl (root t) (h (root t)) ->
  (reflection = true -> norm3 (cross (vect ref) (vect (momentum s t))) <> 0) ->
  termAmp f ps useRefl inversion reflection ref t s h = termAmp f ps useRefl false false ref t (modified inversion reflection ref t s) h.
Proof.
  intros f ps useRefl inv refl ref t s h D HD PH SO ST HN.
  destruct (td_ok (stepOf f) inv refl ref t s (iso_step f) D HD PH HN) as (s1 & E1 & F1 & PM & PX).
  set (u := modified inv refl ref t s) in *.
  assert (physical u t) as PHu by (intros x Hx; destruct (PH x Hx) as (m & Hm); exists m; now apply PM).
  destruct (td_ok (stepOf f) false false ref t u (iso_step f) D HD PHu ltac:(discriminate)) as (s2 & E2 & F2 & _).
  rewrite (C74_coherent_sum f ps useRefl inv refl ref t s s1 h), (C74_coherent_sum f ps useRefl false false ref t u s2 h) by assumption. f_equal.
  apply decayAmp_ext; try assumption.
  - apply (framed_same (stepOf f) ref ref t u u); try assumption. intros; congruence.
  - destruct F1 as (_ & _ & _ & -> & _), F2 as (_ & _ & _ & -> & _). reflexivity.
Qed.

(* the amplitude does not depend on the orientation of the laboratory frame *)
Theorem C74_rotation_invariant : forall f ps useRefl ref t s h M r, distinct t -> isDecay t -> physical s t -> massive M (momentum s t) ->
  spinsOk ps t -> stateOk ps useRefl (root t) (h (root t)) -> isLorentz (ofRot r) ->
  norm3 (cross (vect ref) (vect (momentum s t))) <> 0 ->
  vdot (inPlane (cross (vect ref) (vect (momentum s t)))) (restMomentum (momentum s t) M ref) <> 0 ->
  vdot (inPlane (cross (vect (rotVec r ref)) (vect (rotVec r (momentum s t))))) (restMomentum (rotVec r (momentum s t)) M (rotVec r ref)) <> 0 ->
  termAmp f ps useRefl false false (rotVec r ref) t (fun p => rotVec r (s p)) h = termAmp f ps useRefl false false ref t s h.
Proof.
  intros f ps useRefl ref t s h M r D HD PH HM SO ST LR HN HP HP'. set (u := fun p => rotVec r (s p)).
  assert (forall x, momentum u x = rotVec r (momentum s x)) as MU.
  { intros x. unfold u. rewrite <- ofRot_vec. rewrite <- (momentum_add (lapply (ofRot r)) s x (additive_lapply _)). apply momentum_ext. intros p _. now rewrite ofRot_vec. }
  assert (forall m p, massive m p -> massive m (rotVec r p)) as MR by (intros m p Hm; rewrite <- ofRot_vec; now apply massive_map).
  assert (physical u t) as PHu by (intros x Hx; destruct (PH x Hx) as (m & Hm); exists m; rewrite MU; now apply MR).
  assert (norm3 (cross (vect (rotVec r ref)) (vect (rotVec r (momentum s t)))) <> 0) as HN'.
  { pose proof (rot_cross r (vect ref) (vect (momentum s t)) LR) as RC.
    assert (forall q, vect (rotVec r (ofV3 (vect q))) = vect (rotVec r q)) as V by (intros q; reflexivity). rewrite !V in RC.
    intros Q. apply HN. rewrite <- RC in Q. apply norm3_zero in Q. set (n := cross (vect ref) (vect (momentum s t))) in *.
    pose proof (isl_mink _ LR (ofV3 n) (ofV3 n)) as EM. rewrite ofRot_vec in EM. destruct Q as (Q1 & Q2 & Q3).
    unfold mink, vect in *. cbn [vx vy vz] in Q1, Q2, Q3. rewrite Q1, Q2, Q3 in EM. replace (lt (rotVec r (ofV3 n))) with 0 in EM by reflexivity.
    unfold ofV3 in EM. cbn [lx ly lz lt] in EM. unfold norm3. replace (vx n * vx n + vy n * vy n + vz n * vz n) with 0 by lra. apply sqrt_0. }
  destruct (C73_gottfried_jackson_frame ref (momentum s t) M HM HN HP) as (G & EG & GG).
  destruct (C73_gottfried_jackson_frame (rotVec r ref) (rotVec r (momentum s t)) M (MR _ _ HM) HN' HP') as (G' & EG' & GG').
  assert (0 < M) as PM by apply HM.
  pose proof (C73_rotation_invariant ref (momentum s t) M r G G' PM HN LR GG GG') as EV.
  destruct (td_ok (stepOf f) false false ref t s (iso_step f) D HD PH ltac:(discriminate)) as (s1 & E1 & F1 & _).
  destruct (td_ok (stepOf f) false false (rotVec r ref) t u (iso_step f) D HD PHu ltac:(discriminate)) as (s2 & E2 & F2 & _).
  rewrite (C74_coherent_sum f ps useRefl false false ref t s s1 h), (C74_coherent_sum f ps useRefl false false (rotVec r ref) t u s2 h) by assumption. f_equal.
  symmetry. apply decayAmp_ext; try assumption.
  - apply (framed_same (stepOf f) ref (rotVec r ref) t s u); [exact F1|exact F2|]. intros G1 G2 H1 H2 p _. rewrite MU in H2.
    assert (G1 = G) as -> by congruence. assert (G2 = G') as -> by congruence. unfold u. now rewrite EV.
  - destruct F1 as (_ & _ & _ & -> & _), F2 as (_ & _ & _ & -> & _).
    unfold modified. change (lvM (momentum s t) = lvM (momentum u t)). rewrite MU. unfold lvM.
    pose proof (isl_mink _ LR (momentum s t) (momentum s t)) as EM. rewrite !ofRot_vec in EM. unfold mink in EM. unfold lvM2.
    rewrite EM. reflexivity.
Qed.
