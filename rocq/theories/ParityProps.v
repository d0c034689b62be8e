(* Property C75: amplitudes of parity-conserving decays are eigenstates of space inversion and, in
   the reflectivity basis, of the reflection through the production plane. *)
From Coq Require Import ZArith Reals List Bool Lia Lra Psatz Permutation.
From Coquelicot Require Import Complex.
From Verif Require Import SpinSpec CGSpec CGBoxModel CGValProofs DFuncSpec PhysModel PhaseModel PhaseSpec PhaseProofs FrameModel FrameSpec FrameProofs FrameProofs2 FrameProofs3 FrameProofs4 FrameProps FrameProps2 AmpModel AmpSpec AmpProofs AmpProofs2 AmpProofs3 AmpProofs4 AmpProps ParityModel ParitySpec ParityProofs ParityProofs2 ParityProofs3 ParityProofs4 ParityProofs5.
Import ListNotations.
Open Scope R_scope.

Lemma off_iff q : offAxis q <-> ~ alongZ q.
Proof. unfold offAxis, alongZ. destruct (Req_EM_T (lx q) 0), (Req_EM_T (ly q) 0); tauto. Qed.
Lemma spins_even ps t : spinsOk ps t -> integerSpins ps t -> forall q, In q (allp t) -> (0 <= pJ ps q)%Z /\ Z.even (pJ ps q) = true.
Proof. intros [SJ _] HI q Hq. split; [destruct (SJ q Hq); lia|now apply HI]. Qed.
Lemma spins_L ps t : spinsOk ps t -> forall q x c d, In (Iso q x c d) (vertices t) -> (0 <= vL x)%Z /\ Z.even (vL x) = true.
Proof. intros [_ SV] q x c d H. destruct (SV q x c d H) as (? & ? & ?). split; [lia|assumption]. Qed.
Lemma top_amp f ps ur u t h : distinct t -> isDecay t -> decayAmp f ps ur u t h
  = if ur then reflState (pJ ps (root t)) (pP ps (root t)) (h (root t)) (pRefl ps (root t)) (fun M => pureAmp ps (gOf f ps ur u) false t M) else pureAmp ps (gOf f ps ur u) false t (h (root t)).
Proof. intros D HD. rewrite decayAmp_pure by assumption. destruct t; [destruct HD|]. apply pure_top. Qed.
Lemma top_scale ps (ur : bool) t (h : nat -> Z) (F G : Z -> C) e : isProjOf (pJ ps (root t)) (h (root t)) -> (forall M, isProjOf (pJ ps (root t)) M -> F M = (e * G M)%C) ->
  (if ur then reflState (pJ ps (root t)) (pP ps (root t)) (h (root t)) (pRefl ps (root t)) F else F (h (root t)))
  = (e * if ur then reflState (pJ ps (root t)) (pP ps (root t)) (h (root t)) (pRefl ps (root t)) G else G (h (root t)))%C.
Proof.
  intros Hh E. destruct ur; [|now apply E]. unfold reflState. rewrite !E by (try assumption; now apply proj_neg). ring.
Qed.

(* space inversion: the amplitude of the inverted event is spaceInvEigenValue() times the amplitude *)
Theorem C75_space_inversion_canonical : forall ps useRefl ref t s h, distinct t -> isDecay t -> physical s t ->
  spinsOk ps t -> stateOk ps useRefl (root t) (h (root t)) -> parityConserved ps t ->
  exists e A, spaceInvEigenValue ps t = Some e
    /\ termAmp Canonical ps useRefl false false ref t s h = Some A
    /\ termAmp Canonical ps useRefl true false ref t s h = Some (RtoC (IZR e) * A)%C.
Proof.
  intros ps ur ref t s h D HD PH SO ST PC. destruct (inv_value ps t PC) as (e & Ee & EE).
  destruct (td_ok (stepOf Canonical) false false ref t s (iso_step Canonical) D HD PH ltac:(discriminate)) as (u & E1 & F1 & _).
  destruct (td_ok (stepOf Canonical) true false ref t s (iso_step Canonical) D HD PH ltac:(discriminate)) as (w & E2 & F2 & PM & PX).
  exists e, (decayAmp Canonical ps ur u t h). split; [exact Ee|].
  rewrite (C74_coherent_sum Canonical ps ur false false ref t s u h), (C74_coherent_sum Canonical ps ur true false ref t s w h) by assumption. split; [reflexivity|]. f_equal.
  rewrite !top_amp by assumption. rewrite <- EE. apply top_scale; [apply ST|]. intros M HM.
  destruct t as [|p v a b]; [destruct HD|]. destruct (PH (Iso p v a b) ltac:(now left)) as (m & Hm).
  destruct (framed_mirror Canonical KI ref p v a b s u (modified true false ref (Iso p v a b) s) w) as (Ma & Mb & Rp); try assumption.
  { intros G EG x _. now apply (mod_inversion ref (Iso p v a b) s m). }
  { intros x _. exact I. } { intros x _. exact I. }
  apply pure_I_can; [cbn [root]; now rewrite Rp|split; assumption|now apply (spins_L ps)].
Qed.

Theorem C75_space_inversion_helicity : forall ps useRefl ref t s u h, distinct t -> isDecay t -> physical s t ->
  spinsOk ps t -> stateOk ps useRefl (root t) (h (root t)) -> parityConserved ps t -> integerSpins ps t -> spinlessFinalState ps t ->
  transformDaughters helStep false false ref t s = Some u -> (forall p, In p (below t) -> ~ alongZ (u p)) ->
  exists e A, spaceInvEigenValue ps t = Some e
    /\ termAmp Helicity ps useRefl false false ref t s h = Some A
    /\ termAmp Helicity ps useRefl true false ref t s h = Some (RtoC (IZR e) * A)%C.
Proof.
  intros ps ur ref t s u h D HD PH SO ST PC HI HF E1 HO. destruct (inv_value ps t PC) as (e & Ee & EE).
  assert (forall p, In p (below t) -> offAxis (u p)) as HO' by (intros p Hp; now apply off_iff, HO).
  destruct (td_ok (stepOf Helicity) false false ref t s (iso_step Helicity) D HD PH ltac:(discriminate)) as (u' & E1' & F1 & _).
  assert (u' = u) as -> by (cbn [stepOf] in E1'; congruence).
  destruct (td_ok (stepOf Helicity) true false ref t s (iso_step Helicity) D HD PH ltac:(discriminate)) as (w & E2 & F2 & PM & PX).
  exists e, (decayAmp Helicity ps ur u t h). split; [exact Ee|].
  rewrite (C74_coherent_sum Helicity ps ur false false ref t s u h), (C74_coherent_sum Helicity ps ur true false ref t s w h) by assumption. split; [reflexivity|]. f_equal.
  rewrite !top_amp by assumption. rewrite <- EE. apply top_scale; [apply ST|]. intros M HM.
  destruct t as [|p v a b]; [destruct HD|]. destruct (PH (Iso p v a b) ltac:(now left)) as (m & Hm).
  destruct (framed_mirror Helicity KI ref p v a b s u (modified true false ref (Iso p v a b) s) w) as (Ma & Mb & Rp); try assumption.
  { intros G EG x _. now apply (mod_inversion ref (Iso p v a b) s m). }
  { intros x Hx. apply HO'. rewrite below_iso. apply in_app_iff. left. now apply vertices_root. }
  { intros x Hx. apply HO'. rewrite below_iso. apply in_app_iff. right. now apply vertices_root. }
  apply pure_I_hel; try assumption; [now apply spins_even|now apply (spins_L ps)].
Qed.

(* reflection: the amplitude of the reflected event is reflectionEigenValue() times the amplitude *)
Theorem C75_reflection : forall f ps ref t (s u : lvs) h, distinct t -> isDecay t -> physical s t ->
  spinsOk ps t -> stateOk ps true (root t) (h (root t)) -> parityConserved ps t -> integerSpins ps t -> spinlessFinalState ps t ->
  norm3 (cross (vect ref) (vect (momentum s t))) <> 0 ->
  transformDaughters (stepOf f) false false ref t s = Some u ->
  (f = Helicity -> forall v, In v (vertices t) -> v <> t -> ~ alongZ (u (root v))) ->
  exists e A, reflectionEigenValue ps t = Some e
    /\ termAmp f ps true false false ref t s h = Some A
    /\ termAmp f ps true false true ref t s h = Some (RtoC (IZR e) * A)%C.
Proof.
  intros f ps ref t s u h D HD PH SO ST PC HI HF HN E1 HO. destruct ST as [HM HR]. destruct (HR eq_refl) as (HM0 & SP & SR).
  destruct (refl_value ps t PC SR) as (e & Ee & EE).
  destruct (td_ok (stepOf f) false false ref t s (iso_step f) D HD PH ltac:(discriminate)) as (u' & E1' & F1 & _).
  assert (u' = u) as -> by congruence.
  destruct (td_ok (stepOf f) false true ref t s (iso_step f) D HD PH (fun _ => HN)) as (w & E2 & F2 & PM & PX).
  exists e, (decayAmp f ps true u t h). split; [exact Ee|].
  rewrite (C74_coherent_sum f ps true false false ref t s u h), (C74_coherent_sum f ps true false true ref t s w h) by (try assumption; split; assumption). split; [reflexivity|]. f_equal.
  rewrite !top_amp by assumption. rewrite <- EE. pose proof (spins_even ps t SO HI) as SE.
  apply refl_Y; try assumption; [apply (SE (root t)); now left|apply (SE (root t)); now left|]. intros M HMM.
  destruct t as [|p v a b]; [destruct HD|]. destruct (PH (Iso p v a b) ltac:(now left)) as (m & Hm).
  assert (forall x, In x (vertices a) \/ In x (vertices b) -> match f with Helicity => offAxis (u (root x)) | Canonical => True end) as AX.
  { intros x Hx. destruct f; [|exact I]. apply off_iff. apply HO; [reflexivity|cbn [vertices]; right; now apply in_app_iff|].
    intros ->. apply distinct_iso in D as (Na & Nb & _). destruct Hx as [Hx|Hx]; [apply Na|apply Nb]; change p with (root (Iso p v a b)); now apply vertices_root. }
  destruct (framed_mirror f KY ref p v a b s u (modified false true ref (Iso p v a b) s) w) as (Ma & Mb & Rp); try assumption.
  { intros G EG x _. now apply (mod_reflection ref (Iso p v a b) s m). }
  { intros x Hx. apply AX. now left. } { intros x Hx. apply AX. now right. }
  apply pure_Y; [cbn [root]; now rewrite Rp|split; assumption|exact SE|exact HF|now apply (spins_L ps)|exact HMM].
Qed.
