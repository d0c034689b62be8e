(* C84: parameters, likelihood, stored events. *)
From Coq Require Import List ZArith Reals Bool Lia Lra Psatz.
From Verif Require Import ArrayModel CGBoxModel PhysModel PhysProps PhaseModel PhaseSpec PhaseProofs PhaseProofs2 PhaseProofs3 PhaseProofs4 PhaseProps PhaseProps2 FrameModel FrameSpec FrameProofs FrameProofs2 FrameProofs3 FrameProofs4 FrameProps2 ProdModel ProdSpec ProdProofs ProdProps SampleModel SampleSpec SampleProofs SampleProps SampleProofs2.
From Verif Require Import LikSetProofs.
Import ListNotations.
Open Scope R_scope.

Notation B0 := (BcPar 0 0 None).
Lemma par_len a b : forall masses lo, length (parLoop a b lo masses) = (3 * length masses)%nat.
Proof. induction masses as [|m r IH]; intros lo; [reflexivity|]. cbn [parLoop length]. rewrite IH. lia. Qed.
Lemma par_nth a b : forall masses lo j, (j < length masses)%nat ->
  nth (3 * j) (parLoop a b lo masses) B0 = (let l := lo + sumR (firstn (S j) masses) in
     if (S j =? length masses)%nat then (if reqb a b then BcPar l b (Some b) else BcPar a b None) else BcPar l b None)
  /\ nth (3 * j + 1) (parLoop a b lo masses) B0 = BcPar (-1) 1 None /\ nth (3 * j + 2) (parLoop a b lo masses) B0 = BcPar 0 (2 * PI) None.
Proof.
  induction masses as [|m r IH]; intros lo j Hj; [cbn in Hj; lia|]. destruct j as [|j].
  - cbn [parLoop nth Nat.mul Nat.add firstn sumR fold_right length Nat.eqb]. split; [|split; reflexivity]. cbv zeta. rewrite Rplus_0_r. destruct r; reflexivity.
  - cbn [length] in Hj. destruct (IH (lo + m) j ltac:(lia)) as (E1 & E2 & E3). cbn [parLoop].
    replace (3 * S j)%nat with (S (S (S (3 * j)))) by lia. cbn [nth Nat.add]. rewrite E1. replace (3 * j + 1)%nat with (3 * j + 1)%nat in * by lia.
    split; [|split; assumption]. change (firstn (S (S j)) (m :: r)) with (m :: firstn (S j) r). change (S (S j) =? length (m :: r))%nat with (S j =? length r)%nat. cbv zeta.
    replace (lo + sumR (m :: firstn (S j) r)) with (lo + m + sumR (firstn (S j) r)) by (unfold sumR; cbn [fold_right]; ring). reflexivity.
Qed.
Lemma Forall2_nth {A B} (R : A -> B -> Prop) (a0 : A) (b0 : B) : forall l m, Forall2 R l m <-> length l = length m /\ forall i, (i < length l)%nat -> R (nth i l a0) (nth i m b0).
Proof.
  induction l as [|x l IH]; intros [|y m]; split.
  - intros _. split; [reflexivity|]. intros i Hi. cbn in Hi. lia.
  - constructor.
  - intros H. inversion H.
  - intros [H _]. discriminate.
  - intros H. inversion H.
  - intros [H _]. discriminate.
  - intros H. inversion H as [|? ? ? ? H1 H2]; subst. apply IH in H2 as [L K]. split; [cbn; now rewrite L|]. intros [|i] Hi; cbn [nth]; [exact H1|]. apply K. cbn in Hi. lia.
  - intros [L K]. constructor; [apply (K 0%nat); cbn; lia|]. apply IH. split; [cbn in L; lia|]. intros i Hi. apply (K (S i)). cbn. lia.
Qed.

(* The sampler is constructed for at least two daughters and a mass range that is not empty; it then
   samples a box that contains every configuration of the decay with a mass of X in the range, and no
   point with a mass of X or an angle out of range. *)
Theorem C84_parameters : forall ms mMin mMax,
  (forall model beam tp target recoil, (exists s, newSampler model beam tp target recoil ms (mMin, mMax) = Some s) <-> (2 <= length ms)%nat /\ mMin <= mMax)
  /\ forall s, made ms (mMin, mMax) s -> Forall (fun m => 0 <= m) ms ->
     length (iPars s) = (3 * (length ms - 1))%nat
     /\ (forall pars, isPoint ms pars -> allowedMasses ms (pointMasses ms pars) -> mMin <= massX ms pars <= mMax ->
           (forall i, (1 <= i < length ms)%nat -> -1 <= pointCos ms pars i <= 1 /\ 0 <= pointPhi ms pars i <= 2 * PI) -> Forall2 within (iPars s) pars)
     /\ (forall pars, Forall2 within (iPars s) pars -> isPoint ms pars /\ mMin <= massX ms pars <= mMax
           /\ forall i, (1 <= i < length ms)%nat -> -1 <= pointCos ms pars i <= 1 /\ 0 <= pointPhi ms pars i <= 2 * PI).
Proof.
  intros ms mMin mMax. split.
  - intros model beam tp target recoil. split.
    + intros (s & E). destruct (made_ok ms (mMin, mMax) s (MNew _ _ _ _ _ _ _ _ E)) as (N & L & _). auto.
    + intros [N L]. unfold newSampler. rewrite (proj2 (Nat.ltb_ge _ 2)) by exact N. rewrite rltb_false by lra. rewrite (rd_nth ms 0 0) by lia. cbn [bnd]. eauto.
  - intros s HM Hp. destruct (made_ok ms _ s HM) as (N & LE & _ & _ & EP). cbn [fst snd] in *. rewrite EP.
    assert (length (tl ms) = (length ms - 1)%nat) as LT by (destruct ms; cbn in *; lia).
    assert (length (parLoop mMin mMax (nth 0 ms 0) (tl ms)) = (3 * (length ms - 1))%nat) as LP by (rewrite par_len; lia).
    assert (forall j, (j < length ms - 1)%nat -> nth 0 ms 0 + sumR (firstn (S j) (tl ms)) = pre ms (S j)) as PR.
    { intros j Hj. destruct ms as [|m0 ms]; [cbn in N; lia|]. unfold pre. cbn [nth tl]. change (firstn (S (S j)) (m0 :: ms)) with (m0 :: firstn (S j) ms). unfold sumR. reflexivity. }
    split; [exact LP|]. split.
    + intros pars HP AM HX HA. apply (Forall2_nth within B0 0). split; [now rewrite LP, HP|]. rewrite LP. intros i Hi.
      pose proof (Nat.div_mod i 3 ltac:(lia)) as DM. pose proof (Nat.mod_upper_bound i 3 ltac:(lia)) as MB. set (j := (i / 3)%nat) in *.
      assert (j < length ms - 1)%nat as Hj by lia. destruct (par_nth mMin mMax (tl ms) (nth 0 ms 0) j ltac:(lia)) as (E1 & E2 & E3).
      destruct (HA (S j) ltac:(lia)) as [HC HF]. unfold pointCos, pointPhi in HC, HF. replace (3 * S j - 2)%nat with (3 * j + 1)%nat in HC by lia. replace (3 * S j - 1)%nat with (3 * j + 2)%nat in HF by lia.
      destruct (i mod 3)%nat as [|[|[|k]]] eqn:EM; [| | |lia].
      * replace i with (3 * j)%nat by lia. rewrite E1. cbv zeta. rewrite (PR j Hj), LT.
        assert (nth (3 * j) pars 0 = nth (S j) (pointMasses ms pars) 0) as EJ by (rewrite pm_nth by lia; f_equal; lia). rewrite EJ.
        destruct (Nat.eqb_spec (S j) (length ms - 1)) as [EQ|NE].
        -- assert (nth (S j) (pointMasses ms pars) 0 = massX ms pars) as EX by (rewrite EQ; reflexivity). rewrite EX. unfold reqb. destruct (Req_EM_T mMin mMax); unfold within; cbn [bFixed bLow bHigh]; lra.
        -- unfold within. cbn [bFixed bLow bHigh]. destruct AM as (LA & A0 & A).
           assert (forall k, (k < length ms)%nat -> pre ms k <= nth k (pointMasses ms pars) 0) as LOW.
           { induction k as [|k IH]; intros Hk; [rewrite pre_0 by lia; lra|]. rewrite pre_step by lia. specialize (A (S k) ltac:(lia)). replace (S k - 1)%nat with k in * by lia. specialize (IH ltac:(lia)). lra. }
           assert (forall d k, (k + d < length ms)%nat -> nth k (pointMasses ms pars) 0 <= nth (k + d) (pointMasses ms pars) 0) as UP.
           { induction d as [|d IH]; intros k Hk; [rewrite Nat.add_0_r; lra|]. specialize (IH k ltac:(lia)). specialize (A (k + S d)%nat ltac:(lia)). replace (k + S d - 1)%nat with (k + d)%nat in A by lia. pose proof (pos_nth ms (k + S d) Hp). lra. }
           split; [apply LOW; lia|]. specialize (UP (length ms - 1 - S j)%nat (S j) ltac:(lia)). replace (S j + (length ms - 1 - S j))%nat with (length ms - 1)%nat in UP by lia. fold (massX ms pars) in UP. lra.
      * replace i with (3 * j + 1)%nat by lia. rewrite E2. exact HC.
      * replace i with (3 * j + 2)%nat by lia. rewrite E3. exact HF.
    + intros pars H. apply (Forall2_nth within B0 0) in H as [L H]. rewrite LP in L, H. split; [now symmetry|].
      split.
      * destruct (par_nth mMin mMax (tl ms) (nth 0 ms 0) (length ms - 2)%nat ltac:(lia)) as (E1 & _). specialize (H (3 * (length ms - 2))%nat ltac:(lia)). rewrite E1 in H. cbv zeta in H. rewrite LT in H.
        rewrite (proj2 (Nat.eqb_eq (S (length ms - 2)) (length ms - 1))) in H by lia. unfold massX. rewrite pm_nth by lia. replace (3 * (length ms - 1) - 3)%nat with (3 * (length ms - 2))%nat by lia.
        unfold reqb in H. destruct (Req_EM_T mMin mMax); unfold within in H; cbn [bFixed bLow bHigh] in H; lra.
      * intros i Hi. destruct (par_nth mMin mMax (tl ms) (nth 0 ms 0) (i - 1)%nat ltac:(lia)) as (_ & E2 & E3). pose proof (H (3 * (i - 1) + 1)%nat ltac:(lia)) as H2. pose proof (H (3 * (i - 1) + 2)%nat ltac:(lia)) as H3.
        rewrite E2 in H2. rewrite E3 in H3. unfold within in H2, H3. cbn [bFixed bLow bHigh] in H2, H3. unfold pointCos, pointPhi. replace (3 * i - 2)%nat with (3 * (i - 1) + 1)%nat by lia. replace (3 * i - 1)%nat with (3 * (i - 1) + 2)%nat by lia. auto.
Qed.

(* A point of the sampled space describes a decay of X at rest with these masses, and the direction of the
   last daughter; the likelihood is the intensity of the model for this event, or constant if only phase
   space is wanted; the observables are the squared masses of all pairs. *)
Theorem C84_point : forall ms range s pars, made ms range s -> isPoint ms pars -> Forall (fun m => 0 <= m) ms ->
  let Ms := pointMasses ms pars in let mX := massX ms pars in let n := length ms in
  allowedMasses ms Ms -> 0 < nth 1 Ms 0 -> (forall i, (1 <= i < n)%nat -> -1 <= pointCos ms pars i <= 1) ->
  exists ds q, isEvent ms Ms (Lv 0 0 0 mX) ds
    /\ isBreakup mX (nth (n - 2) Ms 0) (nth (n - 1) ms 0) q
    /\ (let c := pointCos ms pars (n - 1) in let f := pointPhi ms pars (n - 1) in
        vect (nth (n - 1) ds L0) = V3 (q * sqrt (1 - c * c) * cos f) (q * sqrt (1 - c * c) * sin f) (q * c))
    /\ (iOnlyPS s = true -> logLikelihood pars s = Some (Fin 0))
    /\ (iOnlyPS s = false -> forall y, iModel s (map vect ds) = Some y -> 0 <= y -> exists l, logLikelihood pars s = Some l /\ isLog y l)
    /\ (forall rnd mainRun it lag pos obs e pos', calculateObservables rnd mainRun it lag pars pos s = Some (obs, e, pos') ->
          length obs = (n * (n - 1) / 2)%nat
          /\ forall a b, (b < a < n)%nat -> nth (pairIndex a b) obs 0 = inv2 (plus4 (nth a ds L0) (nth b ds L0)))
    /\ (forall rnd mainRun it lag pos, iOpen s = false \/ mainRun = false -> exists obs, calculateObservables rnd mainRun it lag pars pos s = Some (obs, None, pos)).
Proof.
  intros ms range s pars HM HP Hp Ms mX n AM M1 HC. destruct (event_ok ms range s pars HM HP Hp AM M1 HC) as (g & q & EG & EV & (BR & DI)). fold mX Ms in EV, BR. fold n in BR, DI.
  destruct (made_ok ms range s HM) as (N & _ & EM & _). fold n in N. exists (gDau g), q. split; [exact EV|]. replace (n - 1 - 1)%nat with (n - 2)%nat in BR by lia. split; [exact BR|]. split; [exact DI|].
  destruct EV as (LD & _). split; [|split; [|split]].
  - intros E. unfold logLikelihood. now rewrite E.
  - intros E y EI Y. unfold logLikelihood. rewrite E, EG. cbn [bnd]. rewrite EI. cbn [bnd ilog]. unfold isLog. destruct (Rle_lt_or_eq_dec 0 y Y) as [P|P].
    + rewrite rltb_true by exact P. eauto.
    + subst y. rewrite !rltb_false by lra. eauto.
  - intros rnd mainRun it lag pos obs e pos' E. unfold calculateObservables in E. rewrite EG in E. cbn [bnd] in E. unfold nPart in E. rewrite EM, (massX_rd ms pars N HP) in E. cbn [bnd] in E.
    destruct (pairMasses_ok (gDau g)) as [P1 P2]. rewrite LD in P1, P2. fold n in P1, P2.
    assert (obs = pairMasses (gDau g)) as ->; [|split; assumption].
    destruct (iOpen s && mainRun); [|now inversion E]. destruct (lag =? 0)%nat; [discriminate|]. destruct (negb (it mod lag =? 0)%nat); [now inversion E|].
    apply bnd_some in E as ([[[tp b] X] p2] & _ & E). apply bnd_some in E as (G & _ & E). now inversion E.
  - intros rnd mainRun it lag pos H. unfold calculateObservables. rewrite EG. cbn [bnd]. unfold nPart. rewrite EM, (massX_rd ms pars N HP). cbn [bnd].
    assert (iOpen s && mainRun = false) as -> by (destruct H as [E|E]; rewrite E; [reflexivity|now rewrite andb_false_r]). eauto.
Qed.

(* The stored event: X is produced by the beam on the target with the t' that was drawn; its daughters have
   the masses of the point in the laboratory frame; in the Gottfried-Jackson frame they are the momenta the
   likelihood was calculated for. *)
Theorem C84_stored_event : forall ms range s pars mb beam tp w p q rnd it lag pos pos1 pos2, made ms range s -> isPoint ms pars -> Forall (fun m => 0 <= m) ms ->
  let Ms := pointMasses ms pars in let mX := massX ms pars in let n := length ms in let mt := iTarget s in let mr := iRecoil s in
  allowedMasses ms Ms -> 0 < nth 1 Ms 0 -> (forall i, (1 <= i < n)%nat -> -1 <= pointCos ms pars i <= 1) ->
  iOpen s = true -> (0 < lag)%nat -> (it mod lag = 0)%nat ->
  iBeam s rnd pos = Some (true, beam, pos1) -> iTPrime s mX rnd pos1 = Some (true, tp, pos2) ->
  isBeam mb beam -> 0 < mt -> 0 <= mr -> 0 < w -> hasMass w (plus4 beam (atRest mt)) -> mX + mr <= w ->
  isBreakup w mb mt p -> isBreakup w mX mr q -> 0 <= tp -> tp < 4 * p * q \/ tp = 0 ->
  exists obs X G labs,
    calculateObservables rnd true it lag pars pos s = Some (obs, Some (Evt [vect beam] (map vect labs) (if iStore s then [mX; tp] else [])), S pos2)
    /\ possible beam (atRest mt) mX mr X /\ isTPrime beam (atRest mt) mX mr X tp
    /\ isEvent ms Ms X labs
    /\ (forall i, (i < n)%nat -> withMass (nth i ms 0) (nth i (map vect labs) (V3 0 0 0)) = nth i labs L0)
    /\ gjTransform beam X = Some G /\ isLorentz G /\ lapply G X = Lv 0 0 0 mX
    /\ (iOnlyPS s = false -> forall y, iModel s (map vect (map (lapply G) labs)) = Some y -> 0 <= y -> exists l, logLikelihood pars s = Some l /\ isLog y l).
Proof.
  intros ms range s pars mb beam tp w p q rnd it lag pos pos1 pos2 HM HP Hp Ms mX n mt mr AM M1 HC HO HL HI EB ET BM MT MR W0 HW LE B1 B2 T0 T1.
  destruct (event_ok ms range s pars HM HP Hp AM M1 HC) as (g & q0 & EG & EV & _). fold mX Ms in EV. destruct (made_ok ms range s HM) as (N & _ & EM & _). fold n in N.
  assert (0 < mX) as X0 by (apply (masses_pos ms Ms Hp AM M1); fold n; lia).
  destruct (C80_outgoing_system mb mt mX mr w p q beam tp (rnd pos2) BM MT ltac:(lra) MR W0 HW LE B1 B2 T0 T1) as (X & EX & PO & TP & _).
  assert (massive mX X) as MX.
  { destruct PO as (HX & PX & _). split; [exact X0|]. split; [|exact HX]. unfold hasMass in HX. destruct (Rle_lt_or_eq_dec 0 (lt X) PX) as [P|P]; [exact P|]. rewrite <- P in HX. nra. }
  destruct (gj_always beam X mX MX) as (G & EJ & GG & GX).
  exists (pairMasses (gDau g)), X, G, (map (lapply (linv G)) (gDau g)).
  assert (isEvent ms Ms X (map (lapply (linv G)) (gDau g))) as LAB. { rewrite <- (gd_l _ GG X), GX. now apply inv_event. }
  split.
  { unfold calculateObservables. rewrite EG. cbn [bnd]. unfold nPart. rewrite EM, (massX_rd ms pars N HP). cbn [bnd]. fold mX. rewrite HO. cbn [andb].
    destruct (Nat.eqb_spec lag 0) as [Q|_]; [lia|]. rewrite HI. cbn [Nat.eqb negb]. unfold getProductionKinematics. rewrite EB. cbn [bnd negb]. rewrite ET. cbn [bnd negb]. unfold atRest in EX. fold mt mr. rewrite EX. cbn [bnd]. rewrite EJ. cbn [bnd].
    rewrite (lvM_ok X mX ltac:(lra) (proj1 PO)). rewrite map_map. reflexivity. }
  split; [exact PO|]. split; [exact TP|]. split; [exact LAB|]. split.
  { intros i Hi. destruct LAB as (LL & _ & ON & _). destruct (ON i Hi) as [H1 H2]. change (V3 0 0 0) with (vect L0). rewrite map_nth. now apply withMass_ok. }
  split; [exact EJ|]. split; [apply GG|]. split; [exact GX|].
  intros EO y EI Y. unfold logLikelihood. rewrite EO, EG. cbn [bnd]. rewrite (map_map (lapply (linv G)) (lapply G)) in EI. rewrite (map_ext (fun x => lapply G (lapply (linv G) x)) (fun x => x)) in EI by (intros x; apply (gd_r _ GG)). rewrite map_id in EI.
  rewrite EI. cbn [bnd ilog]. unfold isLog. destruct (Rle_lt_or_eq_dec 0 y Y) as [P|P].
  - rewrite rltb_true by exact P. eauto.
  - subst y. rewrite !rltb_false by lra. eauto.
Qed.
