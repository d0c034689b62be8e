From Coq Require Import String Ascii List ZArith Bool Reals Lia Lra.
From Verif Require Import PathModel StrModel DecModel ParticleModel WaveSetModel WaveDescModel WaveDescSpec.
Import ListNotations.
Open Scope list_scope. Open Scope Z_scope.

Lemma ltR_false a b : (b <= a)%R -> ltR a b = false.
Proof. intros H. unfold ltR. destruct (Rlt_dec a b); [lra|auto]. Qed.
Lemma ltR_true a b : (a < b)%R -> ltR a b = true.
Proof. intros H. unfold ltR. destruct (Rlt_dec a b); [auto|lra]. Qed.

Lemma name_inj_bare n m q : n <> [] -> nameWithCharge n q = nameWithCharge m q -> n = m.
Proof.
  intros Hn H. destruct n as [|a n]; [congruence|]. destruct m as [|b m].
  - exfalso. change (nameWithCharge [] q) with (@nil ascii) in H. unfold nameWithCharge in H. discriminate.
  - unfold nameWithCharge in H. apply app_inv_tail in H. exact H.
Qed.
Lemma vertexEqual_name p L Sp md a b d : pName (ptP p) = lit "X"%string -> vertexEqual (WNode p L Sp md a b) d = true ->
  pName (ptP (wTop d)) = lit "X"%string.
Proof.
  intros HX H. destruct d as [|p' L' Sp' md' a' b']; cbn in H; [discriminate|].
  apply andb_prop in H; destruct H as [H _]. apply andb_prop in H; destruct H as [H _]. apply andb_prop in H; destruct H as [H _].
  apply andb_prop in H; destruct H as [H _]. apply andb_prop in H; destruct H as [H _].
  unfold partEqual in H. repeat (apply andb_prop in H; destruct H as [H ?]).
  unfold isEqualTo in H. repeat (apply andb_prop in H; destruct H as [H ?]).
  apply str_eqb_eq in H. unfold name in H.
  assert (pCharge (ptP p) = pCharge (ptP p')) as E by (apply Z.eqb_eq; assumption).
  rewrite E, HX in H. apply name_inj_bare in H; [|discriminate]. cbn [wTop]. symmetry; exact H.
Qed.

Definition listKey (k : str) (l : list setting) : list (str * setting) := match l with [] => [] | _ => [(k, SList l)] end.
Definition isoOf (X x : wdecay) : list setting :=
  match x with WFs _ => [] | WNode q _ _ _ _ _ => [SGroup ((lit "name"%string, SString (name (ptP q))) :: decayKeys X x)] end.
Definition fsOf (x : wdecay) : list setting :=
  match x with WFs q => [SGroup [(lit "name"%string, SString (name (ptP q)))]] | WNode _ _ _ _ _ _ => [] end.
Lemma decayKeys_eq X p L Sp md d1 d2 : decayKeys X (WNode p L Sp md d1 d2) =
  massDepKeys md (vertexEqual X (WNode p L Sp md d1 d2)) ++ listKey (lit "isobars"%string) (isoOf X d1 ++ isoOf X d2) ++
  [(lit "L"%string, SInt (toInt L)); (lit "S"%string, SInt (toInt Sp))] ++ listKey (lit "fsParticles"%string) (fsOf d1 ++ fsOf d2).
Proof. reflexivity. Qed.

Definition preOk (pre : list (str * setting)) := pre = [] \/ exists n, pre = [(lit "name"%string, SString n)].
Lemma massDepKeys_cases md b : massDepKeys md b = [] \/ exists s, massDepKeys md b = [(lit "massDep"%string, SGroup s)].
Proof. unfold massDepKeys. destruct (b && _); [auto|]. destruct (negb b && _); [auto|]. right. eexists. reflexivity. Qed.

Section Keys.
  Variables (X : wdecay) (p : particle) (L Sp : Z) (md : mdep) (d1 d2 : wdecay) (pre : list (str * setting)).
  Hypothesis Hp : preOk pre.
  Let d := WNode p L Sp md d1 d2.
  Let k := SGroup (pre ++ decayKeys X d).
  Ltac go := unfold k, d; rewrite decayKeys_eq;
    destruct (massDepKeys_cases md (vertexEqual X (WNode p L Sp md d1 d2))) as [E|[s E]]; rewrite E;
    destruct Hp as [->|[n ->]];
    destruct (isoOf X d1 ++ isoOf X d2) as [|i1 il]; destruct (fsOf d1 ++ fsOf d2) as [|f1 fl]; reflexivity.
  Lemma keys_fs : match findList (lit "fsParticles"%string) k with Some l => l | None => [] end = fsOf d1 ++ fsOf d2.
  Proof. go. Qed.
  Lemma keys_iso : match findList (lit "isobars"%string) k with Some l => l | None => [] end = isoOf X d1 ++ isoOf X d2.
  Proof. go. Qed.
  Lemma keys_L : lookInt (lit "L"%string) k = Some (toInt L).
  Proof. go. Qed.
  Lemma keys_S : lookInt (lit "S"%string) k = Some (toInt Sp).
  Proof. go. Qed.
  Lemma keys_md : findGroup (lit "massDep"%string) k = match massDepKeys md (vertexEqual X d) with [] => None | (_, s) :: _ => Some s end.
  Proof. go. Qed.
  Lemma keys_index : isoOf X d1 ++ isoOf X d2 <> [] -> fsOf d1 ++ fsOf d2 <> [] ->
    (indexOf (lit "fsParticles"%string) k <? indexOf (lit "isobars"%string) k)%nat = false.
  Proof.
    intros H1 H2. unfold k, d; rewrite decayKeys_eq;
    destruct (massDepKeys_cases md (vertexEqual X (WNode p L Sp md d1 d2))) as [E|[s E]]; rewrite E;
    destruct Hp as [->|[n ->]];
    destruct (isoOf X d1 ++ isoOf X d2) as [|i1 il]; destruct (fsOf d1 ++ fsOf d2) as [|f1 fl]; try congruence; reflexivity.
  Qed.
End Keys.

Lemma createParticle_known t p : known t p -> createParticle t (name (ptP p)) = Some (bare p).
Proof. intros H. unfold createParticle. rewrite H. reflexivity. Qed.
Lemma readParticle_name t p l : known t p -> findKey (lit "spinProj"%string) l = None -> findKey (lit "index"%string) l = None ->
  readParticle t (SGroup ((lit "name"%string, SString (name (ptP p))) :: l)) = Some (Some (bare p)).
Proof.
  intros H Hs Hi. unfold readParticle.
  change (lookStr (lit "name"%string) (SGroup ((lit "name"%string, SString (name (ptP p))) :: l))) with (Some (name (ptP p))).
  cbn [bindP]. rewrite (createParticle_known t p H). cbn [bindP].
  change (lookInt (lit "spinProj"%string) (SGroup ((lit "name"%string, SString (name (ptP p))) :: l))) with
    (match findKey (lit "spinProj"%string) l with Some (SInt z) => Some z | _ => None end).
  change (lookInt (lit "index"%string) (SGroup ((lit "name"%string, SString (name (ptP p))) :: l))) with
    (match findKey (lit "index"%string) l with Some (SInt z) => Some z | _ => None end).
  rewrite Hs, Hi. reflexivity.
Qed.
Lemma decayKeys_none X d k : str_eqb k (lit "massDep"%string) = false -> str_eqb k (lit "isobars"%string) = false ->
  str_eqb k (lit "L"%string) = false -> str_eqb k (lit "S"%string) = false -> str_eqb k (lit "fsParticles"%string) = false ->
  findKey k (decayKeys X d) = None.
Proof.
  intros H1 H2 H3 H4 H5. destruct d as [q|p L Sp md d1 d2]; [reflexivity|]. rewrite decayKeys_eq.
  destruct (massDepKeys_cases md (vertexEqual X (WNode p L Sp md d1 d2))) as [E|[s E]]; rewrite E;
    destruct (isoOf X d1 ++ isoOf X d2) as [|i1 il]; destruct (fsOf d1 ++ fsOf d2) as [|f1 fl];
    cbn [listKey app findKey]; rewrite ?H1, ?H2, ?H3, ?H4, ?H5; reflexivity.
Qed.
Lemma toU_toI z : isU32 z -> toUnsigned (toInt z) = z.
Proof.
  intros [H1 H2]. unfold toUnsigned, toInt. destruct (Z.ltb_spec z 2147483648).
  - apply Z.mod_small; lia.
  - replace (z - 4294967296) with (z + (-1) * 4294967296) by lia. rewrite Z.mod_add by lia. apply Z.mod_small; lia.
Qed.
(* the mass dependence of an isobar *)
Lemma md_read md : mdOrdered md -> (forall g, md <> MGlass g) ->
  mapMassDependenceType (match massDepKeys md false with [] => None | (_, s) :: _ => Some s end) = Some (mdBack md).
Proof.
  intros H HG. destruct md as [| lo hi | | | | | | | | | | g | m]; try reflexivity; [|destruct (HG g); reflexivity].
  unfold massDepKeys. cbn [andb negb mdName]. change (str_eqb (lit "binned"%string) bwName) with false. cbv iota.
  unfold mapMassDependenceType.
  change (lookStr (lit "name"%string) _) with (Some (lit "binned"%string)). cbv iota beta zeta.
  unfold createMassDependence.
  change (str_eqb (lit "binned"%string) []) with false. change (str_eqb (lit "binned"%string) (lit "f_0(980)"%string)) with false.
  change (str_eqb (lit "binned"%string) (lit "f_0(980)Flatte"%string)) with false. change (str_eqb (lit "binned"%string) (mdName MFlat)) with false.
  change (str_eqb (lit "binned"%string) (mdName (MBinned 0 0))) with true. cbv iota.
  unfold createBinned.
  change (findList (lit "bounds"%string) _) with (Some [SFloat lo; SFloat hi]). cbv iota. cbn [asFloat bindP].
  rewrite (ltR_false hi lo) by exact H. reflexivity.
Qed.
Lemma md_glass g : mapMassDependenceType (match massDepKeys (MGlass g) false with [] => None | (_, s) :: _ => Some s end) = None.
Proof. reflexivity. Qed.

Fixpoint wdepth (d : wdecay) : nat := match d with WFs _ => 0%nat | WNode _ _ _ _ a b => S (Nat.max (wdepth a) (wdepth b)) end.

Lemma bnd_some {A B} (x : A) (f : A -> option B) : bindP (Some x) f = f x.
Proof. reflexivity. Qed.

Lemma readFs_app t l r : readFs t (l ++ r) = doP a <- readFs t l; doP b <- readFs t r; Some (fst a ++ fst b, snd a && snd b).
Proof.
  induction l as [|x l IH]; cbn [app readFs].
  - rewrite bnd_some. destruct (readFs t r) as [[u v]|]; [rewrite bnd_some|]; reflexivity.
  - destruct (readParticle t x) as [o|]; [|reflexivity]. rewrite !bnd_some. rewrite IH.
    destruct (readFs t l) as [[u v]|]; [|reflexivity]. rewrite !bnd_some.
    destruct (readFs t r) as [[u' v']|]; [rewrite !bnd_some|destruct o; reflexivity].
    destruct o; reflexivity.
Qed.
Definition iskey (X x : wdecay) : setting := SGroup ((lit "name"%string, SString (name (ptP (wTop x)))) :: decayKeys X x).
Lemma readParticle_iso t X x : known t (wTop x) -> readParticle t (iskey X x) = Some (Some (bare (wTop x))).
Proof. intros H. unfold iskey. apply readParticle_name; [exact H|apply decayKeys_none; reflexivity..]. Qed.

(* one vertex *)
Lemma step t X n p L Sp md d1 d2 pre pp (g : wdecay -> option wdecay) : preOk pre ->
  known t (wTop d1) -> known t (wTop d2) -> isU32 L -> isU32 Sp ->
  (forall x, x = d1 \/ x = d2 -> isFs x = true -> g x = Some (WFs (bare (wTop x)))) ->
  (forall x, x = d1 \/ x = d2 -> isFs x = false -> readVertex n t (iskey X x) (bare (wTop x)) = doP y <- g x; Some (Some y)) ->
  readVertex (S n) t (SGroup (pre ++ decayKeys X (WNode p L Sp md d1 d2))) pp =
  doP e1 <- g d1; doP e2 <- g d2;
  doP m <- (if str_eqb (pName (ptP pp)) (lit "X"%string) then Some MFlat
            else mapMassDependenceType (match massDepKeys md (vertexEqual X (WNode p L Sp md d1 d2)) with [] => None | (_, s) :: _ => Some s end));
  Some (Some (node pp L Sp m (isFs d1) (isFs d2) e1 e2)).
Proof.
  intros Hpre K1 K2 HL HS Hf Hi. cbn [readVertex].
  rewrite (keys_fs X p L Sp md d1 d2 pre Hpre), (keys_iso X p L Sp md d1 d2 pre Hpre), (keys_L X p L Sp md d1 d2 pre Hpre),
    (keys_S X p L Sp md d1 d2 pre Hpre), (keys_md X p L Sp md d1 d2 pre Hpre).
  pose proof (keys_index X p L Sp md d1 d2 pre Hpre) as HI.
  set (ind := (indexOf (lit "fsParticles"%string) (SGroup (pre ++ decayKeys X (WNode p L Sp md d1 d2))) <?
               indexOf (lit "isobars"%string) (SGroup (pre ++ decayKeys X (WNode p L Sp md d1 d2))))%nat) in *.
  set (M := if str_eqb (pName (ptP pp)) (lit "X"%string) then Some MFlat else _). clearbody M. clearbody ind.
  pose proof (Hf d1 (or_introl eq_refl)) as F1. pose proof (Hf d2 (or_intror eq_refl)) as F2.
  pose proof (Hi d1 (or_introl eq_refl)) as I1. pose proof (Hi d2 (or_intror eq_refl)) as I2.
  pose proof (readParticle_iso t X d1 K1) as P1. pose proof (readParticle_iso t X d2 K2) as P2.
  clear Hf Hi.
  destruct d1 as [q1|q1 L1 S1 m1 a1 b1]; destruct d2 as [q2|q2 L2 S2 m2 a2 b2]; cbn [isFs wTop andb negb] in *.
  - rewrite (F1 eq_refl), (F2 eq_refl). cbn [fsOf isoOf app readFs readIsobars].
    rewrite (readParticle_name t q1 [] K1), (readParticle_name t q2 [] K2) by reflexivity.
    cbn [bindP fst snd andb negb]. rewrite (toU_toI L HL), (toU_toI Sp HS). destruct M; reflexivity.
  - rewrite (F1 eq_refl). specialize (I2 eq_refl). cbn [fsOf isoOf app readFs readIsobars].
    rewrite (readParticle_name t q1 [] K1) by reflexivity.
    cbn [isoOf app fsOf] in HI. rewrite HI by discriminate.
    unfold iskey in I2, P2. cbn [wTop] in I2, P2. rewrite P2. cbn [bindP]. rewrite I2.
    destruct (g (WNode q2 L2 S2 m2 a2 b2)) as [y|]; cbn [bindP fst snd andb negb]; [|reflexivity].
    rewrite (toU_toI L HL), (toU_toI Sp HS). destruct M; reflexivity.
  - rewrite (F2 eq_refl). specialize (I1 eq_refl). cbn [fsOf isoOf app readFs readIsobars].
    rewrite (readParticle_name t q2 [] K2) by reflexivity.
    cbn [isoOf app fsOf] in HI. rewrite HI by discriminate.
    unfold iskey in I1, P1. cbn [wTop] in I1, P1. rewrite P1. cbn [bindP]. rewrite I1.
    destruct (g (WNode q1 L1 S1 m1 a1 b1)) as [y|]; cbn [bindP fst snd andb negb]; [|reflexivity].
    rewrite (toU_toI L HL), (toU_toI Sp HS). destruct M; reflexivity.
  - specialize (I1 eq_refl). specialize (I2 eq_refl). cbn [fsOf isoOf app readFs readIsobars].
    unfold iskey in I1, P1, I2, P2. cbn [wTop] in I1, P1, I2, P2. rewrite P1, P2. cbn [bindP]. rewrite I1, I2.
    destruct (g (WNode q1 L1 S1 m1 a1 b1)) as [y1|]; cbn [bindP fst snd andb negb]; [|reflexivity].
    destruct (g (WNode q2 L2 S2 m2 a2 b2)) as [y2|]; cbn [bindP fst snd andb negb]; [|reflexivity].
    rewrite (toU_toI L HL), (toU_toI Sp HS). destruct M; reflexivity.
Qed.

Lemma readable_known t d : readable t d -> known t (wTop d).
Proof. destruct d; cbn; tauto. Qed.
Fixpoint glassb (d : wdecay) : bool :=
  match d with WFs _ => false | WNode _ _ _ md a b => (match md with MGlass _ => true | _ => false end) || glassb a || glassb b end.
Lemma glassb_spec d : glassb d = true <-> hasGlass d.
Proof.
  induction d as [q|p L Sp md d1 IH1 d2 IH2]; cbn; [intuition discriminate|].
  rewrite !orb_true_iff, IH1, IH2.
  assert ((match md with MGlass _ => true | _ => false end) = true <-> exists g, md = MGlass g) as E.
  { destruct md; split; intros H; try discriminate H; try (destruct H; discriminate); [eexists|]; reflexivity. }
  rewrite E. tauto.
Qed.
Definition res (d : wdecay) : option wdecay := if glassb d then None else Some (back d).

Lemma read_isobar t X : pName (ptP (wTop X)) = lit "X"%string -> isFs X = false -> forall d n pre, preOk pre -> readable t d -> isFs d = false ->
  (wdepth d <= n)%nat -> readVertex n t (SGroup (pre ++ decayKeys X d)) (bare (wTop d)) = doP y <- res d; Some (Some y).
Proof.
  intros HX HXn. induction d as [q|p L Sp md d1 IH1 d2 IH2]; intros n pre Hpre Hr Hn Hd; [discriminate|].
  destruct Hr as (K & NX & HL & HS & HM & HQ & HQ10 & R1 & R2). cbn [wdepth] in Hd.
  destruct n as [|n]; [lia|].
  rewrite (step t X n p L Sp md d1 d2 pre _ res Hpre (readable_known t d1 R1) (readable_known t d2 R2) HL HS).
  - assert (vertexEqual X (WNode p L Sp md d1 d2) = false) as EV.
    { destruct (vertexEqual X (WNode p L Sp md d1 d2)) eqn:E; [|reflexivity]. destruct X as [|xp xl xs xm xa xb]; [discriminate|].
      apply vertexEqual_name in E; [|exact HX]. cbn [wTop] in E. contradiction. }
    rewrite EV. cbn [wTop].
    replace (str_eqb (pName (ptP (bare p))) (lit "X"%string)) with false by (symmetry; apply str_eqb_neq; exact NX).
    unfold res. cbn [glassb back]. destruct (glassb d1); [rewrite orb_true_r; reflexivity|]. destruct (glassb d2); [rewrite orb_true_r; reflexivity|].
    cbn [bindP]. rewrite !orb_false_r.
    destruct (match md with MGlass _ => true | _ => false end) eqn:EG.
    + destruct md; try discriminate EG. rewrite md_glass. reflexivity.
    + rewrite (md_read md HM) by (intros gg E; rewrite E in EG; discriminate EG). reflexivity.
  - intros x Hx Hxf. unfold res. destruct x; [reflexivity|discriminate].
  - intros x Hx Hxf. change (iskey X x) with (SGroup ([(lit "name"%string, SString (name (ptP (wTop x))))] ++ decayKeys X x)).
    destruct Hx as [-> | ->]; [apply IH1|apply IH2]; try assumption; try lia; right; eexists; reflexivity.
Qed.
Definition backXp (pp : particle) (d : wdecay) : wdecay :=
  match d with WFs p => WFs p | WNode p L Sp md d1 d2 => node pp L Sp MFlat (isFs d1) (isFs d2) (back d1) (back d2) end.
Definition glassXb (d : wdecay) : bool := match d with WFs _ => false | WNode _ _ _ _ d1 d2 => glassb d1 || glassb d2 end.
Lemma glassXb_spec d : glassXb d = true <-> hasGlassX d.
Proof. destruct d; cbn; [intuition discriminate|]. rewrite orb_true_iff, !glassb_spec. tauto. Qed.
Lemma read_X t d n pp : readableX t d -> pName (ptP pp) = lit "X"%string -> (wdepth d <= n)%nat ->
  readVertex n t (SGroup (decayKeys d d)) pp = if glassXb d then None else Some (Some (backXp pp d)).
Proof.
  destruct d as [q|p L Sp md d1 d2]; [intros []|]. intros (HX & HL & HS & HQ & R1 & R2) Hpp Hd. cbn [wdepth] in Hd.
  assert (pName (ptP p) = lit "X"%string) as NX by (destruct HX as (q & B & Iso & St & c & b & G & J & P & C & E & _); rewrite E; reflexivity).
  destruct n as [|n]; [lia|]. pose (X := WNode p L Sp md d1 d2).
  pose proof (step t X n p L Sp md d1 d2 [] pp res (or_introl eq_refl) (readable_known t d1 R1) (readable_known t d2 R2) HL HS) as St.
  cbn [app] in St. change (WNode p L Sp md d1 d2) with X in St |- * at 1. unfold X in St at 2. 
  etransitivity; [apply St|].
  - intros x Hx Hxf. unfold res. destruct x; [reflexivity|discriminate].
  - intros x Hx Hxf. change (iskey X x) with (SGroup ([(lit "name"%string, SString (name (ptP (wTop x))))] ++ decayKeys X x)).
    apply read_isobar; try assumption; try reflexivity.
    + right; eexists; reflexivity.
    + destruct Hx as [-> | ->]; assumption.
    + destruct Hx as [-> | ->]; lia.
  - rewrite Hpp, str_eqb_refl. unfold res, glassXb, X. destruct (glassb d1); [reflexivity|]. destruct (glassb d2); reflexivity.
Qed.

Lemma setCharge_same p : -10 < pCharge p < 10 -> setCharge (pCharge p) p = Some p.
Proof. intros H. unfold setCharge. destruct (Z.ltb_spec (Z.abs (pCharge p)) 10); [destruct p; reflexivity|lia]. Qed.
Lemma back_charge d : topCharge (back d) = topCharge d.
Proof. destruct d as [q|p L Sp md d1 d2]; [reflexivity|]. cbn [back]. unfold node. destruct (_ && _); reflexivity. Qed.
Lemma charges_back t d : readable t d -> isobarCharges t false (back d) = Some (back d).
Proof.
  induction d as [q|p L Sp md d1 IH1 d2 IH2]; [reflexivity|]. intros (K & NX & HL & HS & HM & HQ & HQ10 & R1 & R2). cbn [back]. unfold node.
  specialize (IH1 R1). specialize (IH2 R2). pose proof (back_charge d1) as E1. pose proof (back_charge d2) as E2. unfold topCharge in E1, E2, HQ.
  assert (forall a b, isobarCharges t false a = Some a -> isobarCharges t false b = Some b ->
    pCharge (ptP (wTop a)) + pCharge (ptP (wTop b)) = pCharge (ptP p) ->
    isobarCharges t false (WNode (bare p) L Sp (mdBack md) a b) = Some (WNode (bare p) L Sp (mdBack md) a b)) as G.
  { intros a b Ia Ib Hs. cbn [isobarCharges]. rewrite Ia, Ib. cbn [bindP]. rewrite Hs. cbn [bare ptP]. rewrite setCharge_same by exact HQ10.
    cbn [bindP]. rewrite Z.eqb_refl. reflexivity. }
  destruct (_ && _); apply G; try assumption; lia.
Qed.
(* X as it is read, before the charge is set *)
Definition zeroCharge (p : pprops) : pprops :=
  PP (pName p) (pAnti p) 0 (pMass p) (pMass2 p) (pWidth p) (pB p) (pI p) (pS p) (pCharm p) (pBeauty p) (pG p) (pJ p) (pP p) (pC p) (pDecays p).
Definition x0 (x : particle) : particle := Part (zeroCharge (ptP x)) (ptM x) (ptIndex x) (ptRefl x).
Lemma charges_backX t d : readableX t d -> isobarCharges t true (backXp (x0 (wTop d)) d) = Some (backX d).
Proof.
  destruct d as [q|p L Sp md d1 d2]; [intros []|]. intros (HX & HL & HS & HQ & R1 & R2). cbn [backX backXp wTop]. unfold node.
  pose proof (charges_back t d1 R1) as I1. pose proof (charges_back t d2 R2) as I2. pose proof (back_charge d1) as E1. pose proof (back_charge d2) as E2. unfold topCharge in E1, E2, HQ.
  assert (forall a b, isobarCharges t false a = Some a -> isobarCharges t false b = Some b ->
    pCharge (ptP (wTop a)) + pCharge (ptP (wTop b)) = pCharge (ptP p) ->
    isobarCharges t true (WNode (x0 p) L Sp MFlat a b) = Some (WNode p L Sp MFlat a b)) as G.
  { intros a b Ia Ib Hs. cbn [isobarCharges]. rewrite Ia, Ib. cbn [bindP]. rewrite Hs.
    destruct HX as (q & B & Iso & St & c & bb & GG & J & P & C & E & _ & _ & _ & _ & _ & HC & Hq & _).
    assert (setCharge (pCharge (ptP p)) (ptP (x0 p)) = Some (ptP p)) as ->.
    { unfold setCharge. rewrite E. cbn [pCharge]. destruct (Z.ltb_spec (Z.abs q) 10); [|lia]. unfold x0, zeroCharge. cbn [ptP]. rewrite E. reflexivity. }
    cbn [bindP]. rewrite andb_false_r. cbn [bindP].
    destruct p as [pp m i r]. cbn [x0 ptP ptM ptIndex ptRefl] in *. subst pp. cbn [pCharge pC].
    destruct HC as [-> | ->]; cbn [Z.eqb negb andb]; [reflexivity|]. rewrite andb_false_r. reflexivity. }
  destruct (_ && _); apply G; try assumption; lia.
Qed.

(* the quantum numbers of X *)
Definition optKey (k : str) (z : Z) : list (str * setting) := if z =? 0 then [] else [(k, SInt z)].
Lemma XQnKeys_eq x : XQnKeys x = [(lit "isospin"%string, SInt (pI (ptP x)))] ++ optKey (lit "G"%string) (pG (ptP x)) ++
  [(lit "J"%string, SInt (pJ (ptP x))); (lit "P"%string, SInt (pP (ptP x)))] ++
  optKey (lit "C"%string) (pC (ptP x)) ++ [(lit "M"%string, SInt (ptM x))] ++ optKey (lit "refl"%string) (ptRefl x) ++ optKey (lit "baryonNmb"%string) (pB (ptP x)) ++
  optKey (lit "strangeness"%string) (pS (ptP x)) ++ optKey (lit "charm"%string) (pCharm (ptP x)) ++ optKey (lit "beauty"%string) (pBeauty (ptP x)).
Proof. reflexivity. Qed.
Definition optVal (k : str) (s : setting) : Z := match lookInt k s with Some z => z | None => 0 end.
Ltac optkeys x := rewrite XQnKeys_eq; unfold optKey;
  destruct (Z.eqb_spec (pG (ptP x)) 0); destruct (Z.eqb_spec (pC (ptP x)) 0); destruct (Z.eqb_spec (ptRefl x) 0); destruct (Z.eqb_spec (pB (ptP x)) 0);
  destruct (Z.eqb_spec (pS (ptP x)) 0); destruct (Z.eqb_spec (pCharm (ptP x)) 0); destruct (Z.eqb_spec (pBeauty (ptP x)) 0);
  try reflexivity; symmetry; assumption.
Lemma xk_G x : optVal (lit "G"%string) (SGroup (XQnKeys x)) = pG (ptP x).
Proof. optkeys x. Qed.
Lemma xk_C x : optVal (lit "C"%string) (SGroup (XQnKeys x)) = pC (ptP x).
Proof. optkeys x. Qed.
Lemma xk_refl x : optVal (lit "refl"%string) (SGroup (XQnKeys x)) = ptRefl x.
Proof. optkeys x. Qed.
Lemma xk_baryonNmb x : optVal (lit "baryonNmb"%string) (SGroup (XQnKeys x)) = pB (ptP x).
Proof. optkeys x. Qed.
Lemma xk_strangeness x : optVal (lit "strangeness"%string) (SGroup (XQnKeys x)) = pS (ptP x).
Proof. optkeys x. Qed.
Lemma xk_charm x : optVal (lit "charm"%string) (SGroup (XQnKeys x)) = pCharm (ptP x).
Proof. optkeys x. Qed.
Lemma xk_beauty x : optVal (lit "beauty"%string) (SGroup (XQnKeys x)) = pBeauty (ptP x).
Proof. optkeys x. Qed.
Lemma xk_isospin x : lookInt (lit "isospin"%string) (SGroup (XQnKeys x)) = Some (pI (ptP x)).
Proof. optkeys x. Qed.
Lemma xk_J x : lookInt (lit "J"%string) (SGroup (XQnKeys x)) = Some (pJ (ptP x)).
Proof. optkeys x. Qed.
Lemma xk_P x : lookInt (lit "P"%string) (SGroup (XQnKeys x)) = Some (pP (ptP x)).
Proof. optkeys x. Qed.
Lemma xk_M x : lookInt (lit "M"%string) (SGroup (XQnKeys x)) = Some (ptM x).
Proof. optkeys x. Qed.
Lemma readX_keys x : isX x -> readX (SGroup (XQnKeys x)) = Some (Some (x0 x)).
Proof.
  intros (q & B & Iso & St & c & b & G & J & P & C & E & HI & HJ & HG & HP & HC & _ & Hq & Hi).
  unfold readX. rewrite xk_isospin, xk_J, xk_P, xk_M. cbv beta zeta.
  fold (optVal (lit "G"%string) (SGroup (XQnKeys x))). fold (optVal (lit "C"%string) (SGroup (XQnKeys x))). fold (optVal (lit "refl"%string) (SGroup (XQnKeys x))).
  fold (optVal (lit "baryonNmb"%string) (SGroup (XQnKeys x))). fold (optVal (lit "strangeness"%string) (SGroup (XQnKeys x))).
  fold (optVal (lit "charm"%string) (SGroup (XQnKeys x))). fold (optVal (lit "beauty"%string) (SGroup (XQnKeys x))).
  rewrite xk_G, xk_C, xk_refl, xk_baryonNmb, xk_strangeness, xk_charm, xk_beauty.
  destruct x as [pp m i r]. cbn [ptP ptM ptRefl ptIndex] in *. subst pp i.
  change (setName (lit "X"%string) pDefault) with (Some (PP (lit "X"%string) [] 0 0%R 0%R 0%R 0 0 0 0 0 0 0 0 0 [])). cbn [bindP].
  unfold x0, zeroCharge. cbn [ptP ptM ptIndex ptRefl].
  unfold setIsospin at 1. cbn [pName pAnti pCharge pMass pMass2 pWidth pB pI pS pCharm pBeauty pG pJ pP pC pDecays].
  unfold setG at 1. cbn [pName pAnti pCharge pMass pMass2 pWidth pB pI pS pCharm pBeauty pG pJ pP pC pDecays].
  unfold setJ at 1. cbn [pName pAnti pCharge pMass pMass2 pWidth pB pI pS pCharm pBeauty pG pJ pP pC pDecays].
  unfold setP at 1. cbn [pName pAnti pCharge pMass pMass2 pWidth pB pI pS pCharm pBeauty pG pJ pP pC pDecays].
  unfold setC at 1. cbn [pName pAnti pCharge pMass pMass2 pWidth pB pI pS pCharm pBeauty pG pJ pP pC pDecays].
  unfold setBaryonNmb at 1. cbn [pName pAnti pCharge pMass pMass2 pWidth pB pI pS pCharm pBeauty pG pJ pP pC pDecays].
  unfold setStrangeness at 1. cbn [pName pAnti pCharge pMass pMass2 pWidth pB pI pS pCharm pBeauty pG pJ pP pC pDecays].
  unfold setCharm at 1. cbn [pName pAnti pCharge pMass pMass2 pWidth pB pI pS pCharm pBeauty pG pJ pP pC pDecays].
  unfold setBeauty at 1. cbn [pName pAnti pCharge pMass pMass2 pWidth pB pI pS pCharm pBeauty pG pJ pP pC pDecays].
  rewrite HG, HP, HC, (Z.abs_eq Iso HI), (Z.abs_eq J HJ). reflexivity.
Qed.

(* depth of the keys *)
Lemma depth_keys X : forall d, (wdepth d <= ssize (SGroup (decayKeys X d)))%nat.
Proof.
  induction d as [q|p L Sp md d1 IH1 d2 IH2]; [cbn; lia|]. rewrite decayKeys_eq. cbn [wdepth].
  assert (forall l r, (ssize (SGroup (l ++ r)) + 1 = ssize (SGroup l) + ssize (SGroup r))%nat) as HA.
  { intros l r. cbn [ssize]. induction l as [|[k v] l IH]; cbn [app fold_right snd]; lia. }
  assert (forall l, (1 <= ssize (SGroup l))%nat) as H1 by (intros; cbn [ssize]; lia).
  assert (forall x, (wdepth x <= ssize (SGroup (decayKeys X x)))%nat ->
     (isoOf X x = [] /\ wdepth x = 0%nat) \/ exists s, isoOf X x = [s] /\ (wdepth x <= ssize s)%nat) as HI.
  { intros [q|q L' S' m' a' b'] H; [left; split; reflexivity|right]. cbn [isoOf]. eexists; split; [reflexivity|].
    cbn [ssize] in H |- *. cbn [fold_right snd]. lia. }
  pose proof (HA (massDepKeys md (vertexEqual X (WNode p L Sp md d1 d2))) (listKey (lit "isobars"%string) (isoOf X d1 ++ isoOf X d2) ++
    [(lit "L"%string, SInt (toInt L)); (lit "S"%string, SInt (toInt Sp))] ++ listKey (lit "fsParticles"%string) (fsOf d1 ++ fsOf d2))) as A1.
  pose proof (HA (listKey (lit "isobars"%string) (isoOf X d1 ++ isoOf X d2))
    ([(lit "L"%string, SInt (toInt L)); (lit "S"%string, SInt (toInt Sp))] ++ listKey (lit "fsParticles"%string) (fsOf d1 ++ fsOf d2))) as A2.
  pose proof (HA [(lit "L"%string, SInt (toInt L)); (lit "S"%string, SInt (toInt Sp))] (listKey (lit "fsParticles"%string) (fsOf d1 ++ fsOf d2))) as A3.
  pose proof (H1 (massDepKeys md (vertexEqual X (WNode p L Sp md d1 d2)))) as B1. pose proof (H1 (listKey (lit "fsParticles"%string) (fsOf d1 ++ fsOf d2))) as B2.
  assert (ssize (SGroup [(lit "L"%string, SInt (toInt L)); (lit "S"%string, SInt (toInt Sp))]) = 3%nat) as B3 by reflexivity.
  assert (Nat.max (wdepth d1) (wdepth d2) <= ssize (SGroup (listKey (lit "isobars"%string) (isoOf X d1 ++ isoOf X d2))))%nat as B4.
  { destruct (HI d1 IH1) as [[E1 F1]|[s1 [E1 F1]]]; destruct (HI d2 IH2) as [[E2 F2]|[s2 [E2 F2]]]; rewrite E1, E2; cbn [app listKey ssize fold_right snd]; lia. }
  lia.
Qed.

(* production vertices *)
Lemma read_PV t v k rest : readablePV t v -> prodVertKeys v = Some k ->
  constructProductionVertex t (SGroup ((lit "productionVertex"%string, SGroup k) :: rest)) = Some (Some (backPV v)).
Proof.
  intros H Hk. unfold constructProductionVertex.
  change (findGroup (lit "productionVertex"%string) _) with (Some (SGroup k)). cbv iota.
  destruct v as [lep vin vout pol]. unfold readablePV in H. cbn [pvLepto pvIn pvOut pvPol] in H.
  destruct lep.
  - destruct H as (b & tg & g & r & l & -> & -> & Kb & Kt & Kr & Kl & Hg & El). unfold prodVertKeys in Hk. cbn [pvIn pvOut pvLepto pvPol] in Hk. injection Hk as <-.
    unfold backPV. cbn [pvIn pvOut pvLepto pvPol].
    unfold mapProductionVertexType.
    change (lookStr (lit "type"%string) _) with (Some (lit "leptoProductionVertex"%string)). cbv iota.
    change (str_eqb (lit "leptoProductionVertex"%string) (lit "diffractiveDissVertex"%string)) with false.
    change (str_eqb (lit "leptoProductionVertex"%string) (lit "leptoProductionVertex"%string)) with true. cbn [orb].
    set (nmk := fun p : particle => (lit "name"%string, SString (name (ptP p)))).
    assert (forall p, known t p -> readParticle t (SGroup [nmk p]) = Some (Some (bare p))) as RP by (intros; apply readParticle_name; [assumption|reflexivity..]).
    assert (readParticle t (SGroup [nmk b; (lit "longPol"%string, SFloat pol)]) = Some (Some (bare b))) as RB by (apply readParticle_name; [assumption|reflexivity..]).
    destruct (str_eqb (name (ptP r)) (name (ptP tg))).
    + change (findGroup (lit "beam"%string) _) with (Some (SGroup [nmk b; (lit "longPol"%string, SFloat pol)])).
      change (findGroup (lit "recoil"%string) _) with (@None setting).
      change (findGroup (lit "target"%string) _) with (Some (SGroup [nmk tg])).
      cbv iota beta zeta. rewrite RB, (RP tg Kt). cbn [bindP]. unfold createLepto. rewrite Hg. reflexivity.
    + change (findGroup (lit "beam"%string) _) with (Some (SGroup [nmk b; (lit "longPol"%string, SFloat pol)])).
      change (findGroup (lit "recoil"%string) _) with (Some (SGroup [nmk r])).
      change (findGroup (lit "target"%string) _) with (Some (SGroup [nmk tg])).
      cbv iota beta zeta. rewrite RB, (RP tg Kt), (RP r Kr). cbn [bindP]. unfold createLepto. rewrite Hg. reflexivity.
  - destruct H as (b & tg & r & -> & -> & Kb & Kt & Kr & ->). unfold prodVertKeys in Hk. cbn [pvIn pvOut pvLepto pvPol] in Hk. injection Hk as <-.
    unfold backPV. cbn [pvIn pvOut pvLepto pvPol].
    unfold mapProductionVertexType.
    change (lookStr (lit "type"%string) _) with (Some (lit "diffractiveDissVertex"%string)). cbv iota.
    change (str_eqb (lit "diffractiveDissVertex"%string) (lit "diffractiveDissVertex"%string)) with true. cbn [orb].
    set (nmk := fun p : particle => (lit "name"%string, SString (name (ptP p)))).
    assert (forall p, known t p -> readParticle t (SGroup [nmk p]) = Some (Some (bare p))) as RP by (intros; apply readParticle_name; [assumption|reflexivity..]).
    destruct (str_eqb (name (ptP r)) (name (ptP tg))).
    + change (findGroup (lit "beam"%string) _) with (Some (SGroup [nmk b])).
      change (findGroup (lit "recoil"%string) _) with (@None setting).
      change (findGroup (lit "target"%string) _) with (Some (SGroup [nmk tg])).
      cbv iota beta zeta. rewrite (RP b Kb), (RP tg Kt). reflexivity.
    + change (findGroup (lit "beam"%string) _) with (Some (SGroup [nmk b])).
      change (findGroup (lit "recoil"%string) _) with (Some (SGroup [nmk r])).
      change (findGroup (lit "target"%string) _) with (Some (SGroup [nmk tg])).
      cbv iota beta zeta. rewrite (RP b Kb), (RP tg Kt), (RP r Kr). reflexivity.
Qed.
