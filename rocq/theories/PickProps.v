(* C82: mass and t' of generated events. *)
From Coq Require Import List ZArith Reals Bool Lia Lra Psatz.
From Coquelicot Require Import Coquelicot.
From Verif Require Import ArrayModel CGBoxModel PhysModel PhaseModel PhaseSpec PhaseProofs PhaseProofs2 LikSetProofs ProdModel ProdSpec ProdProofs2 PickModel PickSpec PickProofs PickProofs2 PickProofs3.
Import ListNotations.
Open Scope R_scope.

Lemma lookup_floatOr e d : lookup e d = floatOr e d.
Proof. reflexivity. Qed.

(* Which settings init accepts, and what the picker then holds: the ranges (t' from 0 to the largest
   double if not given) and, ordered by mass, for each mass the parameters first given for it. *)
Theorem C82_init c arr rows lo hi :
  cMassMin c = Some (EFloat lo) -> cMassMax c = Some (EFloat hi) -> describes c arr rows ->
  let tlo := floatOr (cTMin c) 0 in let thi := floatOr (cTMax c) dblMax in
  exists ok k, initExp c newPk = Some (ok, k) /\ (ok = true <-> acceptable lo hi tlo thi rows)
    /\ (ok = true -> massRange k = Some (lo, hi) /\ tPrimeRange k = Some (tlo, thi) /\ ordered (kSlopes k) /\ (forall m p, In (m, p) (kSlopes k) <-> firstRow rows m p))
    /\ (ok = false -> massRange k = None /\ tPrimeRange k = None).
Proof.
  intros E1 E2 (D1 & D2 & NE & D3 & D4). cbv zeta. unfold initExp, initRanges. cbn [kInit newPk]. rewrite E1, E2. cbn [isFloat andb negb lookup kTLo kTHi kSlopes kN kCoM kCoT].
  change lookup with floatOr. change (kTHi newPk) with dblMax. change (kTLo newPk) with 0. set (tlo := floatOr (cTMin c) 0). set (thi := floatOr (cTMax c) dblMax). unfold acceptable.
  destruct (Rlt_le_dec hi lo) as [H1|H1]; [rewrite (rltb_true _ _ H1)|rewrite (rltb_false _ _ H1)]; cbn [bnd negb].
  { eexists false, _. split; [reflexivity|]. split; [split; [discriminate|intros (Q & _); lra]|]. split; [discriminate|]. intros _. split; reflexivity. }
  destruct (Rlt_le_dec thi tlo) as [H2|H2]; [rewrite (rltb_true _ _ H2)|rewrite (rltb_false _ _ H2)]; cbn [bnd negb].
  { eexists false, _. split; [reflexivity|]. split; [split; [discriminate|intros (_ & Q & _); lra]|]. split; [discriminate|]. intros _. split; reflexivity. }
  rewrite D1, D2, !map_length, Nat.eqb_refl. cbn [negb]. destruct rows as [|[m0 p0] rows]; [congruence|]. cbn [map nth_error bnd fst snd isNumber negb hd] in *.
  cbn [kInit kMLo kMHi kTLo kTHi kSlopes kN kCoM kCoT].
  assert (forall n, n = ((length p0 + 1) / 2)%nat -> Nat.odd (length p0) = true -> (arr = false -> n = 1%nat) ->
    exists ok k, (do (ok, k) <- readSlopes arr (EFloat m0 :: map (fun x => EFloat (fst x)) rows) (slopesEntry arr p0 :: map (fun x => slopesEntry arr (snd x)) rows) (Pk false lo hi tlo thi [] n [] []);
      (if ok then Some (true, Pk true (kMLo k) (kMHi k) (kTLo k) (kTHi k) (kSlopes k) (kN k) (kCoM k) (kCoT k)) else Some (false, k))) = Some (ok, k)
    /\ (ok = true <-> lo <= hi /\ tlo <= thi /\ Nat.odd (length p0) = true /\ List.Forall (fun x => ((length (snd x) + 1) / 2 = (length p0 + 1) / 2)%nat /\ goodParams (snd x)) ((m0, p0) :: rows))
    /\ (ok = true -> massRange k = Some (lo, hi) /\ tPrimeRange k = Some (tlo, thi) /\ ordered (kSlopes k) /\ (forall m p, In (m, p) (kSlopes k) <-> firstRow ((m0, p0) :: rows) m p))
    /\ (ok = false -> massRange k = None /\ tPrimeRange k = None)) as HF.
  { intros n EN OD N1. assert (1 <= n)%nat as N2. { rewrite EN. destruct p0; [discriminate|]. cbn [length]. apply Nat.div_le_lower_bound; lia. }
    destruct (readSlopes_ok arr ((m0, p0) :: rows) (Pk false lo hi tlo thi [] n [] [])) as (ok & k & R1 & R2 & R3).
    { intros A. split; [now apply N1|now apply D3]. } { intros _. exact N2. }
    cbn [map fst snd kN kSlopes] in R1, R2, R3. rewrite R1. cbn [bnd]. destruct ok.
    - rewrite (R3 eq_refl). eexists true, _. split; [reflexivity|]. split; [|split; [|discriminate]].
      + split; [intros _|reflexivity]. split; [exact H1|]. split; [exact H2|]. split; [exact OD|]. rewrite <- EN. now apply R2.
      + intros _. unfold massRange, tPrimeRange. cbn [withSlopes kInit kMLo kMHi kTLo kTHi kSlopes negb]. split; [reflexivity|]. split; [reflexivity|]. split; [apply (insertAll_ordered ((m0, p0) :: rows) [] I)|].
        intros m p. rewrite (insertAll_in ((m0, p0) :: rows) [] I m p). split; [intros [[]|[_ Q]]; exact Q|]. intros Q. right. split; [intros x []|exact Q].
    - exists false, k. split; [reflexivity|]. split; [split; [discriminate|]|split; [discriminate|]].
      + intros (_ & _ & _ & F). rewrite <- EN in F. now apply R2.
      + intros _. assert (kInit k = false) as KI; [|unfold massRange, tPrimeRange; rewrite KI; split; reflexivity].
        clear - R1. change (kInit (Pk false lo hi tlo thi [] n [] []) = false) with (false = false) in *.
        assert (forall ms ss k0 ok k, readSlopes arr ms ss k0 = Some (ok, k) -> kInit k = kInit k0) as KI.
        { clear. induction ms as [|em ms IH]; intros [|es ss] k0 ok k H; cbn [readSlopes] in H; try (injection H as _ <-; reflexivity).
          assert (forall p, (do ok <- checkParams (kN k0) 0 p; do m <- toDouble em; if ok then readSlopes arr ms ss (Pk (kInit k0) (kMLo k0) (kMHi k0) (kTLo k0) (kTHi k0) (mapInsert m p (kSlopes k0)) (kN k0) (kCoM k0) (kCoT k0)) else Some (false, k0)) = Some (ok, k) -> kInit k = kInit k0) as HK.
          { intros p E. apply bnd_some in E as (o & _ & E). apply bnd_some in E as (m & _ & E). destruct o; [exact (IH _ _ _ _ E)|injection E as _ <-; reflexivity]. }
          destruct arr; [destruct es as [| |l| |]; try (injection H as _ <-; reflexivity); destruct (negb _); [injection H as _ <-; reflexivity|]|]; apply bnd_some in H as (p & _ & H); exact (HK _ H). }
        exact (KI _ _ _ _ _ R1). }
  destruct arr; cbn [slopesEntry isNumber] in *.
  - specialize (D4 eq_refl). destruct p0 as [|x0 p0]; [congruence|]. cbn [map nth_error bnd isNumber negb]. change (EFloat x0 :: map EFloat p0) with (map EFloat (x0 :: p0)). rewrite map_length.
    destruct (Nat.odd (length (x0 :: p0))) eqn:OD; cbn [negb].
    + apply HF; [reflexivity|reflexivity|discriminate].
    + eexists false, _. split; [reflexivity|]. split; [split; [discriminate|intros (_ & _ & Q & _); discriminate]|]. split; [discriminate|]. intros _. split; reflexivity.
  - specialize (D3 eq_refl). inversion D3 as [|? ? L0 _]; subst. cbn [snd] in L0. apply HF; [rewrite L0; reflexivity|rewrite L0; reflexivity|reflexivity].
Qed.

(* examples of settings *)
Definition conf1 (tlo thi : R) (rows : list (R * list R)) (arr : bool) : pconf :=
  PConf (Some (EFloat 1)) (Some (EFloat 2)) (Some (EFloat tlo)) (Some (EFloat thi))
    (Some (EArray (map (fun x => EFloat (fst x)) rows))) (Some (EList (map (fun x => slopesEntry arr (snd x)) rows))) None None.
Lemma conf_ready tlo thi rows arr : rows <> [] -> (arr = false -> List.Forall (fun x => length (snd x) = 1%nat) rows) -> (arr = true -> snd (hd (0, []) rows) <> []) -> acceptable 1 2 tlo thi rows ->
  exists k, initExp (conf1 tlo thi rows arr) newPk = Some (true, k) /\ ready k /\ tPrimeRange k = Some (tlo, thi) /\ kMLo k = 1 /\ kMHi k = 2 /\ (forall m p, In (m, p) (kSlopes k) <-> firstRow rows m p).
Proof.
  intros NE A1 A2 AC. destruct (C82_init (conf1 tlo thi rows arr) arr rows 1 2 eq_refl eq_refl) as (ok & k & E & H1 & H2 & _).
  { split; [reflexivity|]. split; [reflexivity|]. split; [exact NE|]. split; assumption. }
  cbn [conf1 cTMin cTMax floatOr] in H1, H2. assert (ok = true) as -> by now apply H1. destruct (H2 eq_refl) as (M & T & _ & S1). exists k. split; [exact E|]. split; [exact (RdInit _ _ E)|]. split; [exact T|].
  unfold massRange in M. destruct (negb (kInit k)); [discriminate|]. injection M as -> ->. split; [reflexivity|]. split; [reflexivity|exact S1].
Qed.
Lemma acc2 : acceptable 1 2 0.1 1 [(1.5, [-5]); (1, [-10])].
Proof.
  split; [lra|]. split; [lra|]. split; [reflexivity|]. constructor; [|constructor; [|constructor]]; (split; [reflexivity|]); (split; [discriminate|]); constructor; try constructor; cbn; lra.
Qed.
Example C82_init_case : exists c rows, cMassMin c = Some (EFloat 1) /\ cMassMax c = Some (EFloat 2) /\ describes c false rows /\ acceptable 1 2 (floatOr (cTMin c) 0) (floatOr (cTMax c) dblMax) rows.
Proof.
  exists (conf1 0.1 1 [(1.5, [-5]); (1, [-10])] false), [(1.5, [-5]); (1, [-10])]. split; [reflexivity|]. split; [reflexivity|]. split; [|exact acc2].
  split; [reflexivity|]. split; [reflexivity|]. split; [discriminate|]. split; [|discriminate]. intros _. repeat constructor.
Qed.

(* With one exponential, t' is in its range and distributed like the exponential with the slope
   interpolated at the mass: it is the quantile of the random number. *)
Theorem C82_one_exponential k m rnd pos : ready k -> sameLengths k -> notFirst k m -> uniform rnd -> kN k = 1%nat ->
  exists t p, pickTExp k m rnd pos = Some (true, t, S pos) /\ slopesAt (kSlopes k) m p /\ goodParams p /\ quantile (intensity p) (kTLo k) (kTHi k) (rnd pos) t.
Proof.
  intros RD SL NF U N1. pose proof (ready_inv k RD) as KI. destruct (paramsFor_ok k m KI SL NF) as (p & EP & SA & LP & G). destruct KI as (I1 & NE & O & _ & TT).
  unfold pickTExp. rewrite I1. cbn [negb]. destruct (length (kSlopes k) =? 0)%nat eqn:E0. { apply Nat.eqb_eq in E0. destruct (kSlopes k); [congruence|discriminate]. }
  rewrite EP. cbn [bnd]. rewrite LP, Nat.eqb_refl. cbn [negb]. rewrite N1 in LP |- *. cbn [Nat.eqb]. apply half_len in LP. pose proof G as G'. destruct G' as [PN F]. destruct p as [|a p]; [congruence|]. cbn [nth_error bnd].
  cbn [termsOf] in F. inversion F as [|? ? [_ A] _]; subst. cbn [snd] in A.
  assert (termsOf (a :: p) = [(1, a)]) as TO. { destruct p as [|x [|y p]]; [reflexivity|reflexivity|cbn in LP; lia]. }
  assert (forall t, prim (a :: p) t = exp (a * t) / a) as PR. { intros t. unfold prim. rewrite TO. unfold sumTerms. cbn. rewrite Rmult_1_l. apply Rplus_0_r. }
  destruct (U pos) as [U0 U1]. set (r := rnd pos) in *.
  destruct (quantile_ex (a :: p) (kTLo k) (kTHi k) r G TT ltac:(lra)) as (t & B & ET). rewrite !PR in ET.
  assert (exp (a * t) = r * (exp (a * kTHi k) - exp (a * kTLo k)) + exp (a * kTLo k)) as EX.
  { apply (f_equal (Rmult a)) in ET. replace (a * (exp (a * t) / a)) with (exp (a * t)) in ET by (field; lra). rewrite ET. field. lra. }
  rewrite <- EX. rewrite (rltb_true _ _ (exp_pos (a * t))). cbn [negb]. rewrite ln_exp, rdiv_ne by lra. cbn [bnd]. exists t, (a :: p).
  split; [f_equal; f_equal; f_equal; field; lra|]. split; [exact SA|]. split; [exact G|]. apply quantile_of; [exact G|exact B|]. rewrite !PR. exact ET.
Qed.
Lemma firstRow1 m0 p0 m p : firstRow [(m0, p0)] m p <-> (m, p) = (m0, p0).
Proof.
  split; [intros ([|i] & H & _); [now injection H as -> ->|destruct i; discriminate]|]. intros E. injection E as -> ->. exists 0%nat. split; [reflexivity|]. intros j x Hj. lia.
Qed.
Lemma firstRow2 m0 p0 m1 p1 m p : m0 <> m1 -> firstRow [(m0, p0); (m1, p1)] m p <-> (m, p) = (m0, p0) \/ (m, p) = (m1, p1).
Proof.
  intros NE. split.
  - intros ([|[|i]] & H & _); [injection H as -> ->; now left|injection H as -> ->; now right|destruct i; discriminate].
  - intros [E|E]; injection E as -> ->; [exists 0%nat|exists 1%nat]; (split; [reflexivity|]); intros [|j] x Hj; try lia. intros X. injection X as <-. exact NE.
Qed.
Example C82_one_exponential_case : exists k, ready k /\ sameLengths k /\ kN k = 1%nat /\ length (kSlopes k) = 2%nat /\ notFirst k 1.2 /\ kTLo k < kTHi k.
Proof.
  assert (acceptable 1 2 0.1 1 [(1, [-5])]) as _. { split; [lra|]. split; [lra|]. split; [reflexivity|]. repeat constructor; cbn; lra || discriminate. }
  set (k := Pk true 1 2 0.1 1 [(1, [-10]); (1.5, [-5])] 1 [] []).
  assert (initExp (conf1 0.1 1 [(1.5, [-5]); (1, [-10])] false) newPk = Some (true, k)) as E.
  { unfold initExp, initRanges, conf1. cbn [kInit newPk cMassMin cMassMax cTMin cTMax cMasses cSlopes isFloat andb negb lookup kTLo kTHi kSlopes kN kCoM kCoT].
    rewrite (rltb_false 2 1) by lra. rewrite (rltb_false 1 0.1) by lra. cbn. rewrite !(rltb_true (-5) 0), !(rltb_true (-10) 0) by lra. cbn. rewrite (rltb_true 1 1.5) by lra. reflexivity. }
  exists k. split; [exact (RdInit _ _ E)|]. split; [intros x y [<-|[<-|[]]] [<-|[<-|[]]]; reflexivity|]. split; [reflexivity|]. split; [reflexivity|]. split; [|cbn; lra].
  intros _ x X. injection X as <-. cbn. lra.
Qed.

(* With several exponentials and t' >= 0, t' is never beyond the quantile of the random number it was
   made from, and the integral of the intensity that is missing up to the quantile is smaller than
   10 epsilon of the requested integral, or than 10 epsilon t' times the intensity at t'.  Up to five
   random numbers are used; only if none of them succeeds the function reports a failure. *)
Theorem C82_several_exponentials k m rnd pos : ready k -> sameLengths k -> notFirst k m -> uniform rnd -> (2 <= kN k)%nat -> 0 <= kTLo k ->
  exists ok t pos' p, pickTExp k m rnd pos = Some (ok, t, pos') /\ slopesAt (kSlopes k) m p /\ goodParams p /\ (S pos <= pos' <= pos + 5)%nat /\ (ok = false -> pos' = (pos + 5)%nat)
    /\ (ok = true -> 0 <= t <= kTHi k /\ exists q N d, let r := rnd (pos' - 1)%nat in
         quantile (intensity p) (kTLo k) (kTHi k) r q /\ t <= q /\ is_RInt (intensity p) (kTLo k) (kTHi k) N /\ is_RInt (intensity p) t q d /\ 0 <= d
         /\ (d < 10 * / 2 ^ 52 * (r * N) \/ d < 10 * / 2 ^ 52 * t * intensity p t)).
Proof.
  intros RD SL NF U N2 T0. pose proof (ready_inv k RD) as KI. destruct (paramsFor_ok k m KI SL NF) as (p & EP & SA & LP & G). destruct KI as (I1 & NE & O & _ & TT).
  unfold pickTExp. rewrite I1. cbn [negb]. destruct (length (kSlopes k) =? 0)%nat eqn:E0. { apply Nat.eqb_eq in E0. destruct (kSlopes k); [congruence|discriminate]. }
  rewrite EP. cbn [bnd]. rewrite LP, Nat.eqb_refl. cbn [negb]. replace (kN k =? 1)%nat with false by (symmetry; apply Nat.eqb_neq; lia).
  rewrite !(bigF_ok _ _ _ LP G). cbn [bnd].
  assert (forall tries pos0, (0 < tries)%nat -> exists ok t pos', attempts tries (kN k) p (prim p (kTLo k)) (prim p (kTHi k)) rnd pos0 = Some (ok, t, pos') /\ (S pos0 <= pos' <= pos0 + tries)%nat /\ (ok = false -> pos' = (pos0 + tries)%nat)
    /\ (ok = true -> 0 <= t <= kTHi k /\ exists q N d, let r := rnd (pos' - 1)%nat in
         quantile (intensity p) (kTLo k) (kTHi k) r q /\ t <= q /\ is_RInt (intensity p) (kTLo k) (kTHi k) N /\ is_RInt (intensity p) t q d /\ 0 <= d
         /\ (d < 10 * / 2 ^ 52 * (r * N) \/ d < 10 * / 2 ^ 52 * t * intensity p t))) as HA.
  { induction tries as [|tries IH]; intros pos0 L; [lia|]. cbn [attempts]. destruct (U pos0) as [U0 U1].
    destruct (newton_ok (kN k) p (kTLo k) (kTHi k) (rnd pos0) LP G (conj T0 TT) (conj U0 U1) 50 0 ltac:(lra)) as (ok & t & EN & L1 & L2 & L3).
    { pose proof (prim_le p 0 (kTLo k) G T0). pose proof (prim_le p _ _ G TT). nra. }
    rewrite EN. cbn [bnd]. destruct ok.
    - eexists true, t, _. split; [reflexivity|]. split; [lia|]. split; [discriminate|]. intros _. replace (S pos0 - 1)%nat with pos0 by lia.
      destruct (quantile_ex p (kTLo k) (kTHi k) (rnd pos0) G TT ltac:(lra)) as (q & B & EQ).
      assert (t <= q) as TQ. { apply Rnot_lt_le. intros H. pose proof (prim_lt p q t G H). lra. }
      split; [lra|]. exists q, (prim p (kTHi k) - prim p (kTLo k)), (prim p q - prim p t). cbv zeta. split; [apply quantile_of; assumption|]. split; [exact TQ|]. split; [now apply int_ok|]. split; [now apply int_ok|].
      split; [rewrite EQ; lra|]. specialize (L3 eq_refl). fold eps. rewrite EQ. exact L3.
    - destruct (tries =? 0)%nat eqn:ET.
      + apply Nat.eqb_eq in ET. subst tries. eexists false, t, _. split; [reflexivity|]. split; [lia|]. split; [lia|discriminate].
      + apply Nat.eqb_neq in ET. destruct (IH (S pos0) ltac:(lia)) as (ok & t' & pos' & E & B1 & B2 & B3). exists ok, t', pos'. split; [exact E|]. split; [lia|]. split; [intros Q; rewrite (B2 Q); lia|exact B3]. }
  destruct (HA 5%nat pos ltac:(lia)) as (ok & t & pos' & E & B1 & B2 & B3). exists ok, t, pos', p. split; [exact E|]. split; [exact SA|]. split; [exact G|]. split; [exact B1|]. split; [exact B2|exact B3].
Qed.
(* pickers with two exponentials and one mass *)
Lemma two_ready tlo thi a c b : tlo <= thi -> a < 0 -> 0 <= c -> b < 0 -> ready (Pk true 1 2 tlo thi [(1, [a; c; b])] 2 [] []) /\ initExp (conf1 tlo thi [(1, [a; c; b])] true) newPk = Some (true, Pk true 1 2 tlo thi [(1, [a; c; b])] 2 [] []).
Proof.
  intros T A C B. assert (initExp (conf1 tlo thi [(1, [a; c; b])] true) newPk = Some (true, Pk true 1 2 tlo thi [(1, [a; c; b])] 2 [] [])) as E; [|split; [exact (RdInit _ _ E)|exact E]].
  unfold initExp, initRanges, conf1. cbn [kInit newPk cMassMin cMassMax cTMin cTMax cMasses cSlopes isFloat andb negb lookup kTLo kTHi kSlopes kN kCoM kCoT].
  rewrite (rltb_false 2 1) by lra. rewrite (rltb_false thi tlo) by lra. cbn. rewrite (rltb_true a 0), (rltb_true b 0), (rltb_false c 0) by lra. reflexivity.
Qed.
Example C82_several_exponentials_case : exists k, ready k /\ sameLengths k /\ notFirst k 1.5 /\ kN k = 2%nat /\ 0 <= kTLo k < kTHi k.
Proof.
  exists (Pk true 1 2 0.1 1 [(1, [-10; 2; -5])] 2 [] []). split; [apply two_ready; lra|]. split; [intros x y [<-|[]] [<-|[]]; reflexivity|]. split; [intros Q; cbn in Q; lia|]. split; [reflexivity|cbn; lra].
Qed.
