(* calculateXSystemLab (C80). *)
From Coq Require Import List ZArith Reals Bool Lia Lra Psatz.
From Verif Require Import CGBoxModel PhysModel PhaseModel PhaseSpec PhaseProofs PhaseProofs2 FrameModel FrameSpec FrameProofs FrameProofs2 FrameProofs3.
From Verif Require Import ProdModel ProdSpec ProdProofs.
Import ListNotations.
Open Scope R_scope.

(* lab quantities in terms of those of the centre-of-mass system; u is the longitudinal momentum
   of X in the centre-of-mass system *)
Section CM.
Variables Eb pb mt mr mx w q xE tp : R.
Hypotheses (W : 0 < w) (MT : 0 < mt) (PB : 0 < pb).
Hypothesis HW : w * w = (Eb * Eb - pb * pb) + mt * mt + 2 * Eb * mt.
Hypothesis HE : 2 * w * xE = w * w - mr * mr + mx * mx.
Hypothesis HQ : q * q = xE * xE - mx * mx.
Let mb2 := Eb * Eb - pb * pb.
Let bE := (w * w - mt * mt + mb2) / (2 * w).
Let p := pb * mt / w.
Let t := (xE - bE) * (xE - bE) - (q - p) * (q - p) - tp.
Let Ex := Eb + (mt * mt - mr * mr + t) / (2 * mt).
Let N := t - mx * mx - mb2 + 2 * Eb * Ex.
Let u := q - tp / (2 * p).
Lemma cm_p : 0 < p.
Proof. unfold p. apply Rdiv_lt_0_compat; nra. Qed.
Lemma cm_bE : bE = (Eb * mt + mb2) / w.
Proof. unfold bE. fold mb2 in HW. rewrite HW. field. lra. Qed.
Lemma cm_bP : bE * bE - mb2 = p * p.
Proof.
  rewrite cm_bE. unfold p. apply (Rmult_eq_reg_r (w * w)); [|nra].
  replace (((Eb * mt + mb2) / w * ((Eb * mt + mb2) / w) - mb2) * (w * w)) with ((Eb * mt + mb2) * (Eb * mt + mb2) - mb2 * (w * w)) by (field; lra).
  replace (pb * mt / w * (pb * mt / w) * (w * w)) with (pb * mt * (pb * mt)) by (field; lra). rewrite HW. unfold mb2. ring.
Qed.
Lemma cm_t : t = mx * mx + mb2 - 2 * xE * bE + 2 * p * u.
Proof.
  pose proof cm_p. pose proof cm_bP as B. unfold t, u.
  replace (2 * p * (q - tp / (2 * p))) with (2 * p * q - tp) by (field; lra).
  clearbody bE p mb2. lra.
Qed.
Lemma cm_Ex : Ex = ((Eb + mt) * xE + pb * u) / w.
Proof.
  unfold Ex. rewrite cm_t, cm_bE. unfold p.
  assert (mr * mr = w * w + mx * mx - 2 * w * xE) as -> by lra.
  apply (Rmult_eq_reg_r (2 * mt * w)); [|nra].
  replace (((Eb + mt) * xE + pb * u) / w * (2 * mt * w)) with (2 * mt * ((Eb + mt) * xE + pb * u)) by (field; lra).
  replace ((Eb + (mt * mt - (w * w + mx * mx - 2 * w * xE) + (mx * mx + mb2 - 2 * xE * ((Eb * mt + mb2) / w) + 2 * (pb * mt / w) * u)) / (2 * mt)) * (2 * mt * w))
    with (2 * mt * w * Eb + w * (mt * mt + mb2) - w * (w * w) + 2 * xE * (w * w) - 2 * xE * (Eb * mt + mb2) + 2 * pb * mt * u) by (field; lra).
  fold mb2 in HW. rewrite HW. ring.
Qed.
Lemma cm_N : N = 2 * pb * ((xE * pb + u * (Eb + mt)) / w).
Proof.
  unfold N. rewrite cm_Ex, cm_t, cm_bE. unfold p, mb2. field. lra.
Qed.
Lemma cm_pT : Ex * Ex - mx * mx - (N / (2 * pb)) * (N / (2 * pb)) = q * q - u * u.
Proof.
  rewrite cm_N, cm_Ex. replace (2 * pb * ((xE * pb + u * (Eb + mt)) / w) / (2 * pb)) with ((xE * pb + u * (Eb + mt)) / w) by (field; lra).
  assert (mx * mx = xE * xE - q * q) as -> by lra.
  apply (Rmult_eq_reg_r (w * w)); [|nra].
  replace ((((Eb + mt) * xE + pb * u) / w * (((Eb + mt) * xE + pb * u) / w) - (xE * xE - q * q) - (xE * pb + u * (Eb + mt)) / w * ((xE * pb + u * (Eb + mt)) / w)) * (w * w))
    with (((Eb + mt) * xE + pb * u) * ((Eb + mt) * xE + pb * u) - (xE * xE - q * q) * (w * w) - (xE * pb + u * (Eb + mt)) * (xE * pb + u * (Eb + mt))) by (field; lra).
  rewrite HW. ring.
Qed.
End CM.

Record cmKin (mb mt mx mr w p q : R) (beam : lv) : Prop := {
  ck_b : isBeam mb beam; ck_t : 0 < mt; ck_w : massive w (plus4 beam (atRest mt)); ck_x : 0 <= mx; ck_r : 0 <= mr;
  ck_q : isBreakup w mx mr q; ck_p : isBreakup w mb mt p }.
Lemma breakup_E w m1 m2 q : 0 < w -> isBreakup w m1 m2 q -> 0 <= q /\
  exists E, 0 <= E /\ E * E = m1 * m1 + q * q /\ 2 * w * E = w * w - m2 * m2 + m1 * m1.
Proof.
  intros W [Q E]. split; [exact Q|]. exists (sqrt (m1 ^ 2 + q ^ 2)).
  set (a := sqrt (m1 ^ 2 + q ^ 2)) in *. set (b := sqrt (m2 ^ 2 + q ^ 2)) in *.
  assert (a * a = m1 * m1 + q * q) as Ea. { unfold a. rewrite sqrt_sqrt; [ring|nra]. }
  assert (b * b = m2 * m2 + q * q) as Ebb. { unfold b. rewrite sqrt_sqrt; [ring|nra]. }
  split; [apply sqrt_pos|]. split; [exact Ea|]. assert (b = w - a) as -> by lra. nra.
Qed.
Lemma sqrt_eq_of a b : 0 <= b -> a = b * b -> sqrt a = b.
Proof. intros H ->. now apply sqrt_square. Qed.
Lemma beam_P beam mb : isBeam mb beam -> 0 < vMag2 (vect beam) /\ 0 < vMag (vect beam) /\ lvM2 beam = mb * mb
  /\ lt beam * lt beam - vMag (vect beam) * vMag (vect beam) = mb * mb.
Proof.
  intros (_ & H & _ & V). assert (vMag2 (vect beam) = lx beam ^ 2 + ly beam ^ 2 + lz beam ^ 2) as E by (unfold vMag2, vect; cbn [vx vy vz]; ring).
  unfold hasMass in H. split; [lra|]. split; [unfold vMag; apply sqrt_lt_R0; lra|]. split; [unfold lvM2; lra|].
  unfold vMag. rewrite sqrt_sqrt by lra. rewrite E. lra.
Qed.
(* the values of the intermediate variables *)
Definition labT (xE bE q p tp : R) : R := (xE - bE) * (xE - bE) - (q - p) * (q - p) - tp.
Definition labE (Eb mt mr t : R) : R := Eb + (mt * mt - mr * mr + t) / (2 * mt).
Definition labN (t mx mb2 Eb Ex : R) : R := t - mx * mx - mb2 + 2 * Eb * Ex.
Definition finish (beam : lv) (xMom cosT sinT Ex r : R) : lv :=
  rotateUz (vUnit (vect beam)) (Lv (xMom * sinT * cos (2 * PI * r)) (xMom * sinT * sin (2 * PI * r)) (xMom * cosT) Ex).
Lemma calc_eq mb mt mx mr w p q beam tp r : cmKin mb mt mx mr w p q beam ->
  exists xE bE, 2 * w * xE = w * w - mr * mr + mx * mx /\ q * q = xE * xE - mx * mx /\ 0 <= q /\ 0 <= xE
    /\ w * w = mb * mb + mt * mt + 2 * lt beam * mt
    /\ bE = (w * w - mt * mt + mb * mb) / (2 * w) /\ p = vMag (vect beam) * mt / w
    /\ let t := labT xE bE q p tp in let Ex := labE (lt beam) mt mr t in
       let Nn := labN t mx (mb * mb) (lt beam) Ex in
       calculateXSystemLab beam mt mx mr (lvM2 (lvAdd beam (Lv 0 0 0 mt))) tp r
       = (do xMom <- osqrt (Ex * Ex - mx * mx);
          do cosT <- (if reqb tp 0 then Some 1 else rdiv Nn (2 * vMag (vect beam) * xMom));
          do sinT <- osqrt (1 - cosT * cosT);
          Some (finish beam xMom cosT sinT Ex r)).
Proof.
  intros K. destruct (ck_w _ _ _ _ _ _ _ _ K) as (W & WT & WM). pose proof (ck_t _ _ _ _ _ _ _ _ K) as MT.
  destruct (beam_P beam mb (ck_b _ _ _ _ _ _ _ _ K)) as (V2 & V & M2 & M2').
  destruct (breakup_E _ _ _ _ W (ck_q _ _ _ _ _ _ _ _ K)) as (Q0 & xE & XE0 & XE1 & XE2).
  destruct (breakup_E _ _ _ _ W (ck_p _ _ _ _ _ _ _ _ K)) as (P0 & bE & BE0 & BE1 & BE2).
  assert (w * w = mb * mb + mt * mt + 2 * lt beam * mt) as HW.
  { apply mass_mink in WM. unfold mink, plus4, atRest in WM. cbn [lx ly lz lt] in WM. unfold lvM2 in M2. lra. }
  exists xE, bE. split; [exact XE2|]. split; [lra|]. split; [exact Q0|]. split; [exact XE0|]. split; [exact HW|].
  assert (bE = (w * w - mt * mt + mb * mb) / (2 * w)) as HB by (apply (Rmult_eq_reg_l (2 * w)); [|lra]; rewrite BE2; field; lra).
  split; [exact HB|]. split.
  - pose proof (cm_bP (lt beam) (vMag (vect beam)) mt w W) as C. rewrite M2' in C. specialize (C ltac:(lra)). rewrite <- HB in C.
    assert (0 < vMag (vect beam) * mt / w) by (apply Rdiv_lt_0_compat; nra). nra.
  - cbv zeta. unfold calculateXSystemLab.
    assert (lvM2 (lvAdd beam (Lv 0 0 0 mt)) = w * w) as ->.
    { unfold lvM2, lvAdd. cbn [lx ly lz lt]. unfold lvM2 in M2. lra. }
    rewrite osqrt_ok by nra. rewrite sqrt_square by lra. cbn [bnd]. rewrite rdiv_ok by lra. cbn [bnd].
    assert ((w * w - mr * mr + mx * mx) / (2 * w) = xE) as -> by (apply (Rmult_eq_reg_l (2 * w)); [|lra]; rewrite XE2; field; lra).
    rewrite osqrt_ok by nra. rewrite (sqrt_eq_of _ q) by lra. cbn [bnd]. rewrite M2, rdiv_ok by lra. cbn [bnd]. rewrite <- HB.
    rewrite osqrt_ok by nra. rewrite (sqrt_eq_of _ p) by lra. cbn [bnd]. rewrite rdiv_ok by lra. cbn [bnd].
    fold (labT xE bE q p tp). set (t := labT xE bE q p tp). fold (labE (lt beam) mt mr t). set (Ex := labE (lt beam) mt mr t).
    fold (labN t mx (mb * mb) (lt beam) Ex).
    unfold finish, uniformIn. replace (0 + (2 * PI - 0) * r) with (2 * PI * r) by ring. reflexivity.
Qed.

Lemma reqb_eq x y : reqb x y = true <-> x = y.
Proof. unfold reqb. destruct (Req_EM_T x y); split; intros; try discriminate; auto; contradiction. Qed.
Lemma osqrt_some x y : osqrt x = Some y -> 0 <= x /\ 0 <= y /\ y * y = x.
Proof.
  unfold osqrt, rltb. destruct (Rlt_dec x 0); [discriminate|]. intros [= <-]. split; [lra|]. split; [apply sqrt_pos|]. apply sqrt_sqrt. lra.
Qed.
Lemma rdiv_inv x y z : rdiv x y = Some z -> y <> 0 /\ z = x / y.
Proof. unfold rdiv. destruct (Req_EM_T y 0); [discriminate|]. intros [= <-]. now split. Qed.

(* the vector before the tilt of the beam is applied *)
Lemma finish_kin mb mt mx mr w p q beam mom cosT sinT Ex r Nn t :
  cmKin mb mt mx mr w p q beam ->
  w * w = mb * mb + mt * mt + 2 * lt beam * mt ->
  mom * mom = Ex * Ex - mx * mx -> sinT * sinT = 1 - cosT * cosT -> mom * cosT = Nn / (2 * vMag (vect beam)) ->
  Nn = labN t mx (mb * mb) (lt beam) Ex -> Ex = labE (lt beam) mt mr t ->
  let X := finish beam mom cosT sinT Ex r in
  mink X X = mx * mx /\ 2 * mink beam X = mx * mx + mb * mb - t /\ mink (atRest mt) X = mt * Ex.
Proof.
  intros K HW HM HS HC HN HE X. destruct (beam_P beam mb (ck_b _ _ _ _ _ _ _ _ K)) as (V2 & V & M2 & M2').
  destruct (vUnit_one _ V2) as (U & _). set (u := vUnit (vect beam)) in *. set (a := 2 * PI * r) in *.
  assert (sin a * sin a + cos a * cos a = 1) as SC by (pose proof (sin2_cos2 a) as S2; unfold Rsqr in S2; exact S2).
  set (X0 := Lv (mom * sinT * cos a) (mom * sinT * sin a) (mom * cosT) Ex).
  assert (X = rotateUz u X0) as EX by reflexivity.
  assert (mom * sinT * cos a * (mom * sinT * cos a) + mom * sinT * sin a * (mom * sinT * sin a) = mom * mom * (sinT * sinT)) as PT.
  { replace (mom * sinT * cos a * (mom * sinT * cos a) + mom * sinT * sin a * (mom * sinT * sin a))
      with (mom * mom * (sinT * sinT) * (sin a * sin a + cos a * cos a)) by ring. rewrite SC. ring. }
  split; [|split].
  - rewrite EX, rotateUz_mink by exact U. unfold mink, X0. cbn [lx ly lz lt]. rewrite PT, HS.
    replace (mom * mom * (1 - cosT * cosT) + mom * cosT * (mom * cosT)) with (mom * mom) by ring. lra.
  - rewrite <- (beam_rot beam V2) at 1. fold u. rewrite EX, rotateUz_mink by exact U. unfold mink, X0. cbn [lx ly lz lt]. rewrite HC, HN.
    unfold labN. field. lra.
  - rewrite EX. unfold atRest. rewrite <- (rest_rot u mt). rewrite rotateUz_mink by exact U. unfold mink, X0. cbn [lx ly lz lt]. ring.
Qed.
Lemma mink_plus a b c : mink (plus4 a b) c = mink a c + mink b c.
Proof. unfold mink, plus4. cbn [lx ly lz lt]. ring. Qed.

Lemma finish_ok mb mt mx mr w p q beam tp mom cosT sinT r xE bE :
  cmKin mb mt mx mr w p q beam -> mx + mr <= w ->
  2 * w * xE = w * w - mr * mr + mx * mx -> q * q = xE * xE - mx * mx -> 0 <= q -> 0 <= xE ->
  w * w = mb * mb + mt * mt + 2 * lt beam * mt -> bE = (w * w - mt * mt + mb * mb) / (2 * w) -> p = vMag (vect beam) * mt / w ->
  let t := labT xE bE q p tp in let Ex := labE (lt beam) mt mr t in let Nn := labN t mx (mb * mb) (lt beam) Ex in
  mom * mom = Ex * Ex - mx * mx -> sinT * sinT = 1 - cosT * cosT -> mom * cosT = Nn / (2 * vMag (vect beam)) ->
  possible beam (atRest mt) mx mr (finish beam mom cosT sinT Ex r) /\ tPrimeOf beam (atRest mt) (finish beam mom cosT sinT Ex r) = Some tp.
Proof.
  intros K Hw XE HQ Q0 XE0 HW HB HP t Ex Nn HM HS HC.
  destruct (finish_kin mb mt mx mr w p q beam mom cosT sinT Ex r Nn t K HW HM HS HC eq_refl eq_refl) as (M1 & M2 & M3).
  pose proof (ck_w _ _ _ _ _ _ _ _ K) as MW. pose proof (ck_t _ _ _ _ _ _ _ _ K) as MT.
  pose proof (ck_x _ _ _ _ _ _ _ _ K) as X0. pose proof (ck_r _ _ _ _ _ _ _ _ K) as R0. pose proof (proj1 MW) as W.
  destruct (beam_P beam mb (ck_b _ _ _ _ _ _ _ _ K)) as (V2 & V & B2 & B2').
  set (X := finish beam mom cosT sinT Ex r) in *. set (P := plus4 beam (atRest mt)) in *.
  assert (mink P P = w * w) as PP by (apply mass_mink, MW).
  assert (2 * mink P X = w * w + mx * mx - mr * mr) as PX.
  { unfold P. rewrite mink_plus. rewrite M3. unfold Ex, labE.
    replace (mt * (lt beam + (mt * mt - mr * mr + t) / (2 * mt))) with (mt * lt beam + (mt * mt - mr * mr + t) / 2) by (field; lra). lra. }
  assert (mink (minus4 P X) (minus4 P X) = mink P P + mink X X - 2 * mink P X) as ER by (unfold mink, minus4; cbn [lx ly lz lt]; ring).
  assert (mink P (minus4 P X) = mink P P - mink P X) as ES by (unfold mink, minus4; cbn [lx ly lz lt]; ring).
  assert (possible beam (atRest mt) mx mr X) as HX.
  { unfold possible. fold P. split; [apply mass_mink; exact M1|]. split; [apply (future w P); [exact MW|nra|nra]|].
    split; [apply mass_mink; lra|]. apply (future w P); [exact MW|nra|nra]. }
  split; [exact HX|]. rewrite (tPrimeOf_eq w) by exact MW. cbv zeta. fold P. f_equal.
  assert (cmE w P X = xE) as E1. { unfold cmE. apply (Rmult_eq_reg_l (2 * w)); [|lra]. rewrite XE. field_simplify; lra. }
  assert (mink beam beam = mb * mb) as BB by (apply mass_mink, (ck_b _ _ _ _ _ _ _ _ K)).
  assert (cmE w P beam = bE) as E2.
  { unfold cmE. rewrite HB. apply (Rmult_eq_reg_l (2 * w)); [|lra].
    replace (2 * w * (mink P beam / w)) with (2 * mink P beam) by (field; lra).
    replace (2 * w * ((w * w - mt * mt + mb * mb) / (2 * w))) with (w * w - mt * mt + mb * mb) by (field; lra).
    unfold P. rewrite mink_plus, BB. unfold mink, atRest. cbn [lx ly lz lt]. lra. }
  assert (0 < p) as P0 by (rewrite HP; apply Rdiv_lt_0_compat; nra).
  assert (cmP w P X = q) as E3. { unfold cmP. rewrite E1, M1. apply sqrt_eq_of; lra. }
  assert (bE * bE - mb * mb = p * p) as HPB.
  { pose proof (cm_bP (lt beam) (vMag (vect beam)) mt w W) as C. rewrite B2' in C. specialize (C ltac:(lra)). rewrite <- HB, <- HP in C. lra. }
  assert (cmP w P beam = p) as E4. { unfold cmP. rewrite E2, BB. apply sqrt_eq_of; lra. }
  rewrite E1, E2, E3, E4. unfold t, labT in M2.
  assert (mx * mx = xE * xE - q * q) as Hmx by lra. assert (mb * mb = bE * bE - p * p) as Hmb by lra. rewrite Hmx, Hmb in M2. lra.
Qed.

(* transverse momentum and the sign of the longitudinal one *)
Lemma lab_kin mb mt mx mr w p q beam tp xE bE : cmKin mb mt mx mr w p q beam ->
  2 * w * xE = w * w - mr * mr + mx * mx -> q * q = xE * xE - mx * mx -> 0 <= q -> 0 <= xE ->
  w * w = mb * mb + mt * mt + 2 * lt beam * mt -> bE = (w * w - mt * mt + mb * mb) / (2 * w) -> p = vMag (vect beam) * mt / w ->
  let t := labT xE bE q p tp in let Ex := labE (lt beam) mt mr t in let Nn := labN t mx (mb * mb) (lt beam) Ex in
  let u := q - tp / (2 * p) in let pz := Nn / (2 * vMag (vect beam)) in
  0 < p /\ Ex * Ex - mx * mx - pz * pz = q * q - u * u /\ (0 <= u -> 0 <= pz) /\ Nn = 2 * vMag (vect beam) * pz.
Proof.
  intros K XE HQ Q0 XE0 HW HB HP t Ex Nn u pz. destruct (beam_P beam mb (ck_b _ _ _ _ _ _ _ _ K)) as (V2 & V & B2 & B2').
  pose proof (proj1 (ck_w _ _ _ _ _ _ _ _ K)) as W. pose proof (ck_t _ _ _ _ _ _ _ _ K) as MT.
  assert (0 < lt beam) as EB by apply (ck_b _ _ _ _ _ _ _ _ K).
  assert (0 < p) as P0 by (rewrite HP; apply Rdiv_lt_0_compat; nra).
  pose proof (cm_pT (lt beam) (vMag (vect beam)) mt mr mx w q xE tp W MT V) as C1.
  pose proof (cm_N (lt beam) (vMag (vect beam)) mt mr mx w q xE tp W MT V) as C2.
  cbv zeta in C1, C2. rewrite B2' in C1, C2. rewrite <- HB, <- HP in C1, C2.
  fold (labT xE bE q p tp) in C1, C2. fold t in C1, C2. fold (labE (lt beam) mt mr t) in C1, C2. fold Ex in C1, C2.
  fold (labN t mx (mb * mb) (lt beam) Ex) in C1, C2. fold Nn in C1, C2. fold u in C1, C2. fold pz in C1.
  specialize (C1 HW XE HQ). specialize (C2 HW XE HQ). split; [exact P0|]. split; [exact C1|].
  split; [|unfold pz; field; lra]. intros U. unfold pz. rewrite C2.
  replace (2 * vMag (vect beam) * ((xE * vMag (vect beam) + u * (lt beam + mt)) / w) / (2 * vMag (vect beam)))
    with ((xE * vMag (vect beam) + u * (lt beam + mt)) / w) by (field; lra).
  apply Rmult_le_pos; [|apply Rlt_le, Rinv_0_lt_compat; exact W].
  apply Rplus_le_le_0_compat; apply Rmult_le_pos; lra.
Qed.

Lemma calc_some mb mt mx mr w p q beam tp r X : cmKin mb mt mx mr w p q beam -> mx + mr <= w ->
  calculateXSystemLab beam mt mx mr (lvM2 (lvAdd beam (Lv 0 0 0 mt))) tp r = Some X ->
  possible beam (atRest mt) mx mr X /\ tPrimeOf beam (atRest mt) X = Some tp.
Proof.
  intros K Hw E. destruct (calc_eq mb mt mx mr w p q beam tp r K) as (xE & bE & XE & HQ & Q0 & XE0 & HW & HB & HP & EQ).
  cbv zeta in EQ. rewrite EQ in E. clear EQ.
  destruct (lab_kin mb mt mx mr w p q beam tp xE bE K XE HQ Q0 XE0 HW HB HP) as (P0 & PT & PZ & EN).
  destruct (beam_P beam mb (ck_b _ _ _ _ _ _ _ _ K)) as (_ & V & _).
  pose proof (finish_ok mb mt mx mr w p q beam tp) as F.
  set (t := labT xE bE q p tp) in *. set (Ex := labE (lt beam) mt mr t) in *. set (Nn := labN t mx (mb * mb) (lt beam) Ex) in *.
  set (u := q - tp / (2 * p)) in *. set (pz := Nn / (2 * vMag (vect beam))) in *.
  apply bnd_some in E as (mom & E1 & E). apply bnd_some in E as (c & E2 & E). apply bnd_some in E as (s & E3 & E). injection E as <-.
  apply osqrt_some in E1 as (H1 & M0 & MM). apply osqrt_some in E3 as (H3 & S0 & SS).
  apply (F mom c s r xE bE K Hw XE HQ Q0 XE0 HW HB HP); [exact MM|exact SS|]. fold t. fold Ex. fold Nn. fold pz.
  destruct (reqb tp 0) eqn:ET.
  - apply reqb_eq in ET. injection E2 as <-. assert (u = q) as Eu by (unfold u; rewrite ET; field; lra).
    rewrite Eu in PT. specialize (PZ ltac:(lra)). assert (mom * mom = pz * pz) by lra. nra.
  - apply rdiv_inv in E2 as (NZ & ->). unfold pz. assert (mom <> 0) by (intros ->; apply NZ; ring). field. split; lra.
Qed.
Lemma calc_total mb mt mx mr w p q beam tp r : cmKin mb mt mx mr w p q beam -> mx + mr <= w -> 0 <= tp -> tp < 4 * p * q \/ tp = 0 ->
  exists X, calculateXSystemLab beam mt mx mr (lvM2 (lvAdd beam (Lv 0 0 0 mt))) tp r = Some X.
Proof.
  intros K Hw T0 T1. destruct (calc_eq mb mt mx mr w p q beam tp r K) as (xE & bE & XE & HQ & Q0 & XE0 & HW & HB & HP & EQ).
  cbv zeta in EQ. rewrite EQ. clear EQ.
  destruct (lab_kin mb mt mx mr w p q beam tp xE bE K XE HQ Q0 XE0 HW HB HP) as (P0 & PT & PZ & EN).
  destruct (beam_P beam mb (ck_b _ _ _ _ _ _ _ _ K)) as (_ & V & _).
  set (t := labT xE bE q p tp) in *. set (Ex := labE (lt beam) mt mr t) in *. set (Nn := labN t mx (mb * mb) (lt beam) Ex) in *.
  set (u := q - tp / (2 * p)) in *. set (pz := Nn / (2 * vMag (vect beam))) in *.
  assert (tp = 2 * p * (q - u)) as Eu by (unfold u; field; lra).
  destruct (reqb tp 0) eqn:ET.
  - apply reqb_eq in ET. assert (u = q) as Uq by nra. rewrite Uq in PT.
    rewrite osqrt_ok by nra. cbn [bnd]. rewrite osqrt_ok by lra. cbn [bnd]. eexists; reflexivity.
  - assert (tp <> 0) as NZ by (intros H; apply reqb_eq in H; congruence). destruct T1 as [T1|T1]; [|contradiction].
    assert (- q < u < q) as U. { split; nra. }
    assert (0 < q * q - u * u) as Up by nra. rewrite osqrt_ok by nra. cbn [bnd].
    set (mom := sqrt (Ex * Ex - mx * mx)). assert (0 < mom) as M0 by (apply sqrt_lt_R0; nra).
    assert (mom * mom = Ex * Ex - mx * mx) as MM by (apply sqrt_sqrt; nra).
    rewrite rdiv_ok by nra. cbn [bnd]. rewrite osqrt_ok; [cbn [bnd]; eexists; reflexivity|].
    assert (Nn / (2 * vMag (vect beam) * mom) = pz / mom) as -> by (unfold pz; field; lra).
    assert (1 - pz / mom * (pz / mom) = (mom * mom - pz * pz) / (mom * mom)) as -> by (field; lra).
    apply Rmult_le_pos; [nra|]. apply Rlt_le, Rinv_0_lt_compat. nra.
Qed.
Lemma calc_none mb mt mx mr w p q beam tp r : cmKin mb mt mx mr w p q beam -> mx + mr <= w -> 4 * p * q < tp ->
  calculateXSystemLab beam mt mx mr (lvM2 (lvAdd beam (Lv 0 0 0 mt))) tp r = None.
Proof.
  intros K Hw T1. destruct (calculateXSystemLab beam mt mx mr (lvM2 (lvAdd beam (Lv 0 0 0 mt))) tp r) as [X|] eqn:E; [exfalso|reflexivity].
  destruct (calc_eq mb mt mx mr w p q beam tp r K) as (xE & bE & XE & HQ & Q0 & XE0 & HW & HB & HP & EQ).
  cbv zeta in EQ. rewrite EQ in E. clear EQ.
  destruct (lab_kin mb mt mx mr w p q beam tp xE bE K XE HQ Q0 XE0 HW HB HP) as (P0 & PT & PZ & EN).
  destruct (beam_P beam mb (ck_b _ _ _ _ _ _ _ _ K)) as (_ & V & _).
  set (t := labT xE bE q p tp) in *. set (Ex := labE (lt beam) mt mr t) in *. set (Nn := labN t mx (mb * mb) (lt beam) Ex) in *.
  set (u := q - tp / (2 * p)) in *. set (pz := Nn / (2 * vMag (vect beam))) in *.
  assert (tp = 2 * p * (q - u)) as Eu by (unfold u; field; lra).
  assert (0 <= p * q) by (apply Rmult_le_pos; lra). assert (tp <> 0) as NZ by lra.
  assert (u < - q) as U by nra. assert (q * q - u * u < 0) as Un by nra.
  apply bnd_some in E as (mom & E1 & E). apply bnd_some in E as (c & E2 & E). apply bnd_some in E as (s & E3 & E).
  apply osqrt_some in E1 as (H1 & M0 & MM). apply osqrt_some in E3 as (H3 & S0 & SS).
  destruct (reqb tp 0) eqn:ET; [apply reqb_eq in ET; contradiction|].
  apply rdiv_inv in E2 as (NM & ->). assert (mom <> 0) by (intros ->; apply NM; ring).
  assert (Nn / (2 * vMag (vect beam) * mom) = pz / mom) as EC by (unfold pz; field; lra). rewrite EC in H3.
  assert (1 - pz / mom * (pz / mom) = (mom * mom - pz * pz) / (mom * mom)) as EF by (field; lra). rewrite EF in H3.
  assert (0 < mom * mom) as H1' by nra. assert (mom * mom - pz * pz < 0) by lra.
  assert ((mom * mom - pz * pz) / (mom * mom) < 0); [|lra]. pose proof (Rinv_0_lt_compat _ H1') as IV. unfold Rdiv. nra.
Qed.
