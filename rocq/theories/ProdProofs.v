(* Kinematics of the production process (C80). *)
From Coq Require Import List ZArith Reals Bool Lia Lra Psatz.
From Verif Require Import CGBoxModel PhysModel PhaseModel PhaseSpec PhaseProofs FrameModel FrameSpec FrameProofs FrameProofs2 FrameProofs3.
From Verif Require Import ProdModel ProdSpec.
Import ListNotations.
Open Scope R_scope.

Lemma mass_mink m p : hasMass m p <-> mink p p = m * m.
Proof. unfold hasMass, mink. split; intros H; cbn [pow] in *; lra. Qed.
Lemma inv2_mink p : inv2 p = mink p p.
Proof. unfold inv2, mink. ring. Qed.
Lemma cs3 a b c x y z : (a * x + b * y + c * z) * (a * x + b * y + c * z) <= (a * a + b * b + c * c) * (x * x + y * y + z * z).
Proof.
  pose proof (Rle_0_sqr (a * y - b * x)) as S1. pose proof (Rle_0_sqr (a * z - c * x)) as S2. pose proof (Rle_0_sqr (b * z - c * y)) as S3.
  unfold Rsqr in *. lra.
Qed.
Lemma future w P p : massive w P -> 0 <= mink p p -> 0 <= mink P p -> 0 <= lt p.
Proof.
  intros (W & HP & HM) H1 H2. apply mass_mink in HM.
  destruct (Rle_lt_dec 0 (lt p)) as [L|L]; [exact L|exfalso].
  pose proof (cs3 (lx P) (ly P) (lz P) (lx p) (ly p) (lz p)) as C. unfold mink in *.
  set (d := lx P * lx p + ly P * ly p + lz P * lz p) in *.
  set (v := lx P * lx P + ly P * ly P + lz P * lz P) in *. set (u := lx p * lx p + ly p * ly p + lz p * lz p) in *.
  assert (0 <= v) by (unfold v; nra). assert (0 <= u) by (unfold u; nra).
  set (E := lt P) in *. set (e := lt p) in *. assert (d <= E * e) by lra. assert (E * e < 0) by nra.
  assert ((E * e) * (E * e) <= d * d) by nra.
  assert (v = E * E - w * w) as Ev by lra. assert (0 < w * w) by nra. assert (u <= e * e) by lra.
  assert (v * u <= v * (e * e)) by (apply Rmult_le_compat_l; lra).
  assert (0 < (w * w) * (e * e)) by (apply Rmult_lt_0_compat; nra).
  replace (v * (e * e)) with ((E * e) * (E * e) - (w * w) * (e * e)) in * by (rewrite Ev; ring). lra.
Qed.

(* ---- rotation of the z axis into a direction ---- *)
Lemma rotateUz_mink u p q : vx u * vx u + vy u * vy u + vz u * vz u = 1 -> mink (rotateUz u p) (rotateUz u q) = mink p q.
Proof.
  intros U. unfold rotateUz. cbv zeta. destruct u as [a b c]. cbn [vx vy vz] in *.
  destruct (Rlt_le_dec 0 (a * a + b * b)) as [L|L].
  - rewrite rltb_true by exact L. set (s := sqrt (a * a + b * b)). assert (0 < s) as S0 by (apply sqrt_lt_R0; exact L).
    assert (s * s = a * a + b * b) as SS by (apply sqrt_sqrt; lra). unfold mink. cbn [lx ly lz lt].
    assert (c * c = 1 - s * s) as CC by lra.
    set (x := lx p). set (y := ly p). set (z := lz p). set (x' := lx q). set (y' := ly q). set (z' := lz q).
    assert ((a * c * x - b * y + a * s * z) / s * ((a * c * x' - b * y' + a * s * z') / s)
          + (b * c * x + a * y + b * s * z) / s * ((b * c * x' + a * y' + b * s * z') / s)
          + (c * c * x - x + c * s * z) / s * ((c * c * x' - x' + c * s * z') / s)
          = x * x' + y * y' + z * z') as ->; [|reflexivity].
    apply (Rmult_eq_reg_r (s * s)); [|nra].
    replace (((a * c * x - b * y + a * s * z) / s * ((a * c * x' - b * y' + a * s * z') / s)
          + (b * c * x + a * y + b * s * z) / s * ((b * c * x' + a * y' + b * s * z') / s)
          + (c * c * x - x + c * s * z) / s * ((c * c * x' - x' + c * s * z') / s)) * (s * s))
      with ((a * a + b * b) * (c * x + s * z) * (c * x' + s * z') + (a * a + b * b) * (y * y')
          + ((c * c - 1) * x + c * s * z) * ((c * c - 1) * x' + c * s * z')) by (field; lra).
    rewrite <- SS, CC.
    replace ((1 - s * s - 1) * x + c * s * z) with (s * (c * z - s * x)) by ring.
    replace ((1 - s * s - 1) * x' + c * s * z') with (s * (c * z' - s * x')) by ring.
    replace (s * s * (c * x + s * z) * (c * x' + s * z') + s * s * (y * y') + s * (c * z - s * x) * (s * (c * z' - s * x')))
      with (s * s * ((c * c + s * s) * (x * x') + (c * c + s * s) * (z * z') + y * y')) by ring.
    rewrite CC. ring.
  - rewrite rltb_false by exact L. destruct (Rlt_dec c 0) as [N|N].
    + rewrite rltb_true by exact N. unfold mink. cbn [lx ly lz lt]. ring.
    + rewrite rltb_false by lra. reflexivity.
Qed.
Lemma rotateUz_z u k e : vx u * vx u + vy u * vy u + vz u * vz u = 1 -> rotateUz u (Lv 0 0 k e) = Lv (vx u * k) (vy u * k) (vz u * k) e.
Proof.
  intros U. unfold rotateUz. cbv zeta. destruct u as [a b c]. cbn [vx vy vz lx ly lz lt] in *.
  destruct (Rlt_le_dec 0 (a * a + b * b)) as [L|L].
  - rewrite rltb_true by exact L. assert (0 < sqrt (a * a + b * b)) by (apply sqrt_lt_R0; exact L). apply lv_eq; field; lra.
  - rewrite rltb_false by exact L. assert (a = 0) by nra. assert (b = 0) by nra. subst a b. assert (c * c = 1) by lra.
    destruct (Rlt_dec c 0) as [N|N].
    + rewrite rltb_true by exact N. assert (c = -1) by nra. subst c. apply lv_eq; ring.
    + rewrite rltb_false by lra. assert (c = 1) by nra. subst c. apply lv_eq; ring.
Qed.
Lemma vUnit_one p : 0 < vMag2 p -> let u := vUnit p in vx u * vx u + vy u * vy u + vz u * vz u = 1
  /\ vx u * vMag p = vx p /\ vy u * vMag p = vy p /\ vz u * vMag p = vz p.
Proof.
  intros H. unfold vUnit, vMag. cbv zeta. rewrite rltb_true by exact H. cbn [vx vy vz].
  set (s := sqrt (vMag2 p)). assert (0 < s) by (apply sqrt_lt_R0; exact H). assert (s * s = vMag2 p) as SS by (apply sqrt_sqrt; lra).
  unfold vMag2 in SS. split; [|repeat split; field; lra].
  replace (vx p * (1 / s) * (vx p * (1 / s)) + vy p * (1 / s) * (vy p * (1 / s)) + vz p * (1 / s) * (vz p * (1 / s)))
    with ((vx p * vx p + vy p * vy p + vz p * vz p) / (s * s)) by (field; lra). rewrite <- SS. field. lra.
Qed.
(* the beam is the image of a vector along z *)
Lemma beam_rot beam : 0 < vMag2 (vect beam) -> rotateUz (vUnit (vect beam)) (Lv 0 0 (vMag (vect beam)) (lt beam)) = beam.
Proof.
  intros H. destruct (vUnit_one _ H) as (U & U1 & U2 & U3). rewrite rotateUz_z by exact U. rewrite U1, U2, U3. unfold vect. cbn [vx vy vz].
  now destruct beam.
Qed.
Lemma rest_rot u m : rotateUz u (Lv 0 0 0 m) = Lv 0 0 0 m.
Proof.
  unfold rotateUz. cbv zeta. cbn [lx ly lz lt]. destruct (Rlt_le_dec 0 (vx u * vx u + vy u * vy u)) as [L|L].
  - rewrite rltb_true by exact L. assert (0 < sqrt (vx u * vx u + vy u * vy u)) by (apply sqrt_lt_R0; exact L). apply lv_eq; field; lra.
  - rewrite rltb_false by exact L. destruct (rltb (vz u) 0); [apply lv_eq; ring|reflexivity].
Qed.

(* ---- t' in the centre-of-mass system ---- *)
(* energy and momentum of p in the rest frame of P *)
Definition cmE (w : R) (P p : lv) : R := mink P p / w.
Definition cmP (w : R) (P p : lv) : R := sqrt (cmE w P p * cmE w P p - mink p p).
Lemma cm_frame w P : massive w P -> exists B, good B /\ (forall p, boost (vneg (bv P)) p = Some (lapply B p))
  /\ boostVector P = Some (bv P) /\ lapply B P = Lv 0 0 0 w
  /\ forall p, lt (lapply B p) = cmE w P p /\ vMag (vect (lapply B p)) = cmP w P p /\ 0 <= cmE w P p * cmE w P p - mink p p.
Proof.
  intros H. destruct (toRest w P H) as (b & B & Eb & EB & GB & BP & B2 & BQ).
  assert (b = bv P) as -> by (rewrite boostVector_bv in Eb by apply H; congruence).
  exists B. split; [exact GB|]. split.
  - intros p. rewrite boost_bst by exact B2. f_equal.
    unfold lboost in EB. destruct (boostMat_spec _ B2) as (B' & E1 & E2 & _). rewrite E1 in EB. cbn [bnd] in EB. injection EB as <-.
    unfold transform. now rewrite lapply_mul, lapply_id, E2.
  - split; [exact Eb|]. split; [exact BP|]. intros p.
    assert (lt (lapply B p) = cmE w P p) as E by (rewrite BQ; reflexivity). split; [exact E|].
    pose proof (isl_mink B (gd_lor B GB) p p) as M. unfold mink at 1 in M. rewrite E in M.
    assert (vMag2 (vect (lapply B p)) = cmE w P p * cmE w P p - mink p p) as V by (unfold vMag2, vect; cbn [vx vy vz]; lra).
    split; [unfold vMag, cmP; now rewrite V|]. rewrite <- V. unfold vMag2. nra.
Qed.
Lemma tPrimeOf_eq w beam target X : massive w (plus4 beam target) ->
  let P := plus4 beam target in
  tPrimeOf beam target X = Some (2 * (cmP w P beam * cmP w P X - (cmE w P beam * cmE w P X - mink beam X))).
Proof.
  intros H P. destruct (cm_frame w P H) as (B & GB & HB & Hv & _ & HC). unfold tPrimeOf.
  replace (lvAdd beam target) with P by reflexivity. rewrite Hv. cbn [bnd]. cbv zeta. rewrite !HB. cbn [bnd].
  destruct (HC beam) as (E1 & M1 & _). destruct (HC X) as (E2 & M2 & _). rewrite M1, M2. do 3 f_equal.
  pose proof (isl_mink B (gd_lor B GB) beam X) as M. unfold mink at 1 in M. rewrite E1, E2 in M. unfold vdot, vect. cbn [vx vy vz].
  fold P in M1, M2 |- *. lra.
Qed.

(* energy of a possible outgoing system *)
Lemma possible_cm w beam target mx mr X : massive w (plus4 beam target) -> possible beam target mx mr X ->
  2 * w * cmE w (plus4 beam target) X = w * w + mx * mx - mr * mr.
Proof.
  intros (W & _ & H) (H1 & _ & H2 & _). apply mass_mink in H. apply mass_mink in H1. apply mass_mink in H2. unfold cmE.
  set (P := plus4 beam target) in *.
  assert (mink (minus4 P X) (minus4 P X) = mink P P + mink X X - 2 * mink P X) as E by (unfold mink, minus4; cbn [lx ly lz lt]; ring).
  rewrite H2, H, H1 in E. apply (Rmult_eq_reg_r 1); [|lra]. field_simplify; lra.
Qed.
Lemma transfer_eq beam X : transfer beam X = mink X X + mink beam beam - 2 * mink beam X.
Proof. unfold transfer. rewrite inv2_mink. unfold mink, minus4. cbn [lx ly lz lt]. ring. Qed.
Lemma cs_cm w P a b : massive w P -> cmE w P a * cmE w P b - mink a b <= cmP w P a * cmP w P b.
Proof.
  intros H. destruct (cm_frame w P H) as (B & GB & _ & _ & _ & HC). destruct (HC a) as (E1 & M1 & N1). destruct (HC b) as (E2 & M2 & N2).
  pose proof (isl_mink B (gd_lor B GB) a b) as M. unfold mink at 1 in M. rewrite E1, E2 in M.
  set (p := lapply B a) in *. set (q := lapply B b) in *.
  pose proof (cs3 (lx p) (ly p) (lz p) (lx q) (ly q) (lz q)) as C.
  rewrite <- M1, <- M2. unfold vMag. rewrite <- sqrt_mult by (unfold vMag2; nra).
  destruct (Rle_lt_dec (cmE w P a * cmE w P b - mink a b) 0) as [L|L]; [pose proof (sqrt_pos (vMag2 (vect p) * vMag2 (vect q))); lra|].
  rewrite <- (sqrt_square (cmE w P a * cmE w P b - mink a b)) by lra. apply sqrt_le_1_alt.
  unfold vMag2, vect. cbn [vx vy vz].
  replace (cmE w P a * cmE w P b - mink a b) with (lx p * lx q + ly p * ly q + lz p * lz q) by lra. lra.
Qed.
Lemma tPrime_is w mb beam target mx mr X : massive w (plus4 beam target) -> isBeam mb beam -> 0 <= mx -> 0 <= mr -> mx + mr <= w ->
  possible beam target mx mr X ->
  exists t', tPrimeOf beam target X = Some t' /\ 0 <= t' /\ isTPrime beam target mx mr X t'.
Proof.
  intros H (B0 & HB & EB & _) Hmx Hmr Hw HX. rewrite (tPrimeOf_eq w) by exact H. cbv zeta. set (P := plus4 beam target) in *.
  eexists; split; [reflexivity|]. pose proof (cs_cm w P beam X H) as C. split; [lra|].
  assert (forall Y, possible beam target mx mr Y -> cmE w P Y = cmE w P X /\ mink Y Y = mx * mx) as K.
  { intros Y HY. pose proof (possible_cm w beam target mx mr X H HX) as E1. pose proof (possible_cm w beam target mx mr Y H HY) as E2.
    fold P in E1, E2. split; [|apply mass_mink, HY]. apply (Rmult_eq_reg_l (2 * w)); [lra|]. destruct H. lra. }
  destruct (K X HX) as [_ XX]. split.
  - intros Y HY. destruct (K Y HY) as [E YY]. pose proof (cs_cm w P beam Y H) as C'. rewrite !transfer_eq, YY, XX.
    assert (cmP w P Y = cmP w P X) as EP by (unfold cmP; now rewrite E, YY, XX). rewrite E, EP in C'. lra.
  - destruct (cm_frame w P H) as (B & GB & _ & _ & BP & HC). destruct (HC beam) as (E1 & M1 & N1). destruct (HC X) as (E2 & M2 & N2).
    destruct (Req_dec (cmP w P beam) 0) as [Z|NZ].
    + exists X. split; [exact HX|]. rewrite Z. pose proof (isl_mink B (gd_lor B GB) beam X) as M. unfold mink at 1 in M. rewrite E1, E2 in M.
      assert (vMag2 (vect (lapply B beam)) = 0) as V.
      { rewrite Z in M1. unfold vMag in M1. apply sqrt_eq_0 in M1; [exact M1|unfold vMag2; nra]. }
      unfold vMag2, vect in V. cbn [vx vy vz] in V.
      assert (lx (lapply B beam) = 0) as z1 by nra. assert (ly (lapply B beam) = 0) as z2 by nra. assert (lz (lapply B beam) = 0) as z3 by nra.
      rewrite z1, z2, z3 in M. lra.
    + set (k := cmP w P X / cmP w P beam). set (pb := lapply B beam) in *.
      set (Yc := Lv (k * lx pb) (k * ly pb) (k * lz pb) (cmE w P X)). set (Y := lapply (linv B) Yc).
      assert (lapply B Y = Yc) as EY by apply (gd_r B GB).
      assert (vMag2 (vect pb) = cmP w P beam * cmP w P beam) as Vb.
      { rewrite <- M1. unfold vMag. rewrite sqrt_sqrt; [reflexivity|unfold vMag2; nra]. }
      assert (cmP w P X * cmP w P X = cmE w P X * cmE w P X - mx * mx) as PX.
      { unfold cmP. rewrite sqrt_sqrt by exact N2. now rewrite XX. }
      unfold vMag2, vect in Vb. cbn [vx vy vz] in Vb.
      assert (mink Yc Yc = mx * mx) as YY.
      { unfold mink, Yc. cbn [lx ly lz lt].
        replace (k * lx pb * (k * lx pb) + k * ly pb * (k * ly pb) + k * lz pb * (k * lz pb))
          with (k * k * (lx pb * lx pb + ly pb * ly pb + lz pb * lz pb)) by ring. rewrite Vb.
        replace (k * k * (cmP w P beam * cmP w P beam)) with (cmP w P X * cmP w P X) by (unfold k; field; exact NZ). lra. }
      assert (mink Y Y = mx * mx) as YY' by (rewrite <- (isl_mink B (gd_lor B GB)), EY; exact YY).
      assert (mink P Y = w * cmE w P X) as PY.
      { rewrite <- (isl_mink B (gd_lor B GB)), EY, BP. unfold mink, Yc. cbn [lx ly lz lt]. ring. }
      assert (mink P P = w * w) as PP by (apply mass_mink, H).
      pose proof (possible_cm w beam target mx mr X H HX) as EX. fold P in EX. pose proof (proj1 H) as W.
      assert (mink (minus4 P Y) (minus4 P Y) = mink P P + mink Y Y - 2 * mink P Y) as ER by (unfold mink, minus4; cbn [lx ly lz lt]; ring).
      assert (mink P (minus4 P Y) = mink P P - mink P Y) as ES by (unfold mink, minus4; cbn [lx ly lz lt]; ring).
      rewrite PP, PY in ES. rewrite PP, PY, YY' in ER.
      exists Y. split.
      * unfold possible. fold P. split; [apply mass_mink; exact YY'|]. split; [apply (future w P); [exact H|nra|nra]|].
        split; [apply mass_mink; lra|]. apply (future w P); [exact H|nra|nra].
      * rewrite !transfer_eq, YY', XX.
        assert (mink beam Y = cmE w P beam * cmE w P X - cmP w P X * cmP w P beam) as ->; [|lra].
        rewrite <- (isl_mink B (gd_lor B GB)), EY. fold pb. unfold mink at 1, Yc. cbn [lx ly lz lt]. rewrite E1.
        replace (lx pb * (k * lx pb) + ly pb * (k * ly pb) + lz pb * (k * lz pb)) with (k * (lx pb * lx pb + ly pb * ly pb + lz pb * lz pb)) by ring.
        rewrite Vb. unfold k. field. exact NZ.
Qed.
