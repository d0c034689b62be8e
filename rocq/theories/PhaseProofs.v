(* Lorentz transformations and the two algorithms of calcEventKinematics (C72). *)
From Coq Require Import List ZArith Reals Bool Lia Lra Psatz.
From Verif Require Import ArrayModel CGBoxModel PhysModel PhysProps SumAccProofs LikSetProofs PhaseModel PhaseSpec.
Import ListNotations.
Open Scope R_scope.

Lemma lv_eq x y z t x' y' z' t' : x = x' -> y = y' -> z = z' -> t = t' -> Lv x y z t = Lv x' y' z' t'.
Proof. now intros -> -> -> ->. Qed.
Lemma rltb_false x y : y <= x -> rltb x y = false.
Proof. intros H. unfold rltb. destruct (Rlt_dec x y); [lra|reflexivity]. Qed.
Lemma rltb_true x y : x < y -> rltb x y = true.
Proof. intros H. unfold rltb. destruct (Rlt_dec x y); [reflexivity|lra]. Qed.
Lemma osqrt_ok x : 0 <= x -> osqrt x = Some (sqrt x).
Proof. intros H. unfold osqrt. now rewrite rltb_false. Qed.
Lemma rdiv_ok x y : y <> 0 -> rdiv x y = Some (x / y).
Proof. intros H. unfold rdiv. destruct (Req_EM_T y 0); [contradiction|reflexivity]. Qed.

Notation lv0 := (Lv 0 0 0 0).
Definition dot (p q : lv) : R := lt p * lt q - (lx p * lx q + ly p * ly q + lz p * lz q).
Lemma hasMass_dot m p : hasMass m p <-> dot p p = m * m.
Proof. unfold hasMass, dot. split; intros H; cbn [pow] in *; lra. Qed.

(* a map that preserves sums, invariant masses and the sign of the energy *)
Record lorentz (T : lv -> lv) : Prop := {
  lo_add : forall p q, T (plus4 p q) = plus4 (T p) (T q);
  lo_dot : forall p, dot (T p) (T p) = dot p p;
  lo_pos : forall p, 0 <= lt p -> 0 <= dot p p -> 0 <= lt (T p) }.

(* ---- boosts ---- *)
Definition b2 (b : v3) : R := vx b * vx b + vy b * vy b + vz b * vz b.
Definition gam (b : v3) : R := 1 / sqrt (1 - b2 b).
Definition gam2 (b : v3) : R := if rltb 0 (b2 b) then (gam b - 1) / b2 b else 0.
Definition bp (b : v3) (p : lv) : R := vx b * lx p + vy b * ly p + vz b * lz p.
Definition bst (b : v3) (p : lv) : lv :=
  Lv (lx p + gam2 b * bp b p * vx b + gam b * vx b * lt p)
     (ly p + gam2 b * bp b p * vy b + gam b * vy b * lt p)
     (lz p + gam2 b * bp b p * vz b + gam b * vz b * lt p)
     (gam b * (lt p + bp b p)).
Lemma boost_bst b p : b2 b < 1 -> boost b p = Some (bst b p).
Proof.
  intros H. unfold boost. fold (b2 b). rewrite osqrt_ok by lra. cbn [bnd].
  rewrite rdiv_ok; [reflexivity|]. apply Rgt_not_eq, sqrt_lt_R0. lra.
Qed.
Lemma b2_nonneg b : 0 <= b2 b.
Proof. unfold b2. nra. Qed.
Lemma gam_spec b : b2 b < 1 -> 0 < gam b /\ gam b * gam b * (1 - b2 b) = 1.
Proof.
  intros H. unfold gam. set (s := sqrt (1 - b2 b)). assert (0 < s) by (apply sqrt_lt_R0; lra).
  assert (s * s = 1 - b2 b) as E by (apply sqrt_sqrt; lra). split; [apply Rdiv_lt_0_compat; lra|].
  rewrite <- E. field. lra.
Qed.
Lemma gam2_spec b : b2 b < 1 -> gam2 b * b2 b = gam b - 1.
Proof.
  intros H. unfold gam2, rltb. destruct (Rlt_dec 0 (b2 b)) as [P|N]; [field; lra|].
  assert (b2 b = 0) as E by (pose proof (b2_nonneg b); lra). destruct (gam_spec b H) as [G1 G2].
  rewrite E in *. rewrite Rmult_0_l. rewrite Rminus_0_r, Rmult_1_r in G2.
  assert ((gam b - 1) * (gam b + 1) = 0) as Z by lra. apply Rmult_integral in Z. destruct Z; lra.
Qed.
Lemma bp_cs b p : bp b p * bp b p <= b2 b * (lx p * lx p + ly p * ly p + lz p * lz p).
Proof.
  unfold bp, b2. destruct b as [a b c], p as [x y z t]. cbn [vx vy vz lx ly lz].
  pose proof (Rle_0_sqr (a * y - b * x)) as S1. pose proof (Rle_0_sqr (a * z - c * x)) as S2. pose proof (Rle_0_sqr (b * z - c * y)) as S3.
  unfold Rsqr in *. lra.
Qed.
Lemma bst_lorentz b : b2 b < 1 -> lorentz (bst b).
Proof.
  intros H. destruct (gam_spec b H) as [G1 G2]. pose proof (gam2_spec b H) as G3. pose proof (b2_nonneg b) as B0.
  split.
  - intros p q. unfold bst, plus4, bp. cbn [lx ly lz lt]. apply lv_eq; ring.
  - intros p. unfold bst, dot. cbn [lx ly lz lt].
    set (g := gam b) in *. set (g2 := gam2 b) in *. set (s := bp b p). set (t := lt p).
    assert (g * g * (s * s) = g2 * (g + 1) * (s * s)) as K.
    { destruct (Req_dec (b2 b) 0) as [E|N].
      - assert (s = 0) as ->; [|ring]. pose proof (bp_cs b p) as C. rewrite E in C. fold s in C. nra.
      - assert (g * g = g2 * (g + 1)) as ->; [|ring].
        apply (Rmult_eq_reg_r (b2 b)); [|exact N].
        replace (g2 * (g + 1) * b2 b) with (g2 * b2 b * (g + 1)) by ring. rewrite G3. nra. }
    assert (vx b * lx p + vy b * ly p + vz b * lz p = s) as Es by reflexivity.
    assert (vx b * vx b + vy b * vy b + vz b * vz b = b2 b) as Eb by reflexivity.
    replace ((lx p + g2 * s * vx b + g * vx b * t) * (lx p + g2 * s * vx b + g * vx b * t)
      + (ly p + g2 * s * vy b + g * vy b * t) * (ly p + g2 * s * vy b + g * vy b * t)
      + (lz p + g2 * s * vz b + g * vz b * t) * (lz p + g2 * s * vz b + g * vz b * t))
      with (lx p * lx p + ly p * ly p + lz p * lz p
            + (g2 * s + g * t) * (g2 * s + g * t) * (vx b * vx b + vy b * vy b + vz b * vz b)
            + 2 * (g2 * s + g * t) * (vx b * lx p + vy b * ly p + vz b * lz p)) by ring.
    rewrite Es, Eb.
    replace ((g2 * s + g * t) * (g2 * s + g * t) * b2 b)
      with (g2 * s * s * (g2 * b2 b) + 2 * g * t * s * (g2 * b2 b) + t * t * (g * g * b2 b)) by ring.
    assert (g * g * b2 b = g * g - 1) as G4 by lra. rewrite G3, G4. nra.
  - intros p Ht Hd. unfold bst, dot in *. cbn [lt]. apply Rmult_le_pos; [lra|].
    pose proof (bp_cs b p) as C. set (s := bp b p) in *. set (t := lt p) in *.
    set (v := lx p * lx p + ly p * ly p + lz p * lz p) in *.
    assert (0 <= v) by (unfold v; nra). assert (s * s <= t * t) by nra. nra.
Qed.

(* boost from the rest frame of P *)
Definition bv (P : lv) : v3 := V3 (lx P / lt P) (ly P / lt P) (lz P / lt P).
Lemma boostVector_bv P : 0 < lt P -> boostVector P = Some (bv P).
Proof. intros H. unfold boostVector. rewrite !rdiv_ok by lra. reflexivity. Qed.
Lemma bv_b2 P : 0 < lt P -> 1 - b2 (bv P) = dot P P / (lt P * lt P).
Proof. intros H. unfold b2, bv, dot. cbn [vx vy vz]. field. lra. Qed.
Lemma bv_lt1 P : 0 < lt P -> 0 < dot P P -> b2 (bv P) < 1.
Proof. intros H D. assert (0 < 1 - b2 (bv P)); [|lra]. rewrite bv_b2 by assumption. apply Rdiv_lt_0_compat; nra. Qed.
Lemma bst_rest P M : 0 < lt P -> 0 < M -> dot P P = M * M -> bst (bv P) (Lv 0 0 0 M) = P.
Proof.
  intros H HM D. assert (gam (bv P) = lt P / M) as G.
  { unfold gam. rewrite bv_b2 by assumption. rewrite D. replace (M * M / (lt P * lt P)) with ((M / lt P) * (M / lt P)) by (field; lra).
    rewrite sqrt_square by (apply Rlt_le, Rdiv_lt_0_compat; lra). field. lra. }
  unfold bst, bp. rewrite G. unfold bv. cbn [lx ly lz lt vx vy vz]. destruct P as [x y z t]. cbn [lx ly lz lt] in *. apply lv_eq; field; lra.
Qed.
Lemma bst_z M q beta : 0 < M -> betaOf M q = Some beta -> 0 <= q ->
  b2 (V3 0 0 beta) < 1 /\ bst (V3 0 0 beta) (Lv 0 0 0 M) = Lv 0 0 q (sqrt (M * M + q * q)).
Proof.
  intros HM HB Hq. unfold betaOf, reqb in HB. destruct (Req_EM_T q 0) as [->|N].
  - destruct (Req_EM_T M 0); [lra|]. injection HB as <-. unfold b2, bst, gam, gam2, bp, b2. cbn [vx vy vz lx ly lz lt].
    replace (0 * 0 + 0 * 0 + 0 * 0) with 0 by ring. split; [lra|]. rewrite Rminus_0_r, sqrt_1.
    replace (M * M + 0 * 0) with (M * M) by ring. rewrite sqrt_square by lra. apply lv_eq; field.
  - set (k := M / q) in *. assert (0 < q) by lra. assert (0 < k) by (unfold k; apply Rdiv_lt_0_compat; lra).
    rewrite osqrt_ok in HB by nra. cbn [bnd] in HB. set (s := sqrt (1 + k * k)) in *.
    assert (0 < s) by (apply sqrt_lt_R0; nra). assert (s * s = 1 + k * k) as Es by (apply sqrt_sqrt; nra).
    rewrite rdiv_ok in HB by lra. injection HB as <-.
    assert (M = k * q) as EM by (unfold k; field; lra).
    assert (1 - b2 (V3 0 0 (1 / s)) = (k / s) * (k / s)) as Eb.
    { unfold b2. cbn [vx vy vz]. apply (Rmult_eq_reg_r (s * s)); [|nra].
      replace ((1 - (0 * 0 + 0 * 0 + 1 / s * (1 / s))) * (s * s)) with (s * s - 1) by (field; lra).
      replace (k / s * (k / s) * (s * s)) with (k * k) by (field; lra). lra. }
    assert (0 < k / s) by (apply Rdiv_lt_0_compat; lra).
    split; [nra|]. assert (gam (V3 0 0 (1 / s)) = s / k) as G.
    { unfold gam. rewrite Eb, sqrt_square by lra. field. lra. }
    unfold bst, bp. rewrite G. cbn [vx vy vz lx ly lz lt].
    assert (sqrt (M * M + q * q) = s * q) as ->.
    { replace (M * M + q * q) with ((s * q) * (s * q)); [apply sqrt_square; nra|].
      replace (s * q * (s * q)) with (s * s * (q * q)) by ring. rewrite Es, EM. ring. }
    rewrite EM. apply lv_eq; field; lra.
Qed.
Lemma betaOf_ok M q : 0 < M -> 0 <= q -> exists beta, betaOf M q = Some beta.
Proof.
  intros HM Hq. unfold betaOf, reqb. destruct (Req_EM_T q 0) as [->|N].
  - destruct (Req_EM_T M 0); [lra|]. now exists 0.
  - assert (0 <= M / q * (M / q)) by nra. rewrite osqrt_ok by lra. cbn [bnd]. rewrite rdiv_ok; [eexists; reflexivity|].
    apply Rgt_not_eq, sqrt_lt_R0. lra.
Qed.

(* ---- rotations ---- *)
Definition rot (cT sT ph : R) (p : lv) : lv := rotPhi (cos ph) (sin ph) (rotTheta cT sT p).
Lemma rot_lorentz cT sT ph : cT * cT + sT * sT = 1 -> lorentz (rot cT sT ph).
Proof.
  intros H. assert (cos ph * cos ph + sin ph * sin ph = 1) as HP by (pose proof (sin2_cos2 ph) as S; unfold Rsqr in S; lra).
  split.
  - intros p q. unfold rot, rotPhi, rotTheta, plus4. cbn [lx ly lz lt]. apply lv_eq; ring.
  - intros p. unfold rot, rotPhi, rotTheta, dot. cbn [lx ly lz lt]. destruct p as [x y z t]. cbn [lx ly lz lt].
    set (a := cos ph) in *. set (b := sin ph) in *.
    replace ((a * (sT * z + cT * x) - b * y) * (a * (sT * z + cT * x) - b * y)
      + (b * (sT * z + cT * x) + a * y) * (b * (sT * z + cT * x) + a * y) + (cT * z - sT * x) * (cT * z - sT * x))
      with ((a * a + b * b) * ((sT * z + cT * x) * (sT * z + cT * x) + y * y) + (cT * z - sT * x) * (cT * z - sT * x)) by ring.
    rewrite HP. replace (1 * ((sT * z + cT * x) * (sT * z + cT * x) + y * y) + (cT * z - sT * x) * (cT * z - sT * x))
      with ((cT * cT + sT * sT) * (x * x + z * z) + y * y) by ring. rewrite H. ring.
  - intros p Ht _. exact Ht.
Qed.
Lemma rot_rest cT sT ph M : rot cT sT ph (Lv 0 0 0 M) = Lv 0 0 0 M.
Proof. unfold rot, rotPhi, rotTheta. cbn [lx ly lz lt]. apply lv_eq; ring. Qed.

(* ---- sums ---- *)
Fixpoint sumTo (f : nat -> lv) (j : nat) : lv := match j with O => f O | S k => plus4 (sumTo f k) (f j) end.
Lemma sumTo_ext f g j : (forall i, (i <= j)%nat -> f i = g i) -> sumTo f j = sumTo g j.
Proof. induction j as [|j IH]; intros H; cbn [sumTo]; [apply H; lia|]. rewrite IH by (intros; apply H; lia). now rewrite (H (S j)) by lia. Qed.
Lemma sumTo_map T f j : lorentz T -> sumTo (fun i => T (f i)) j = T (sumTo f j).
Proof. intros L. induction j as [|j IH]; cbn [sumTo]; [reflexivity|]. now rewrite IH, (lo_add T L). Qed.
Lemma plus4_assoc p q r : plus4 (plus4 p q) r = plus4 p (plus4 q r).
Proof. unfold plus4. cbn [lx ly lz lt]. apply lv_eq; ring. Qed.
Lemma plus4_0_l p : plus4 lv0 p = p.
Proof. destruct p as [a b c d]. unfold plus4. cbn [lx ly lz lt]. apply lv_eq; ring. Qed.
Lemma plus4_0_r p : plus4 p lv0 = p.
Proof. destruct p as [a b c d]. unfold plus4. cbn [lx ly lz lt]. apply lv_eq; ring. Qed.
Lemma sum4_app a b : sum4 (a ++ b) = plus4 (sum4 a) (sum4 b).
Proof.
  induction a as [|x a IH]; cbn [app]; [symmetry; apply plus4_0_l|].
  change (sum4 (x :: a ++ b)) with (plus4 x (sum4 (a ++ b))). change (sum4 (x :: a)) with (plus4 x (sum4 a)).
  now rewrite IH, plus4_assoc.
Qed.
Lemma firstn_S_nth {A} (l : list A) j d : (j < length l)%nat -> firstn (S j) l = firstn j l ++ [nth j l d].
Proof.
  revert j. induction l as [|x l IH]; intros [|j] H; cbn in H; try lia; [reflexivity|].
  cbn [firstn nth]. change (firstn (S j) (x :: l)) with (x :: firstn j l). cbn [app]. f_equal. apply IH. lia.
Qed.
Lemma sumTo_firstn (l : list lv) j : (j < length l)%nat -> sum4 (firstn (S j) l) = sumTo (fun i => nth i l lv0) j.
Proof.
  induction j as [|j IH]; intros H.
  - rewrite (firstn_S_nth l 0 lv0) by assumption. cbn [firstn app sumTo]. apply plus4_0_r.
  - rewrite (firstn_S_nth l (S j) lv0) by assumption. rewrite sum4_app, IH by lia. cbn [sumTo]. f_equal. apply plus4_0_r.
Qed.

(* ---- vectors ---- *)
Lemma rd_nth {A} (v : list A) i d : (i < length v)%nat -> rd v i = Some (nth i v d).
Proof. intros H. unfold rd. now apply nth_error_nth'. Qed.
Lemma wr_nth {A} (v : list A) i x d : (i < length v)%nat ->
  exists v', wr v i x = Some v' /\ length v' = length v /\ forall j, nth j v' d = if (j =? i)%nat then x else nth j v d.
Proof.
  intros H. destruct (wr_spec v i x H) as (v' & E & L & N). exists v'. split; [exact E|]. split; [exact L|].
  intros j. specialize (N j). destruct (Nat.eqb_spec j i) as [Ej|Hj].
  - subst j. now apply nth_error_nth.
  - destruct (Nat.lt_ge_cases j (length v)) as [Lj|Lj].
    + rewrite (nth_error_nth' v d Lj) in N. now apply nth_error_nth.
    + rewrite !nth_overflow by lia. reflexivity.
Qed.
Lemma forFirst_ok f T k d : (k <= length d)%nat -> (forall p, f p = Some (T p)) ->
  exists d', forFirst k f d = Some d' /\ length d' = length d
    /\ forall j, nth j d' lv0 = if (j <? k)%nat then T (nth j d lv0) else nth j d lv0.
Proof.
  intros Hk Hf. unfold forFirst. induction k as [|k IH].
  - exists d. split; [reflexivity|]. split; [reflexivity|]. intros j. reflexivity.
  - destruct (IH ltac:(lia)) as (d1 & E1 & L1 & N1). rewrite seq_S, foldO_app, E1. cbn [bnd foldO Nat.add].
    rewrite (rd_nth d1 k lv0) by lia. cbn [bnd]. rewrite Hf. cbn [bnd].
    destruct (wr_nth d1 k (T (nth k d1 lv0)) lv0 ltac:(lia)) as (d2 & E2 & L2 & N2). rewrite E2. cbn [bnd].
    exists d2. split; [reflexivity|]. split; [lia|]. intros j. rewrite N2, N1.
    rewrite N1. rewrite (proj2 (Nat.ltb_ge k k)) by lia.
    destruct (Nat.eqb_spec j k) as [->|Hj].
    + rewrite (proj2 (Nat.ltb_lt k (S k))) by lia. reflexivity.
    + destruct (Nat.ltb_spec j k), (Nat.ltb_spec j (S k)); try lia; reflexivity.
Qed.

(* ---- the event ---- *)
Section Event.
  Context (ms Ms cs ps qs : list R) (n : nat).
  Notation m i := (nth i ms 0).
  Notation M i := (nth i Ms 0).
  Notation c i := (nth i cs 0).
  Notation q i := (nth i qs 0).
  Context (Hn : (2 <= n)%nat) (Lm : length ms = n) (LM : length Ms = n) (Lc : length cs = n) (Lp : length ps = n) (Lq : length qs = n)
          (Hm : forall i, (i < n)%nat -> 0 <= m i)
          (HM0 : M 0 = m 0) (HM : forall i, (1 <= i < n)%nat -> 0 < M i)
          (Hc : forall i, (1 <= i < n)%nat -> -1 <= c i <= 1)
          (Hq : forall i, (1 <= i < n)%nat -> 0 <= q i /\
                  sqrt (M (i - 1) * M (i - 1) + q i * q i) + sqrt (m i * m i + q i * q i) = M i).

  Lemma M_nonneg i : (i < n)%nat -> 0 <= M i.
  Proof. intros H. destruct i as [|i]; [rewrite HM0; apply Hm; lia|]. apply Rlt_le, HM. lia. Qed.
  Definition good (j : nat) (p : lv) : Prop := dot p p = m j * m j /\ 0 <= lt p.

  (* BLOCK *)
  Definition blockBody (i : nat) (r : lv * list lv) : option (lv * list lv) :=
    let P := fst r in
    do c <- rd cs i; do ph <- rd ps i; do q <- rd qs i; do m <- rd ms i;
    do sinTheta <- osqrt (1 - c * c);
    let pT := q * sinTheta in
    do e <- osqrt (m * m + q * q);
    do b <- boostVector P;
    do dau <- boost b (Lv (pT * cos ph) (pT * sin ph) (q * c) e);
    do d <- wr (snd r) i dau;
    Some (lvSub P dau, d).
  Lemma block_step i P d : (1 <= i < n)%nat -> length d = n -> 0 <= lt P -> dot P P = M i * M i ->
    exists P' d' dau, blockBody i (P, d) = Some (P', d') /\ length d' = n
      /\ (forall j, nth j d' lv0 = if (j =? i)%nat then dau else nth j d lv0)
      /\ good i dau /\ plus4 P' dau = P /\ 0 <= lt P' /\ dot P' P' = M (i - 1) * M (i - 1).
  Proof.
    intros Hi Ld HP HD. pose proof (HM i Hi) as HMi. destruct (Hq i Hi) as [Hqi HE]. pose proof (Hc i Hi) as Hci.
    pose proof (Hm i ltac:(lia)) as Hmi. pose proof (M_nonneg (i - 1) ltac:(lia)) as HMp.
    assert (0 < lt P) as HP'.
    { destruct (Rle_lt_or_eq_dec _ _ HP) as [L|E]; [exact L|]. exfalso. unfold dot in HD. rewrite <- E in HD. nra. }
    assert (0 < dot P P) as HDP by (rewrite HD; nra).
    unfold blockBody. cbn [fst snd]. rewrite (rd_nth cs i 0), (rd_nth ps i 0), (rd_nth qs i 0), (rd_nth ms i 0) by lia. cbn [bnd].
    set (ci := c i) in *. set (qi := q i) in *. set (mi := m i) in *. set (ph := nth i ps 0).
    rewrite osqrt_ok by nra. cbn [bnd]. rewrite osqrt_ok by nra. cbn [bnd]. rewrite boostVector_bv by assumption. cbn [bnd].
    set (st := sqrt (1 - ci * ci)). assert (st * st = 1 - ci * ci) as Est by (apply sqrt_sqrt; nra).
    set (e := sqrt (mi * mi + qi * qi)) in *. assert (e * e = mi * mi + qi * qi) as Ee by (apply sqrt_sqrt; nra).
    assert (0 <= e) as He by apply sqrt_pos.
    set (e2 := sqrt (M (i - 1) * M (i - 1) + qi * qi)) in *.
    assert (e2 * e2 = M (i - 1) * M (i - 1) + qi * qi) as Ee2 by (apply sqrt_sqrt; nra).
    assert (0 <= e2) as He2 by apply sqrt_pos.
    set (ds := Lv (qi * st * cos ph) (qi * st * sin ph) (qi * ci) e).
    set (rs := Lv (- (qi * st * cos ph)) (- (qi * st * sin ph)) (- (qi * ci)) e2).
    pose proof (bv_lt1 P HP' HDP) as HB. rewrite boost_bst by exact HB. cbn [bnd].
    set (T := bst (bv P)). pose proof (bst_lorentz (bv P) HB) as LT. fold T in LT.
    destruct (wr_nth d i (T ds) lv0 ltac:(lia)) as (d' & Ed & Ld' & Nd). rewrite Ed. cbn [bnd].
    assert (cos ph * cos ph + sin ph * sin ph = 1) as HCS by (pose proof (sin2_cos2 ph) as S; unfold Rsqr in S; lra).
    assert (forall s, dot (Lv (s * (qi * st * cos ph)) (s * (qi * st * sin ph)) (s * (qi * ci)) 0)
                          (Lv (s * (qi * st * cos ph)) (s * (qi * st * sin ph)) (s * (qi * ci)) 0) = - (s * s * (qi * qi))) as HN.
    { intros s. unfold dot. cbn [lx ly lz lt].
      replace (0 * 0 - (s * (qi * st * cos ph) * (s * (qi * st * cos ph)) + s * (qi * st * sin ph) * (s * (qi * st * sin ph)) + s * (qi * ci) * (s * (qi * ci))))
        with (- (s * s * (qi * qi) * (st * st * (cos ph * cos ph + sin ph * sin ph) + ci * ci))) by ring.
      rewrite HCS, Est. ring. }
    assert (dot ds ds = mi * mi) as Dd.
    { specialize (HN 1). unfold ds, dot in *. cbn [lx ly lz lt] in *. lra. }
    assert (dot rs rs = M (i - 1) * M (i - 1)) as Dr.
    { specialize (HN (-1)). unfold rs, dot in *. cbn [lx ly lz lt] in *. lra. }
    assert (T (Lv 0 0 0 (M i)) = P) as TR by (apply bst_rest; assumption).
    assert (plus4 rs ds = Lv 0 0 0 (M i)) as SR.
    { unfold rs, ds, plus4. cbn [lx ly lz lt]. apply lv_eq; try ring. exact HE. }
    assert (lvSub P (T ds) = T rs) as SP.
    { rewrite <- TR at 1. rewrite <- SR, (lo_add T LT). destruct (T rs) as [a1 a2 a3 a4], (T ds) as [c1 c2 c3 c4]. unfold lvSub, plus4. cbn [lx ly lz lt]. apply lv_eq; ring. }
    exists (T rs), d', (T ds). rewrite SP. split; [reflexivity|]. split; [lia|]. split; [exact Nd|].
    split; [split; [now rewrite (lo_dot T LT)|apply (lo_pos T LT); [exact He|rewrite Dd; nra]]|].
    split; [rewrite <- (lo_add T LT), SR; exact TR|].
    split; [apply (lo_pos T LT); [exact He2|rewrite Dr; nra]|]. now rewrite (lo_dot T LT).
  Qed.
  Lemma block_loop k : forall P d, (k < n)%nat -> length d = n -> 0 <= lt P -> dot P P = M k * M k ->
    exists P0 d', foldO blockBody (rev (seq 1 k)) (P, d) = Some (P0, d') /\ length d' = n
      /\ (forall j, (k < j)%nat -> nth j d' lv0 = nth j d lv0)
      /\ let f := fun j => if (j =? 0)%nat then P0 else nth j d' lv0 in
         (forall j, (j <= k)%nat -> good j (f j)) /\ sumTo f k = P
         /\ (forall j, (j <= k)%nat -> dot (sumTo f j) (sumTo f j) = M j * M j).
  Proof.
    induction k as [|k IH]; intros P d Hk Ld HP HD.
    - exists P, d. split; [reflexivity|]. split; [exact Ld|]. split; [reflexivity|]. cbn [sumTo Nat.eqb].
      split; [intros j Hj; replace j with 0%nat by lia; cbn [Nat.eqb]; split; [rewrite HD, HM0; reflexivity|exact HP]|].
      split; [reflexivity|]. intros j Hj. replace j with 0%nat by lia. cbn [sumTo Nat.eqb]. exact HD.
    - rewrite seq_S, rev_app_distr. cbn [rev app foldO Nat.add].
      destruct (block_step (S k) P d ltac:(lia) Ld HP HD) as (P1 & d1 & dau & E1 & L1 & N1 & G1 & S1 & T1 & D1).
      replace (S k - 1)%nat with k in D1 by lia.
      change (1 + k)%nat with (S k). rewrite E1. cbn [bnd].
      destruct (IH P1 d1 ltac:(lia) L1 T1 D1) as (P0 & d' & E & L & N & G & S & D).
      exists P0, d'. split; [exact E|]. split; [exact L|].
      split; [intros j Hj; rewrite N, N1 by lia; destruct (Nat.eqb_spec j (Datatypes.S k)); [lia|reflexivity]|].
      cbv zeta in G, S, D |- *. set (f := fun j => if (j =? 0)%nat then P0 else nth j d' lv0) in *.
      assert (f (Datatypes.S k) = dau) as Ef.
      { unfold f. cbn [Nat.eqb]. rewrite N, N1 by lia. now rewrite Nat.eqb_refl. }
      assert (sumTo f (Datatypes.S k) = P) as ES by (cbn [sumTo]; rewrite S, Ef; exact S1).
      split; [|split].
      + intros j Hj. change (good j (f j)). destruct (Nat.eq_dec j (Datatypes.S k)) as [->|]; [rewrite Ef; exact G1|exact (G j ltac:(lia))].
      + exact ES.
      + intros j Hj. destruct (Nat.eq_dec j (Datatypes.S k)) as [->|]; [now rewrite ES|apply D; lia].
  Qed.

  (* RAUBOLD_LYNCH *)
  Definition rlBody (nBody : lv) (i : nat) (d : list lv) : option (list lv) :=
    do mi <- rd ms i; do qi <- rd qs i;
    do e <- osqrt (mi * mi + qi * qi);
    do d <- wr d i (Lv 0 0 (- qi) e);
    do cT <- rd cs i; do ph <- rd ps i;
    do sT <- osqrt (1 - cT * cT);
    do d <- forFirst (i + 1) (fun p => Some (rotPhi (cos ph) (sin ph) (rotTheta cT sT p))) d;
    if (i <? n - 1)%nat then
      do Mi <- rd Ms i; do qn <- rd qs (i + 1);
      do beta <- betaOf Mi qn;
      forFirst (i + 1) (boost (V3 0 0 beta)) d
    else
      do b <- boostVector nBody;
      forFirst n (boost b) d.
  (* the first i + 1 daughters, with total momentum P *)
  Definition upTo (i : nat) (P : lv) (d : list lv) : Prop :=
    length d = n /\ (forall j, (j <= i)%nat -> good j (nth j d lv0))
    /\ sumTo (fun j => nth j d lv0) i = P
    /\ (forall j, (j <= i)%nat -> dot (sumTo (fun j => nth j d lv0) j) (sumTo (fun j => nth j d lv0) j) = M j * M j).
  Lemma upTo_map T i P d d' : lorentz T -> (i < n)%nat -> upTo i P d -> length d' = n ->
    (forall j, (j <= i)%nat -> nth j d' lv0 = T (nth j d lv0)) -> upTo i (T P) d'.
  Proof.
    intros LT Hi (L & G & S & D) L' N.
    assert (forall j, (j <= i)%nat -> sumTo (fun j => nth j d' lv0) j = T (sumTo (fun j => nth j d lv0) j)) as E.
    { intros j Hj. rewrite <- (sumTo_map T (fun j => nth j d lv0) j LT). apply sumTo_ext. intros k Hk. apply N. lia. }
    split; [exact L'|]. split; [|split].
    - intros j Hj. rewrite N by lia. destruct (G j Hj) as [G1 G2].
      split; [now rewrite (lo_dot T LT)|apply (lo_pos T LT); [exact G2|rewrite G1; nra]].
    - rewrite E by lia. now rewrite S.
    - intros j Hj. rewrite E by lia. rewrite (lo_dot T LT). now apply D.
  Qed.
  Definition afterP (nBody : lv) (i : nat) : lv :=
    if (i <? n - 1)%nat then Lv 0 0 (q (i + 1)) (sqrt (M i * M i + q (i + 1) * q (i + 1))) else nBody.
  Lemma rl_step nBody i d : (1 <= i < n)%nat -> 0 < lt nBody -> dot nBody nBody = M (n - 1) * M (n - 1) ->
    upTo (i - 1) (Lv 0 0 (q i) (sqrt (M (i - 1) * M (i - 1) + q i * q i))) d ->
    exists d', rlBody nBody i d = Some d' /\ upTo i (afterP nBody i) d'.
  Proof.
    intros Hi HB HD (L & G & S & D). pose proof (HM i Hi) as HMi. destruct (Hq i Hi) as [Hqi HE]. pose proof (Hc i Hi) as Hci.
    pose proof (Hm i ltac:(lia)) as Hmi.
    unfold rlBody. rewrite (rd_nth ms i 0), (rd_nth qs i 0) by lia. cbn [bnd]. rewrite osqrt_ok by nra. cbn [bnd].
    set (e := sqrt (m i * m i + q i * q i)) in *. assert (e * e = m i * m i + q i * q i) as Ee by (apply sqrt_sqrt; nra).
    assert (0 <= e) as He by apply sqrt_pos.
    destruct (wr_nth d i (Lv 0 0 (- q i) e) lv0 ltac:(lia)) as (d1 & E1 & L1 & N1). rewrite E1. cbn [bnd].
    rewrite (rd_nth cs i 0), (rd_nth ps i 0) by lia. cbn [bnd]. rewrite osqrt_ok by nra. cbn [bnd].
    assert (upTo i (Lv 0 0 0 (M i)) d1) as U1.
    { assert (forall j, (j <= i - 1)%nat -> sumTo (fun j => nth j d1 lv0) j = sumTo (fun j => nth j d lv0) j) as ES.
      { intros j Hj. apply sumTo_ext. intros k Hk. rewrite N1. destruct (Nat.eqb_spec k i); [lia|reflexivity]. }
      assert (sumTo (fun j => nth j d1 lv0) i = Lv 0 0 0 (M i)) as ET.
      { replace i with (Datatypes.S (i - 1)) at 1 by lia. cbn [sumTo]. rewrite ES, S by lia.
        replace (Datatypes.S (i - 1)) with i by lia. rewrite N1, Nat.eqb_refl. unfold plus4. cbn [lx ly lz lt]. apply lv_eq; try ring. exact HE. }
      split; [lia|]. split; [|split].
      - intros j Hj. rewrite N1. destruct (Nat.eqb_spec j i) as [->|Hj']; [|apply G; lia].
        unfold good, dot. cbn [lx ly lz lt]. split; [nra|exact He].
      - exact ET.
      - intros j Hj. destruct (Nat.eq_dec j i) as [->|Hj']; [rewrite ET; unfold dot; cbn [lx ly lz lt]; ring|].
        rewrite ES by lia. apply D. lia. }
    set (sT := sqrt (1 - c i * c i)). assert (c i * c i + sT * sT = 1) as ET by (unfold sT; rewrite sqrt_sqrt by nra; ring).
    pose proof (rot_lorentz (c i) sT (nth i ps 0) ET) as LR.
    destruct (forFirst_ok (fun p => Some (rotPhi (cos (nth i ps 0)) (sin (nth i ps 0)) (rotTheta (c i) sT p)))
                (rot (c i) sT (nth i ps 0)) (i + 1) d1 ltac:(lia) (fun p => eq_refl)) as (d2 & E2 & L2 & N2).
    rewrite E2. cbn [bnd].
    assert (upTo i (Lv 0 0 0 (M i)) d2) as U2.
    { rewrite <- (rot_rest (c i) sT (nth i ps 0) (M i)). apply (upTo_map _ i _ d1); try assumption; try lia.
      intros j Hj. rewrite N2. destruct (Nat.ltb_spec j (i + 1)); [reflexivity|lia]. }
    unfold afterP. destruct (Nat.ltb_spec i (n - 1)) as [Hlt|Hge].
    - rewrite (rd_nth Ms i 0), (rd_nth qs (i + 1) 0) by lia. cbn [bnd].
      destruct (Hq (i + 1)%nat ltac:(lia)) as [Hqn _].
      destruct (betaOf_ok (M i) (q (i + 1)) HMi Hqn) as [beta EB]. rewrite EB. cbn [bnd].
      destruct (bst_z _ _ _ HMi EB Hqn) as [B1 B2].
      destruct (forFirst_ok (boost (V3 0 0 beta)) (bst (V3 0 0 beta)) (i + 1) d2 ltac:(lia) (fun p => boost_bst _ p B1)) as (d3 & E3 & L3 & N3).
      exists d3. split; [exact E3|]. rewrite <- B2. apply (upTo_map _ i _ d2); try assumption; try lia; [now apply bst_lorentz|].
      intros j Hj. rewrite N3. destruct (Nat.ltb_spec j (i + 1)); [reflexivity|lia].
    - assert (i = n - 1)%nat as Ei by lia. rewrite boostVector_bv by assumption. cbn [bnd].
      rewrite <- Ei in HD. assert (b2 (bv nBody) < 1) as HB1 by (apply bv_lt1; [assumption|rewrite HD; nra]).
      destruct (forFirst_ok (boost (bv nBody)) (bst (bv nBody)) n d2 ltac:(lia) (fun p => boost_bst _ p HB1)) as (d3 & E3 & L3 & N3).
      exists d3. split; [exact E3|]. rewrite <- (bst_rest nBody (M i) HB HMi HD).
      apply (upTo_map _ i _ d2); try assumption; try lia; [now apply bst_lorentz|].
      intros j Hj. rewrite N3. destruct (Nat.ltb_spec j n); [reflexivity|lia].
  Qed.
  Lemma rl_loop nBody d : 0 < lt nBody -> dot nBody nBody = M (n - 1) * M (n - 1) ->
    upTo 0 (Lv 0 0 (q 1) (sqrt (M 0 * M 0 + q 1 * q 1))) d ->
    forall k, (1 <= k < n)%nat -> exists d', foldO (rlBody nBody) (seq 1 k) d = Some d' /\ upTo k (afterP nBody k) d'.
  Proof.
    intros HB HD U0 k. induction k as [|k IH]; intros Hk; [lia|].
    rewrite seq_S, foldO_app. change (1 + k)%nat with (S k). destruct (Nat.eq_dec k 0) as [->|Nk].
    - cbn [seq foldO bnd]. destruct (rl_step nBody 1 d Hk HB HD U0) as (d' & E & U). rewrite E. cbn [bnd]. now exists d'.
    - destruct (IH ltac:(lia)) as (d1 & E1 & U1). rewrite E1. cbn [bnd foldO].
      unfold afterP in U1. rewrite (proj2 (Nat.ltb_lt k (n - 1))) in U1 by lia. replace (k + 1)%nat with (S k) in U1 by lia.
      destruct (rl_step nBody (S k) d1 Hk HB HD) as (d' & E & U); [replace (S k - 1)%nat with k by lia; exact U1|].
      rewrite E. cbn [bnd]. now exists d'.
  Qed.

  Lemma event_of f d P : length d = n -> (forall j, (j < n)%nat -> nth j d lv0 = f j) ->
    (forall j, (j < n)%nat -> good j (f j)) -> sumTo f (n - 1) = P ->
    (forall j, (j < n)%nat -> dot (sumTo f j) (sumTo f j) = M j * M j) -> isEvent ms Ms P d.
  Proof.
    intros L N G S D. unfold isEvent. rewrite Lm. split; [exact L|].
    assert (forall j, (j < n)%nat -> sum4 (firstn (Datatypes.S j) d) = sumTo f j) as E.
    { intros j Hj. rewrite sumTo_firstn by lia. apply sumTo_ext. intros i Hi. apply N. lia. }
    split; [|split].
    - rewrite <- S, <- E by lia. rewrite firstn_all2 by lia. reflexivity.
    - intros i Hi. rewrite N by assumption. destruct (G i Hi) as [G1 G2]. split; [now apply hasMass_dot|exact G2].
    - intros i Hi. rewrite E by assumption. now apply hasMass_dot, D.
  Qed.
End Event.

Lemma eventKinematics_ok g ms P :
  let n := gN g in
  (2 <= n)%nat -> gm g = ms -> length ms = n -> length (gM g) = n -> length (gCos g) = n -> length (gPhi g) = n -> length (gQ g) = n ->
  length (gDau g) = n -> Forall (fun m => 0 <= m) ms -> nth 0 (gM g) 0 = nth 0 ms 0 ->
  (forall i, (1 <= i < n)%nat -> 0 < nth i (gM g) 0) -> (forall i, (1 <= i < n)%nat -> -1 <= nth i (gCos g) 0 <= 1) ->
  (forall i, (1 <= i < n)%nat -> 0 <= nth i (gQ g) 0 /\
    sqrt (nth (i - 1) (gM g) 0 * nth (i - 1) (gM g) 0 + nth i (gQ g) 0 * nth i (gQ g) 0)
    + sqrt (nth i ms 0 * nth i ms 0 + nth i (gQ g) 0 * nth i (gQ g) 0) = nth i (gM g) 0) ->
  0 < lt P -> dot P P = nth (n - 1) (gM g) 0 * nth (n - 1) (gM g) 0 ->
  exists d, calcEventKinematics P g = Some (withDau d g) /\ isEvent ms (gM g) P d.
Proof.
  intros n Hn Em Lm LM Lc Lp Lq Ld Hpos H0 HM Hc Hq HP HD.
  assert (forall i, (i < n)%nat -> 0 <= nth i ms 0) as Hm.
  { intros i Hi. rewrite Forall_forall in Hpos. apply Hpos. apply nth_In. lia. }
  unfold calcEventKinematics. fold n. rewrite (proj2 (Nat.ltb_ge n 2)) by lia. destruct (gKT g).
  - unfold eventBlock. fold n. rewrite Em.
    destruct (block_loop ms (gM g) (gCos g) (gPhi g) (gQ g) n ltac:(lia) Lm LM Lc Lp Lq Hm H0 HM Hc Hq (n - 1) P (gDau g) ltac:(lia) Ld ltac:(lra) HD)
      as (P0 & d' & E & L & _ & G & S & D).
    unfold blockBody in E. rewrite E. cbn [bnd fst snd].
    destruct (wr_nth d' 0 P0 lv0 ltac:(lia)) as (d & E2 & L2 & N2). rewrite E2. cbn [bnd]. exists d. split; [reflexivity|].
    apply (event_of ms (gM g) (gCos g) (gPhi g) (gQ g) n ltac:(lia) Lm LM Lc Lp Lq Hm HM Hc Hq (fun j => if (j =? 0)%nat then P0 else nth j d' lv0)); try lia; try assumption.
    + intros j Hj. apply N2.
    + intros j Hj. apply G. lia.
    + intros j Hj. apply D. lia.
  - unfold eventRL. fold n. rewrite Em. rewrite (rd_nth ms 0 0), (rd_nth (gQ g) 1 0) by lia. cbn [bnd].
    pose proof (Hm 0%nat ltac:(lia)) as Hm0. destruct (Hq 1%nat ltac:(lia)) as [Hq1 _]. rewrite osqrt_ok by nra. cbn [bnd].
    set (p0 := Lv 0 0 (nth 1 (gQ g) 0) (sqrt (nth 0 ms 0 * nth 0 ms 0 + nth 1 (gQ g) 0 * nth 1 (gQ g) 0))).
    destruct (wr_nth (gDau g) 0 p0 lv0 ltac:(lia)) as (d0 & E0 & L0 & N0). rewrite E0. cbn [bnd].
    assert (dot p0 p0 = nth 0 ms 0 * nth 0 ms 0) as D0.
    { unfold p0, dot. cbn [lx ly lz lt]. rewrite sqrt_sqrt by nra. ring. }
    assert (upTo ms (gM g) n 0 p0 d0) as U0.
    { unfold upTo. split; [lia|]. split; [|split].
      - intros j Hj. replace j with 0%nat by lia. rewrite N0. cbn [Nat.eqb]. split; [exact D0|]. apply sqrt_pos.
      - cbn [sumTo]. rewrite N0. reflexivity.
      - intros j Hj. replace j with 0%nat by lia. cbn [sumTo]. rewrite N0. cbn [Nat.eqb]. rewrite D0, H0. reflexivity. }
    unfold p0 in U0. rewrite <- H0 in U0.
    destruct (rl_loop ms (gM g) (gCos g) (gPhi g) (gQ g) n ltac:(lia) Lm LM Lc Lp Lq Hm HM Hc Hq P d0 HP HD U0 (n - 1) ltac:(lia)) as (d & E & U).
    unfold rlBody in E. rewrite E. cbn [bnd]. exists d. split; [reflexivity|].
    unfold afterP in U. rewrite (proj2 (Nat.ltb_ge (n - 1) (n - 1))) in U by lia. destruct U as (L & G & S & D).
    apply (event_of ms (gM g) (gCos g) (gPhi g) (gQ g) n ltac:(lia) Lm LM Lc Lp Lq Hm HM Hc Hq (fun j => nth j d lv0)); try assumption.
    + reflexivity.
    + intros j Hj. apply G. lia.
    + intros j Hj. apply D. lia.
Qed.
