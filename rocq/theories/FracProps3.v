(** C13: infinite and undetermined numbers, and the sign. *)
From Coq Require Import ZArith Znumtheory Reals List Bool Lia Lra.
From Verif Require Import PrimeSpec FracModel FracSpec FracProofs FracProps.
Import ListNotations.
Open Scope Z_scope.

(** The extended numbers a TFracNum can stand for. *)
Inductive xnum := XFin (r : R) | XInf | XUndef.
(** A TFracNum standing for an extended number; infinity and undetermined are kept as marks in the sign. *)
Definition means (ps : list Z) (f : frac) (x : xnum) : Prop :=
  match x with
  | XFin r => finite ps f /\ fval ps f = r
  | XInf => sgn f = infSign
  | XUndef => sgn f = undefSign
  end.
(** Quotient of integers and product of extended numbers: 0/0 and 0 * infinity are undetermined. *)
Definition xquot (a b : Z) : xnum :=
  if b =? 0 then if a =? 0 then XUndef else XInf else XFin (IZR a / IZR b)%R.
Definition xmul (x y : xnum) : xnum :=
  match x, y with
  | XUndef, _ | _, XUndef => XUndef
  | XFin r, XFin s => XFin (r * s)%R
  | XInf, XInf => XInf
  | XInf, XFin r | XFin r, XInf => if Req_EM_T r 0 then XUndef else XInf
  end.
Definition xinv (x : xnum) : xnum :=
  match x with XFin r => if Req_EM_T r 0 then XInf else XFin (/ r)%R | XInf | XUndef => XUndef end.

Theorem C13_quotient_of_integers_extended : forall ps a b f, prime_list ps -> fracInt ps a b = Some f ->
  means ps f (xquot a b).
Proof.
  intros ps a b f PL H. unfold xquot. destruct (Z.eqb_spec b 0) as [->|Hb].
  - unfold fracInt in H. change (0 =? 0) with true in H. cbv iota in H.
    destruct (Z.eqb_spec a 0); injection H as <-; reflexivity.
  - destruct (C13_from_integers ps a b f PL Hb H) as (F & _ & _ & V). split; assumption.
Qed.

Lemma fval_zero_iff ps f : prime_list ps -> finite ps f -> (fval ps f = 0%R <-> sgn f = 0).
Proof.
  intros PL F. pose proof (prime_list_ge2 ps PL) as Hp. unfold fval. split; intros H; [|rewrite H; ring].
  assert (P : forall v, vec_ok ps v -> (0 < IZR (powProd ps v))%R)
    by (intros v Hv; apply IZR_pow_pos; auto; now apply vec_ok_iff in Hv).
  pose proof (P _ (fin_nom _ _ F)). pose proof (P _ (fin_den _ _ F)).
  assert (0 < IZR (powProd ps (nom f)) / IZR (powProd ps (den f)))%R by (apply Rdiv_lt_0_compat; auto).
  apply Rmult_integral in H as [H|H]; [now apply eq_IZR_R0|lra].
Qed.

Theorem C13_product_extended : forall ps f g x y, prime_list ps -> means ps f x -> means ps g y ->
  means ps (fracMul f g) (xmul x y).
Proof.
  intros ps f g x y PL Hx Hy.
  assert (NS : forall h, finite ps h -> (sgn h =? undefSign) = false /\ (sgn h =? infSign) = false).
  { intros h F. destruct (fin_sgn _ _ F) as [E|[E|E]]; rewrite E; split; reflexivity. }
  destruct x as [r| |], y as [s| |]; cbn [means xmul] in *.
  - destruct Hx as [Fx Vx], Hy as [Fy Vy]. destruct (C13_product ps f g PL Fx Fy) as (F & _ & _ & V).
    split; [exact F|]. rewrite V, Vx, Vy. reflexivity.
  - destruct Hx as [Fx Vx]. destruct (NS f Fx) as [N1 N2]. unfold fracMul. rewrite N1, N2, Hy.
    change (infSign =? undefSign) with false. change (infSign =? 0) with false. change (infSign =? infSign) with true.
    cbn [andb orb]. pose proof (fval_zero_iff ps f PL Fx) as Z. rewrite Vx in Z.
    destruct (Req_EM_T r 0) as [E|E]; cbn [means].
    + rewrite (proj1 Z E). reflexivity.
    + destruct (Z.eqb_spec (sgn f) 0) as [Q|Q]; [exfalso; apply E, Z, Q|reflexivity].
  - unfold fracMul. rewrite Hy. change (undefSign =? undefSign) with true. rewrite orb_true_r. reflexivity.
  - destruct Hy as [Fy Vy]. destruct (NS g Fy) as [N1 N2]. unfold fracMul. rewrite N1, N2, Hx.
    change (infSign =? undefSign) with false. change (infSign =? 0) with false. change (infSign =? infSign) with true.
    cbn [andb orb]. pose proof (fval_zero_iff ps g PL Fy) as Z. rewrite Vy in Z.
    destruct (Req_EM_T s 0) as [E|E]; cbn [means].
    + rewrite (proj1 Z E). reflexivity.
    + destruct (Z.eqb_spec (sgn g) 0) as [Q|Q]; [exfalso; apply E, Z, Q|reflexivity].
  - unfold fracMul. rewrite Hx, Hy. reflexivity.
  - unfold fracMul. rewrite Hx, Hy. reflexivity.
  - unfold fracMul. rewrite Hx. change (undefSign =? undefSign) with true. reflexivity.
  - unfold fracMul. rewrite Hx. change (undefSign =? undefSign) with true. reflexivity.
  - unfold fracMul. rewrite Hx. change (undefSign =? undefSign) with true. reflexivity.
Qed.

(** Inversion reports success exactly for finite non-zero numbers; the inverse of infinity is called undetermined. *)
Theorem C13_inverse_extended : forall ps f x, prime_list ps -> means ps f x -> x <> XUndef ->
  exists g ok, fracInvert ps f = Some (g, ok) /\ means ps g (xinv x) /\
  (ok = true <-> exists r, x = XFin r /\ r <> 0%R).
Proof.
  intros ps f x PL Hx NU. destruct x as [r| |]; cbn [means xinv] in *; [| |congruence].
  - destruct Hx as [F V]. destruct (C13_inverse ps f PL F) as [A B]. rewrite V in A, B.
    destruct (Req_EM_T r 0) as [E|E].
    + eexists _, false. split; [exact (B E)|]. split; [reflexivity|]. split; [discriminate|].
      intros (q & Q1 & Q2). injection Q1 as <-. congruence.
    + destruct (A E) as (g & G1 & G2 & _ & G3). exists g, true. split; [exact G1|]. split; [split; assumption|].
      split; [intros _; exists r; auto|reflexivity].
  - unfold fracInvert. rewrite Hx. change (infSign =? infSign) with true. cbv iota.
    eexists _, false. split; [reflexivity|]. split; [reflexivity|]. split; [discriminate|]. intros (q & Q & _). discriminate.
Qed.

(** GetSign is -1 exactly for negative numbers, otherwise 1 (also for zero). *)
Theorem C13_sign : forall ps f, prime_list ps -> finite ps f -> honest ps f ->
  exists s f', getSign ps f = Some (s, f') /\ finite ps f' /\ fval ps f' = fval ps f /\
  s = (if Rlt_dec (fval ps f) 0 then -1 else 1).
Proof.
  intros ps f PL F H. destruct (C13_double_value ps f PL F H) as (v & f' & E & V & D1 & D2 & F' & _ & V').
  unfold getSign. rewrite E. exists (if dlt v (DV 0 0 1 false) then -1 else 1), f'.
  split; [reflexivity|]. split; [exact F'|]. split; [exact V'|].
  assert (K : dlt v (DV 0 0 1 false) = true <-> (fval ps f < 0)%R).
  { rewrite <- V. unfold dlt, dsqn, dsqd, dvR. cbn [dc dn dd droot]. rewrite Z.ltb_lt.
    assert (DD : (0 < IZR (dd v))%R) by (apply (IZR_lt 0); lia).
    assert (N0 : (0 <= IZR (dn v))%R) by (apply (IZR_le 0); lia).
    set (m := if droot v then dn v * dd v else dn v * dn v).
    set (q := if droot v then sqrt (IZR (dn v) / IZR (dd v)) else (IZR (dn v) / IZR (dd v))%R).
    assert (Q : 0 <= m /\ (0 <= q)%R /\ (0 < m <-> (0 < q)%R)).
    { unfold m, q. destruct (droot v).
      - split; [nia|]. split; [apply sqrt_pos|]. split; intros P.
        + apply sqrt_lt_R0. apply Rdiv_lt_0_compat; [apply (IZR_lt 0); nia|exact DD].
        + destruct (Z.eq_dec (dn v) 0) as [Z0|Z0]; [|nia]. exfalso. rewrite Z0 in P.
          replace (0 / IZR (dd v))%R with 0%R in P by (field; lra). rewrite sqrt_0 in P. lra.
      - split; [nia|]. split; [apply Rmult_le_pos; [exact N0|left; now apply Rinv_0_lt_compat]|]. split; intros P.
        + apply Rdiv_lt_0_compat; [apply (IZR_lt 0); nia|exact DD].
        + destruct (Z.eq_dec (dn v) 0) as [Z0|Z0]; [|nia]. exfalso. rewrite Z0 in P.
          replace (0 / IZR (dd v))%R with 0%R in P by (field; lra). lra. }
    destruct Q as (Q1 & Q2 & Q3). clearbody m q. split; intros P.
    - assert (dc v < 0 /\ 0 < m) as [P1 P2] by (destruct (Z.eq_dec m 0); [subst; lia|]; split; [|lia]; nia).
      apply Q3 in P2. apply IZR_lt in P1. nra.
    - assert (dc v < 0 /\ 0 < m) as [P1 P2].
      { destruct (Z_lt_le_dec (dc v) 0) as [L|L].
        - split; [exact L|]. apply Q3. destruct (Req_EM_T q 0) as [E0|E0]; [rewrite E0 in P; lra|lra].
        - exfalso. apply IZR_le in L. pose proof (Rmult_le_pos _ _ L Q2). lra. }
      nia. }
  destruct (dlt v (DV 0 0 1 false)); destruct (Rlt_dec (fval ps f) 0) as [L|L]; auto.
  - exfalso. apply L, K. reflexivity.
  - exfalso. apply K in L. discriminate.
Qed.

(** 2/0 is infinite, times 0 undetermined; -3/2 is negative. *)
Example C13_special_ex : exists inf zero neg, fracInt [2; 3] 2 0 = Some inf /\ fracInt [2; 3] 0 5 = Some zero /\
  fracInt [2; 3] (-3) 2 = Some neg /\ means [2; 3] inf XInf /\ means [2; 3] (fracMul inf zero) XUndef /\
  option_map fst (getSign [2; 3] neg) = Some (-1).
Proof. eexists _, _, _. repeat split. Qed.
