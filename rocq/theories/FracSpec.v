(** What a TFracNum stands for, independent of how the code computes with it. *)
From Coq Require Import ZArith Znumtheory Reals List.
From Verif Require Import FracModel.
Import ListNotations.
Open Scope Z_scope.

(** The integer  p0^e0 * p1^e1 * ... *)
Fixpoint powProd (ps v : list Z) : Z :=
  match ps, v with
  | p :: ps', e :: v' => p ^ e * powProd ps' v'
  | _, _ => 1
  end.

(** The exponents of the primes outside the cache are zero. *)
Definition covers (ps v : list Z) : Prop := forall i, (length ps <= i)%nat -> nth i v 0 = 0.

(** A list of pairwise different primes. *)
Definition prime_list (ps : list Z) : Prop := NoDup ps /\ forall p, In p ps -> prime p.

(** The rational number a finite TFracNum stands for. *)
Definition fval (ps : list Z) (f : frac) : R :=
  (IZR (sgn f) * (IZR (powProd ps (nom f)) / IZR (powProd ps (den f))))%R.

(** The real number a cached double stands for. *)
Definition dvR (x : dval) : R :=
  (IZR (dc x) * (if droot x then sqrt (IZR (dn x) / IZR (dd x)) else IZR (dn x) / IZR (dd x)))%R.

Definition vec_ok (ps v : list Z) : Prop := (forall e, In e v -> 0 <= e) /\ covers ps v.

(** A finite number: neither infinity nor undetermined, zero without exponents; the integer caches agree
    with the exponents. *)
Record finite (ps : list Z) (f : frac) : Prop := {
  fin_sgn : sgn f = 1 \/ sgn f = -1 \/ sgn f = 0;
  fin_nom : vec_ok ps (nom f);
  fin_den : vec_ok ps (den f);
  fin_zero : sgn f = 0 -> nom f = [] /\ den f = [];
  fin_numC : forall z, numC f = Some z -> z = if sgn f =? 0 then 0 else powProd ps (nom f);
  fin_denC : forall z, denC f = Some z -> z = if sgn f =? 0 then 1 else powProd ps (den f) }.

(** The cached double is the value of the number (no square root of it has been cached). *)
Definition honest (ps : list Z) (f : frac) : Prop :=
  forall v, valC f = Some v -> 0 <= dn v /\ 0 < dd v /\ droot v = false /\ dvR v = fval ps f.

(** No prime occurs in both numerator and denominator. *)
Definition reduced (f : frac) : Prop := forall i, nth i (nom f) 0 = 0 \/ nth i (den f) 0 = 0.

(** Signed square root: sign(x) sqrt|x|. *)
Definition ssqrt (x : R) : R := if Rlt_dec x 0 then (- sqrt (- x))%R else sqrt x.
