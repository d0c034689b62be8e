(** Property C70: the exact tables of ClebschGordanBox hold the Clebsch-Gordan coefficients, as signed squares:
    the same numbers as clebschGordanCoeff (C69).
    [ssqrt x] is the root of |x| with the sign of x; [fval ps f] the number a TFracNum stands for (FracSpec);
    [CG j1 m1 j2 m2 J M] the number clebschGordanCoeff returns (CGValProofs), all spins in units of hbar/2. *)
From Coq Require Import ZArith Reals Lra Lia Bool List.
From Verif Require Import PrimeModel PrimeSpec PrimeProofs SpinSpec CGModel CGProofs CGValProofs CGValProps ArrayModel FracModel FracSpec FracProofs FracProps2
  CGBoxModel CGBoxProps CGBoxProofs.
Import ListNotations.
Open Scope Z_scope.

(** A calculated table has one entry for each pair of projections, and no others. *)
Theorem C70_table_size : forall ps J J1 J2 T, prime_list ps -> couples J1 J2 J ->
  clebschGordan ps J J1 J2 = Some T -> Z.of_nat (length T) = (J1 + 1) * (J2 + 1).
Proof.
  intros ps J J1 J2 T PL HC H. destruct (clebschGordan_ok ps PL J J1 J2 HC T H) as (L & _). rewrite L.
  destruct HC as (? & ? & _). nia.
Qed.

(** The entry for (m1,m2), at the place where the calculation puts it. *)
Theorem C70_every_entry_is_the_coefficient : forall ps J J1 J2 T m1 m2, prime_list ps -> couples J1 J2 J ->
  isProjOf J1 m1 -> isProjOf J2 m2 -> clebschGordan ps J J1 J2 = Some T ->
  exists f, rdz T (((m1 + J1) / 2) * (J2 + 1) + (m2 + J2) / 2) = Some f /\ finite ps f /\
            ssqrt (fval ps f) = CG J1 m1 J2 m2 J (m1 + m2).
Proof.
  intros ps J J1 J2 T m1 m2 PL HC (H1 & p & Hp & E1) (H2 & q & Hq & E2) H.
  destruct (clebschGordan_ok ps PL J J1 J2 HC T H) as (_ & A).
  destruct (A p q Hp Hq) as (c & R & F & _ & V). exists c.
  replace ((m1 + J1) / 2) with p by (rewrite E1; replace (- J1 + 2 * p + J1) with (p * 2) by lia; now rewrite Z.div_mul).
  replace ((m2 + J2) / 2) with q by (rewrite E2; replace (- J2 + 2 * q + J2) with (q * 2) by lia; now rewrite Z.div_mul).
  split; [exact R|]. split; [exact F|]. rewrite V. unfold cgAt. f_equal; lia.
Qed.

(** The same as the exact rational number: c |c|. *)
Theorem C70_every_entry_is_the_signed_square : forall ps J J1 J2 T m1 m2, prime_list ps -> couples J1 J2 J ->
  isProjOf J1 m1 -> isProjOf J2 m2 -> clebschGordan ps J J1 J2 = Some T ->
  exists f, rdz T (((m1 + J1) / 2) * (J2 + 1) + (m2 + J2) / 2) = Some f /\
            fval ps f = (CG J1 m1 J2 m2 J (m1 + m2) * Rabs (CG J1 m1 J2 m2 J (m1 + m2)))%R.
Proof.
  intros ps J J1 J2 T m1 m2 PL HC P1 P2 H.
  destruct (C70_every_entry_is_the_coefficient ps J J1 J2 T m1 m2 PL HC P1 P2 H) as (f & R & _ & V).
  exists f. split; [exact R|]. rewrite <- V. symmetry. apply ssqrt_abs.
Qed.

(** A user asks the box for integer spins (J,J1,J2), after any other requests, and looks up (m1,m2) with CGIndex. *)
Theorem C70_box_answers : forall ps l J J1 J2 T m1 m2, prime_list ps -> couples (2 * J1) (2 * J2) (2 * J) ->
  projections J1 J2 m1 m2 -> In ((J, J1, J2), T) (requests ps l []) ->
  exists f, rdz T (cgIndex J1 m1 J2 m2) = Some f /\ finite ps f /\
            ssqrt (fval ps f) = CG (2 * J1) (2 * m1) (2 * J2) (2 * m2) (2 * J) (2 * (m1 + m2)).
Proof.
  intros ps l J J1 J2 T m1 m2 PL HC [P1 P2] H. apply C16_box_returns_the_table_asked_for in H.
  destruct (C70_every_entry_is_the_coefficient ps (2 * J) (2 * J1) (2 * J2) T (2 * m1) (2 * m2) PL HC) as (f & R & F & V).
  - split; [lia|]. exists (m1 + J1). lia.
  - split; [lia|]. exists (m2 + J2). lia.
  - exact H.
  - exists f. split; [|split; [exact F|rewrite V; f_equal; lia]].
    rewrite <- R. f_equal. unfold cgIndex.
    replace ((2 * m1 + 2 * J1) / 2) with (J1 + m1) by (replace (2 * m1 + 2 * J1) with ((J1 + m1) * 2) by lia; now rewrite Z.div_mul).
    replace ((2 * m2 + 2 * J2) / 2) with (J2 + m2) by (replace (2 * m2 + 2 * J2) with ((J2 + m2) * 2) by lia; now rewrite Z.div_mul).
    lia.
Qed.

(** An answer of the box and an answer of clebschGordanCoeff are the same number, whatever was asked of either before. *)
Theorem C70_box_agrees_with_clebschGordanCoeff : forall ps l J J1 J2 T m1 m2, prime_list ps ->
  couples (2 * J1) (2 * J2) (2 * J) -> projections J1 J2 m1 m2 -> In ((J, J1, J2), T) (requests ps l []) ->
  2 * J1 < 18 -> 2 * J2 < 18 -> 2 * J < 18 ->
  forall ops, (forall a b c d e f, In (OpCall a b c d e f) ops -> a < 18 /\ c < 18 /\ e < 18) ->
  exists f v, rdz T (cgIndex J1 m1 J2 m2) = Some f /\
    last (cgRun cgInit (ops ++ [OpCall (2 * J1) (2 * m1) (2 * J2) (2 * m2) (2 * J) (2 * (m1 + m2))])) CGTerminate = CGVal v /\
    ssqrt (fval ps f) = cgReal v.
Proof.
  intros ps l J J1 J2 T m1 m2 PL HC HP H B1 B2 B3 ops Hops.
  destruct (C70_box_answers ps l J J1 J2 T m1 m2 PL HC HP H) as (f & R & _ & V).
  set (call := OpCall _ _ _ _ _ _).
  pose proof (C69_every_answer_is_CG (ops ++ [call])) as A.
  assert (C : opCalls (ops ++ [call]) = opCalls ops ++ [(2 * J1, 2 * m1, 2 * J2, 2 * m2, 2 * J, 2 * (m1 + m2))])
    by (unfold opCalls; rewrite flat_map_app; reflexivity).
  rewrite C in A. apply Forall2_app_inv_l in A.
  - destruct A as (l1 & l2 & _ & A2 & E). inversion A2 as [|x y l' l'' Hv Hn]; subst. inversion Hn; subst.
    destruct Hv as (v & -> & Hv). exists f, v. split; [exact R|]. split; [rewrite E; apply last_last|]. now rewrite V, Hv.
  - intros a b c d e g Hin. apply in_app_iff in Hin. destruct Hin as [Hin|[Hin|[]]]; [now apply (Hops a b c d e g)|].
    unfold call in Hin. injection Hin. intros. subst. repeat split; assumption.
Qed.

(** The table of 1 x 1 -> 1 (C16_ex_table) from the primes up to 13, looked up through the box. *)
Example C70_ex_primes : prime_list [2; 3; 5; 7; 11; 13].
Proof.
  split; [repeat constructor; cbn; intuition discriminate|].
  intros p [<-|[<-|[<-|[<-|[<-|[<-|[]]]]]]]; apply isPrime_spec; try lia; reflexivity.
Qed.
Example C70_ex_couples : couples 2 2 2.
Proof. split; [lia|]. split; [lia|]. exists 1. lia. Qed.
Example C70_ex_table :
  map (fun kv => (fst kv, map (fun f => (sgn f, getNumerator [2; 3; 5] f, getDenominator [2; 3; 5] f))
                            (match rdz (snd kv) (cgIndex 1 1 1 (-1)), rdz (snd kv) (cgIndex 1 (-1) 1 1) with
                             | Some f, Some g => [f; g] | _, _ => [] end)))
      (requests [2; 3; 5; 7; 11; 13] [(2, 1, 1); (1, 1, 1)] [])
  = [((2, 1, 1), [(1, Some 1, Some 6); (1, Some 1, Some 6)]); ((1, 1, 1), [(1, Some 1, Some 2); (-1, Some 1, Some 2)])].
Proof. vm_compute. reflexivity. Qed.
