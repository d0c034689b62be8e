(** Property C16: index and cache of the exact Clebsch-Gordan tables. *)
From Coq Require Import ZArith List Bool Lia.
From Verif Require Import FracModel CGBoxModel.
Import ListNotations.
Open Scope Z_scope.

(** (m1,m2) are projections of (J1,J2). *)
Definition projections (J1 J2 m1 m2 : Z) : Prop := - J1 <= m1 <= J1 /\ - J2 <= m2 <= J2.

Theorem C16_index_in_range : forall J1 J2 m1 m2, 0 <= J1 -> 0 <= J2 -> projections J1 J2 m1 m2 ->
  0 <= cgIndex J1 m1 J2 m2 < (2 * J1 + 1) * (2 * J2 + 1).
Proof. intros J1 J2 m1 m2 H1 H2 [A B]. unfold cgIndex. nia. Qed.

Theorem C16_index_injective : forall J1 J2 m1 m2 m1' m2', 0 <= J1 -> 0 <= J2 ->
  projections J1 J2 m1 m2 -> projections J1 J2 m1' m2' ->
  cgIndex J1 m1 J2 m2 = cgIndex J1 m1' J2 m2' -> m1 = m1' /\ m2 = m2'.
Proof.
  intros J1 J2 m1 m2 m1' m2' H1 H2 [A B] [A' B'] E. unfold cgIndex in E.
  assert (m1 = m1') by (destruct (Z.lt_trichotomy m1 m1') as [?|[?|?]]; [nia|assumption|nia]).
  subst. split; [reflexivity|]. lia.
Qed.

Theorem C16_index_surjective : forall J1 J2 i, 0 <= J1 -> 0 <= J2 -> 0 <= i < (2 * J1 + 1) * (2 * J2 + 1) ->
  exists m1 m2, projections J1 J2 m1 m2 /\ cgIndex J1 m1 J2 m2 = i.
Proof.
  intros J1 J2 i H1 H2 Hi. exists (i / (2 * J2 + 1) - J1), (i mod (2 * J2 + 1) - J2).
  pose proof (Z.div_mod i (2 * J2 + 1) ltac:(lia)) as D. pose proof (Z.mod_pos_bound i (2 * J2 + 1) ltac:(lia)) as M.
  unfold projections, cgIndex. split; [|nia].
  assert (i / (2 * J2 + 1) < 2 * J1 + 1) by (apply Z.div_lt_upper_bound; nia).
  assert (0 <= i / (2 * J2 + 1)) by (apply Z.div_pos; lia). lia.
Qed.

(** The calculation, which works on doubled spins, uses the same position for (m1,m2) as the lookup, which
    works on the spins themselves, and finds the projections of a position the same way. *)
Theorem C16_calculation_uses_the_same_index : forall J1 J2 m1 m2, 0 <= J1 -> 0 <= J2 -> projections J1 J2 m1 m2 ->
  Z.quot ((2 * m1 + 2 * J1) * (2 * J2 + 1) + (2 * m2 + 2 * J2)) 2 = cgIndex J1 m1 J2 m2 /\
  projOf (2 * J1) (2 * J2) (Z.to_nat (cgIndex J1 m1 J2 m2)) = 2 * (m1 + m2).
Proof.
  intros J1 J2 m1 m2 H1 H2 H. pose proof (C16_index_in_range J1 J2 m1 m2 H1 H2 H) as [R _]. split.
  - unfold cgIndex.
    replace ((2 * m1 + 2 * J1) * (2 * J2 + 1) + (2 * m2 + 2 * J2)) with (((J1 + m1) * (2 * J2 + 1) + J2 + m2) * 2) by ring.
    apply Z.quot_mul. lia.
  - unfold projOf. rewrite Z2Nat.id by assumption. unfold cgIndex. destruct H as [A B].
    assert (((J1 + m1) * (2 * J2 + 1) + J2 + m2) / (2 * J2 + 1) = J1 + m1) as ->.
    { symmetry. apply Z.div_unique with (r := J2 + m2); [left; lia|ring]. }
    assert (((J1 + m1) * (2 * J2 + 1) + J2 + m2) mod (2 * J2 + 1) = J2 + m2) as ->.
    { symmetry. apply Z.mod_unique with (q := J1 + m1); [left; lia|ring]. }
    lia.
Qed.

(** The box: every request returns the table calculated for exactly these quantum numbers, whatever was requested before. *)
Fixpoint requests (ps : list Z) (l : list cgKey) (box : list (cgKey * list frac)) : list (cgKey * list frac) :=
  match l with
  | [] => []
  | k :: l' => match getCG ps k box with
               | Some (v, box') => (k, v) :: requests ps l' box'
               | None => []
               end
  end.

Lemma keyEqb_eq : forall a b, keyEqb a b = true <-> a = b.
Proof.
  intros [[a1 a2] a3] [[b1 b2] b3]. cbn [keyEqb]. rewrite !andb_true_iff, !Z.eqb_eq. split.
  - intros [[-> ->] ->]. reflexivity.
  - intros E. injection E as -> -> ->. auto.
Qed.

Theorem C16_box_returns_the_table_asked_for : forall ps l J J1 J2 v,
  In ((J, J1, J2), v) (requests ps l []) -> clebschGordan ps (2 * J) (2 * J1) (2 * J2) = Some v.
Proof.
  intros ps l J J1 J2 v.
  assert (forall box, (forall J J1 J2 v, lookup (J, J1, J2) box = Some v -> clebschGordan ps (2 * J) (2 * J1) (2 * J2) = Some v) ->
          forall J J1 J2 v, In ((J, J1, J2), v) (requests ps l box) -> clebschGordan ps (2 * J) (2 * J1) (2 * J2) = Some v) as G.
  { induction l as [|k l IH]; intros box HB a a1 a2 w Hin; [contradiction|]. cbn [requests] in Hin.
    destruct (getCG ps k box) as [[u box']|] eqn:E; [|contradiction].
    assert (forall J J1 J2 v, lookup (J, J1, J2) box' = Some v -> clebschGordan ps (2 * J) (2 * J1) (2 * J2) = Some v) as HB'.
    { unfold getCG in E. destruct (lookup k box) eqn:L; [injection E as <- <-; exact HB|].
      destruct k as [[k0 k1] k2]. destruct (clebschGordan ps (2 * k0) (2 * k1) (2 * k2)) eqn:C; [|discriminate].
      injection E as <- <-. intros b b1 b2 z. cbn [lookup]. destruct (keyEqb (b, b1, b2) (k0, k1, k2)) eqn:K; [|apply HB].
      apply keyEqb_eq in K. injection K as -> -> ->. congruence. }
    destruct Hin as [Eq|Hin]; [|now apply (IH box' HB')].
    injection Eq as -> ->. unfold getCG in E. destruct (lookup (a, a1, a2) box) eqn:L.
    - injection E as <- <-. now apply HB.
    - destruct (clebschGordan ps (2 * a) (2 * a1) (2 * a2)); [|discriminate]. injection E as <- _. reflexivity. }
  intros H. apply (G [] ltac:(discriminate) J J1 J2 v H).
Qed.

Example C16_ex_table : exists T, clebschGordan [2; 3; 5; 7; 11; 13] 2 2 2 = Some T /\
  map (fun f => (sgn f, getNumerator [2; 3; 5] f, getDenominator [2; 3; 5] f)) T =
  [(0, Some 0, Some 1); (-1, Some 1, Some 2); (-1, Some 1, Some 2);
   (1, Some 1, Some 2); (0, Some 0, Some 1); (-1, Some 1, Some 2);
   (1, Some 1, Some 2); (1, Some 1, Some 2); (0, Some 0, Some 1)].
Proof. eexists. split; vm_compute; reflexivity. Qed.
