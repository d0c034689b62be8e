(* Shared models of the C++ library containers keyed by std::string:
   std::string comparison, std::multiset<std::string>, std::map<std::string, V>.
   A std::string is a list of characters ([PathModel.str]).
   These model the C++ standard library, not code of /repo. *)
From Coq Require Import String Ascii List Arith NArith Bool Permutation Sorted Lia.
From Verif Require Import PathModel.
Import ListNotations.
Open Scope list_scope.

(* string literals *)
(* C++ string literals *)
Definition lit (s : string) : str := list_ascii_of_string s.

(* std::string::operator== *)
Fixpoint str_eqb (a b : str) : bool :=
  match a, b with
  | [], [] => true
  | x :: a', y :: b' => Ascii.eqb x y && str_eqb a' b'
  | _, _ => false
  end.

(* std::string::operator<: lexicographic, characters compared as unsigned char *)
Fixpoint str_ltb (a b : str) : bool :=
  match a, b with
  | _, [] => false
  | [], _ :: _ => true
  | x :: a', y :: b' =>
      if N.ltb (N_of_ascii x) (N_of_ascii y) then true
      else if Ascii.eqb x y then str_ltb a' b' else false
  end.

(* std::multiset<std::string>: iteration order is ascending *)
Fixpoint ms_insert (x : str) (l : list str) : list str :=
  match l with
  | [] => [x]
  | y :: r => if str_ltb x y then x :: l else y :: ms_insert x r
  end.
(* std::multiset of strings built from a sequence *)
Definition ms_of (l : list str) : list str := fold_left (fun m x => ms_insert x m) l [].

(* operator== of std::multiset: element-wise *)
Fixpoint list_eqb (a b : list str) : bool :=
  match a, b with
  | [], [] => true
  | x :: a', y :: b' => str_eqb x y && list_eqb a' b'
  | _, _ => false
  end.

(* std::map<std::string, V>: ascending association list *)
Section StrMap.
  Context {V : Type}.
  Notation smap := (list (str * V)).
  (* std::map::find *)
  Fixpoint m_find (k : str) (m : smap) : option V :=
    match m with
    | [] => None
    | (k', v) :: r => if str_eqb k k' then Some v else m_find k r
    end.
  (* map[k] = v *)
  (* std::map operator [] assignment *)
  Fixpoint m_set (k : str) (v : V) (m : smap) : smap :=
    match m with
    | [] => [(k, v)]
    | (k', v') :: r =>
        if str_ltb k k' then (k, v) :: m
        else if str_eqb k k' then (k, v) :: r
        else (k', v') :: m_set k v r
    end.
End StrMap.
Notation smap V := (list (str * V)).

(* ---- basic facts ---- *)
Lemma str_eqb_eq a b : str_eqb a b = true <-> a = b.
Proof.
  revert b; induction a as [|x a IH]; intros [|y b]; simpl; try (split; congruence).
  rewrite andb_true_iff, Ascii.eqb_eq, IH. split; [intros [-> ->]; auto | intros H; inversion H; auto].
Qed.
Lemma str_eqb_refl a : str_eqb a a = true.
Proof. apply str_eqb_eq; auto. Qed.
Lemma str_eqb_neq a b : str_eqb a b = false <-> a <> b.
Proof. rewrite <- str_eqb_eq. destruct (str_eqb a b); split; congruence. Qed.
Lemma str_eqb_sym a b : str_eqb a b = str_eqb b a.
Proof.
  destruct (str_eqb b a) eqn:E; [apply str_eqb_eq in E; subst; apply str_eqb_refl|].
  apply str_eqb_neq in E; apply str_eqb_neq; congruence.
Qed.
Lemma list_eqb_eq a b : list_eqb a b = true <-> a = b.
Proof.
  revert b; induction a as [|x a IH]; intros [|y b]; simpl; try (split; congruence).
  rewrite andb_true_iff, str_eqb_eq, IH. split; [intros [-> ->]; auto | intros H; inversion H; auto].
Qed.

Lemma N_of_ascii_inj x y : N_of_ascii x = N_of_ascii y -> x = y.
Proof. intros H. rewrite <- (ascii_N_embedding x), <- (ascii_N_embedding y), H; auto. Qed.

Lemma str_ltb_irrefl a : str_ltb a a = false.
Proof. induction a as [|x a IH]; simpl; auto. rewrite N.ltb_irrefl, Ascii.eqb_refl; auto. Qed.

Lemma str_ltb_trans a b c : str_ltb a b = true -> str_ltb b c = true -> str_ltb a c = true.
Proof.
  revert b c; induction a as [|x a IH]; intros [|y b] [|z c]; simpl; try congruence; auto.
  intros H1 H2.
  destruct (N.ltb_spec (N_of_ascii x) (N_of_ascii z)) as [L|L]; auto.
  destruct (N.ltb_spec (N_of_ascii x) (N_of_ascii y)) as [L1|L1].
  - destruct (N.ltb_spec (N_of_ascii y) (N_of_ascii z)); [lia|].
    destruct (Ascii.eqb_spec y z); [subst; lia|discriminate].
  - destruct (Ascii.eqb_spec x y); [subst|discriminate].
    destruct (N.ltb_spec (N_of_ascii y) (N_of_ascii z)); [lia|].
    destruct (Ascii.eqb_spec y z); [subst; eauto|discriminate].
Qed.

Lemma str_ltb_total a b : str_ltb a b = false -> str_ltb b a = false -> a = b.
Proof.
  revert b; induction a as [|x a IH]; intros [|y b]; simpl; try congruence; auto.
  destruct (N.ltb_spec (N_of_ascii x) (N_of_ascii y)), (N.ltb_spec (N_of_ascii y) (N_of_ascii x));
    try congruence; try lia.
  assert (x = y) by (apply N_of_ascii_inj; lia). subst. rewrite Ascii.eqb_refl.
  intros; f_equal; auto.
Qed.

Lemma str_ltb_asym a b : str_ltb a b = true -> str_ltb b a = false.
Proof.
  intros H; destruct (str_ltb b a) eqn:E; auto.
  pose proof (str_ltb_trans _ _ _ H E) as X. rewrite str_ltb_irrefl in X; discriminate.
Qed.

(* std::string operator <= (lexicographic) *)
Definition str_le (a b : str) : Prop := str_ltb b a = false.
Lemma str_le_trans a b c : str_le a b -> str_le b c -> str_le a c.
Proof.
  unfold str_le; intros H1 H2; destruct (str_ltb c a) eqn:E; auto.
  destruct (str_ltb a b) eqn:E1.
  - rewrite (str_ltb_trans _ _ _ E E1) in H2; discriminate.
  - pose proof (str_ltb_total _ _ E1 H1); subst. congruence.
Qed.

Lemma ms_insert_perm x l : Permutation (x :: l) (ms_insert x l).
Proof.
  induction l as [|y l IH]; simpl; auto. destruct (str_ltb x y); auto.
  rewrite perm_swap. constructor. exact IH.
Qed.

Lemma ms_insert_sorted x l : StronglySorted str_le l -> StronglySorted str_le (ms_insert x l).
Proof.
  induction 1 as [|y l S IH F]; simpl.
  - repeat constructor.
  - destruct (str_ltb x y) eqn:E.
    + constructor; [constructor; auto|]. constructor; [apply str_ltb_asym; auto|].
      eapply Forall_impl; [|exact F]. intros z Hz. apply str_le_trans with y; auto. apply str_ltb_asym; auto.
    + constructor; auto. apply Forall_forall. intros z Hz.
      apply (Permutation_in z (Permutation_sym (ms_insert_perm x l))) in Hz.
      destruct Hz as [<-|Hz]; [exact E|]. rewrite Forall_forall in F; auto.
Qed.

Lemma ms_of_perm_sorted l : Permutation l (ms_of l) /\ StronglySorted str_le (ms_of l).
Proof.
  unfold ms_of.
  assert (G : forall l m, StronglySorted str_le m ->
     Permutation (m ++ l) (fold_left (fun m x => ms_insert x m) l m) /\
     StronglySorted str_le (fold_left (fun m x => ms_insert x m) l m)).
  { clear l. induction l as [|x l IH]; intros m Hm; simpl.
    - rewrite app_nil_r; auto.
    - destruct (IH (ms_insert x m) (ms_insert_sorted x m Hm)) as [P S]. split; auto.
      rewrite <- P. rewrite <- Permutation_middle, <- ms_insert_perm. reflexivity. }
  apply (G l []). constructor.
Qed.

Lemma sorted_perm_eq a b :
  StronglySorted str_le a -> StronglySorted str_le b -> Permutation a b -> a = b.
Proof.
  intros Sa; revert b; induction Sa as [|x a Sa IH Fa]; intros b Sb P.
  - apply Permutation_nil in P; auto.
  - destruct b as [|y b]; [symmetry in P; apply Permutation_nil in P; discriminate|].
    inversion Sb as [|? ? Sb' Fb]; subst.
    assert (x = y).
    { assert (In x (y :: b)) as Hx by (eapply Permutation_in; [exact P|left; auto]).
      assert (In y (x :: a)) as Hy by (eapply Permutation_in; [symmetry; exact P|left; auto]).
      destruct Hx as [|Hx]; [auto|]. destruct Hy as [|Hy]; [auto|].
      rewrite Forall_forall in Fa, Fb. apply str_ltb_total; [apply Fb|apply Fa]; auto. }
    subst. f_equal. apply IH; auto. eapply Permutation_cons_inv; eauto.
Qed.

Lemma ms_of_eq_iff a b : ms_of a = ms_of b <-> Permutation a b.
Proof.
  destruct (ms_of_perm_sorted a) as [Pa Sa], (ms_of_perm_sorted b) as [Pb Sb]. split; intros H.
  - rewrite Pa, H, <- Pb; auto.
  - apply sorted_perm_eq; auto. rewrite <- Pa, <- Pb; auto.
Qed.

Section StrMapFacts.
  Context {V : Type}.
  Implicit Types m : smap V.
  (* std::map order of the keys *)
  Definition key_lt (a b : str * V) : Prop := str_ltb (fst a) (fst b) = true.

  Lemma m_find_set k v m k' : StronglySorted key_lt m ->
    m_find k' (m_set k v m) = if str_eqb k' k then Some v else m_find k' m.
  Proof.
    induction 1 as [|[k0 v0] m S IH F]; simpl; auto.
    destruct (str_ltb k k0) eqn:E1; simpl; [auto|].
    destruct (str_eqb k k0) eqn:E2; simpl.
    - apply str_eqb_eq in E2; subst. destruct (str_eqb k' k0); auto.
    - rewrite IH. destruct (str_eqb k' k0) eqn:E3; auto. apply str_eqb_eq in E3; subst.
      rewrite str_eqb_sym, E2; auto.
  Qed.

  Lemma m_set_keys k v m x : In x (map fst (m_set k v m)) <-> x = k \/ In x (map fst m).
  Proof.
    induction m as [|[k0 v0] m IH]; simpl; [intuition|].
    destruct (str_ltb k k0); simpl; [intuition|].
    destruct (str_eqb k k0) eqn:E; simpl; [apply str_eqb_eq in E; subst; intuition|].
    rewrite IH; intuition.
  Qed.

  Lemma m_set_sorted k v m : StronglySorted key_lt m -> StronglySorted key_lt (m_set k v m).
  Proof.
    induction 1 as [|[k0 v0] m S IH F]; simpl; [repeat constructor|].
    destruct (str_ltb k k0) eqn:E1.
    - constructor; [constructor; auto|]. constructor; [exact E1|].
      eapply Forall_impl; [|exact F]. intros z Hz; unfold key_lt in *; simpl in *. eapply str_ltb_trans; eauto.
    - destruct (str_eqb k k0) eqn:E2.
      + apply str_eqb_eq in E2; subst. constructor; auto.
      + constructor; auto. apply Forall_forall. intros [z vz] Hz.
        assert (Hk : In z (map fst (m_set k v m))) by (apply in_map_iff; exists (z, vz); auto).
        apply m_set_keys in Hk. unfold key_lt; simpl. destruct Hk as [->|Hk].
        * destruct (str_ltb k0 k) eqn:E3; auto.
          pose proof (str_ltb_total _ _ E1 E3) as ->. rewrite str_eqb_refl in E2; discriminate.
        * apply in_map_iff in Hk as [[z' v'] [<- Hin]]. rewrite Forall_forall in F. apply (F _ Hin).
  Qed.

  Lemma m_find_in k v m : StronglySorted key_lt m -> (m_find k m = Some v <-> In (k, v) m).
  Proof.
    induction 1 as [|[k0 v0] m S IH F]; simpl; [intuition congruence|].
    destruct (str_eqb k k0) eqn:E.
    - apply str_eqb_eq in E; subst. split; [intros H; inversion H; auto|].
      intros [H|H]; [inversion H; auto|]. rewrite Forall_forall in F. specialize (F _ H).
      unfold key_lt in F; simpl in F. rewrite str_ltb_irrefl in F; discriminate.
    - rewrite IH. split; [auto|]. intros [H|H]; auto. inversion H; subst. rewrite str_eqb_refl in E; discriminate.
  Qed.

  Lemma m_find_none k m : m_find k m = None <-> ~ In k (map fst m).
  Proof.
    induction m as [|[k0 v0] m IH]; simpl; [intuition congruence|].
    destruct (str_eqb k k0) eqn:E.
    - apply str_eqb_eq in E; subst. split; [discriminate|]. intros H; exfalso; auto.
    - apply str_eqb_neq in E. rewrite IH. intuition congruence.
  Qed.
End StrMapFacts.
