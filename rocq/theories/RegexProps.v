(* C33: escaping of regular-expression characters. *)
From Coq Require Import String Ascii List Arith Bool Lia.
From Verif Require Import PathModel StrModel RegexModel.
Import ListNotations.
Open Scope list_scope.
Open Scope nat_scope.

(* ---------------- specification ---------------- *)
Definition special (c : ascii) : bool := existsb (Ascii.eqb c) ["^"; "$"; "."; "["; "]"; "*"; "+"; "?"]%char.

(* k backslashes have been read and held back; a run of any number of backslashes before a
   special character becomes exactly one backslash, everything else is kept *)
Fixpoint esc (P : ascii -> bool) (k : nat) (s : str) : str :=
  match s with
  | [] => repeat bsl k
  | x :: t => if Ascii.eqb x bsl then esc P (S k) t
              else if P x then bsl :: x :: esc P 0 t
              else repeat bsl k ++ x :: esc P 0 t
  end.
(* a run of backslashes before a special character is removed *)
Fixpoint unesc (P : ascii -> bool) (k : nat) (s : str) : str :=
  match s with
  | [] => repeat bsl k
  | x :: t => if Ascii.eqb x bsl then unesc P (S k) t
              else if P x then x :: unesc P 0 t
              else repeat bsl k ++ x :: unesc P 0 t
  end.
(* no backslash directly before a special character *)
Fixpoint noEscaped (s : str) : bool :=
  match s with
  | [] => true
  | x :: t => negb (Ascii.eqb x bsl && match t with y :: _ => special y | [] => false end) && noEscaped t
  end.

(* ---------------- proofs ---------------- *)
Lemma aeqb_eq x y : Ascii.eqb x y = true <-> x = y.
Proof. apply Ascii.eqb_eq. Qed.
Lemma aeqb_neq x y : Ascii.eqb x y = false <-> x <> y.
Proof. apply Ascii.eqb_neq. Qed.

(* collapse: runs of >= 1 backslashes before c become one (esc) or none (unesc); c without
   a backslash before it is kept *)
Fixpoint coll (c : ascii) (keep : bool) (k : nat) (s : str) : str :=
  match s with
  | [] => repeat bsl k
  | x :: t => if Ascii.eqb x bsl then coll c keep (S k) t
              else if Ascii.eqb x c then (if keep then match k with 0 => [] | _ => [bsl] end else []) ++ x :: coll c keep 0 t
              else repeat bsl k ++ x :: coll c keep 0 t
  end.
Lemma repeat_snoc {A} (x : A) n : repeat x n ++ [x] = x :: repeat x n.
Proof. induction n; cbn; auto. rewrite IHn; auto. Qed.

Section Step.
  Variable c : ascii.
  Hypothesis Hc : Ascii.eqb c bsl = false.
  Let Hbc : Ascii.eqb bsl c = false.
  Proof. rewrite Ascii.eqb_sym; auto. Qed.

  (* replace c by \c, then collapse = esc *)
  Lemma coll_after_insert s : forall k, coll c true k (replaceAll [c] [bsl; c] s) = esc (Ascii.eqb c) k s.
  Proof.
    unfold replaceAll. induction s as [|x s IH]; intros k; cbn [replaceGo coll esc]; auto.
    cbn [isPrefix]. rewrite andb_true_r. destruct (Ascii.eqb c x) eqn:E.
    - apply aeqb_eq in E; subst x. rewrite Hc. cbn [app length Nat.sub]. cbn [coll]. rewrite Ascii.eqb_refl, Hc, Ascii.eqb_refl.
      cbn [app]. rewrite IH. auto.
    - cbn [coll]. destruct (Ascii.eqb x bsl) eqn:B; [apply IH|]. rewrite Ascii.eqb_sym, E. rewrite IH. auto.
  Qed.

  (* if s has no double backslash before c, collapse does nothing *)
  Lemma contains_cons p x s : contains p (x :: s) = isPrefix p (x :: s) || contains p s.
  Proof. reflexivity. Qed.
  Lemma isPrefix_rep2 k s : contains [bsl; bsl; c] (repeat bsl (S (S k)) ++ c :: s) = true.
  Proof.
    induction k as [|k IH].
    - cbn. rewrite !Ascii.eqb_refl. auto.
    - replace (repeat bsl (S (S (S k))) ++ c :: s) with (bsl :: (repeat bsl (S (S k)) ++ c :: s)) by reflexivity.
      rewrite contains_cons, IH. apply orb_true_r.
  Qed.
  Lemma contains_app p a s : contains p s = true -> contains p (a ++ s) = true.
  Proof. intros H. induction a; cbn [app]; auto. rewrite contains_cons, IHa. apply orb_true_r. Qed.
  Lemma coll_id s : forall k, contains [bsl; bsl; c] (repeat bsl k ++ s) = false -> coll c true k s = repeat bsl k ++ s.
  Proof.
    induction s as [|x s IH]; intros k H; cbn [coll]; [rewrite app_nil_r; auto|].
    destruct (Ascii.eqb x bsl) eqn:B.
    - apply aeqb_eq in B; subst x. replace (repeat bsl k ++ bsl :: s) with (repeat bsl (S k) ++ s) in *.
      + apply IH; auto.
      + change (bsl :: s) with ([bsl] ++ s). rewrite app_assoc, repeat_snoc. auto.
    - assert (H0 : contains [bsl; bsl; c] s = false).
      { destruct (contains [bsl; bsl; c] s) eqn:Q; auto. pose proof (contains_app _ (repeat bsl k ++ [x]) _ Q) as X. rewrite <- app_assoc in X. cbn [app] in X. congruence. }
      specialize (IH 0 H0). cbn [repeat app] in IH. rewrite IH.
      destruct (Ascii.eqb x c) eqn:C; auto. apply aeqb_eq in C; subst x.
      destruct k as [|[|k]]; auto. rewrite isPrefix_rep2 in H. discriminate.
  Qed.
  (* one replacement pass does not change the collapsed form *)
  Lemma coll_pass s : forall k, coll c true (S k) (replaceAll [bsl; bsl; c] [bsl; c] s) = coll c true (S k) s.
  Proof.
    unfold replaceAll. 
    assert (G : forall n s, length s <= n -> forall k, coll c true k (replaceGo [bsl; bsl; c] [bsl; c] 0 s) = coll c true k s).
    { clear s. induction n as [|n IH]; intros s L k; destruct s as [|x s]; cbn [length] in L; try lia; auto.
      cbn [replaceGo]. destruct (isPrefix [bsl; bsl; c] (x :: s)) eqn:P.
      - destruct s as [|y [|z s]]; cbn [isPrefix] in P; try (rewrite ?andb_false_r in P; discriminate).
        apply andb_true_iff in P as [P1 P]. apply andb_true_iff in P as [P2 P]. apply andb_true_iff in P as [P3 _].
        apply aeqb_eq in P1, P2, P3; subst x y z. cbn [length Nat.sub replaceGo app coll].
        rewrite Ascii.eqb_refl, Hc, Ascii.eqb_refl. cbn [length] in L. rewrite IH by lia. reflexivity.
      - cbn [coll]. rewrite !IH by lia. reflexivity. }
    intros k. apply (G (length s)); auto.
  Qed.
  Lemma coll_pass0 s : coll c true 0 (replaceAll [bsl; bsl; c] [bsl; c] s) = coll c true 0 s.
  Proof.
    unfold replaceAll. 
    assert (G : forall n s, length s <= n -> forall k, coll c true k (replaceGo [bsl; bsl; c] [bsl; c] 0 s) = coll c true k s).
    { clear s. induction n as [|n IH]; intros s L k; destruct s as [|x s]; cbn [length] in L; try lia; auto.
      cbn [replaceGo]. destruct (isPrefix [bsl; bsl; c] (x :: s)) eqn:P.
      - destruct s as [|y [|z s]]; cbn [isPrefix] in P; try (rewrite ?andb_false_r in P; discriminate).
        apply andb_true_iff in P as [P1 P]. apply andb_true_iff in P as [P2 P]. apply andb_true_iff in P as [P3 _].
        apply aeqb_eq in P1, P2, P3; subst x y z. cbn [length Nat.sub replaceGo app coll].
        rewrite Ascii.eqb_refl, Hc, Ascii.eqb_refl. cbn [length] in L. rewrite IH by lia. reflexivity.
      - cbn [coll]. rewrite !IH by lia. reflexivity. }
    apply (G (length s)); auto.
  Qed.
  (* each pass that finds something shortens the string *)
  Lemma pass_shorter p r s : length r < length p -> 
    length (replaceAll p r s) <= length s /\ (contains p s = true -> length (replaceAll p r s) < length s).
  Proof.
    intros Hl. unfold replaceAll.
    assert (G : forall n s, length s <= n -> forall k, k < length p ->
       (k = 0 -> length (replaceGo p r 0 s) <= length s /\ (contains p s = true -> length (replaceGo p r 0 s) < length s)) /\
       (k <= length s -> length (replaceGo p r k s) <= length s - k)).
    { clear s. induction n as [|n IH]; intros s L k Hk; destruct s as [|x s]; cbn [length] in L; try lia.
      - split; [intros _; cbn; split; auto|cbn; lia]. destruct p; [cbn in Hl; lia|discriminate].
      - split; [intros _; cbn; split; auto|cbn; lia]. destruct p; [cbn in Hl; lia|discriminate].
      - split.
        + intros _. cbn [replaceGo]. rewrite contains_cons. destruct (isPrefix p (x :: s)) eqn:P.
          * rewrite app_length. assert (LP : length p <= length (x :: s)).
            { clear - P. revert P. generalize (x :: s). induction p as [|a p IHp]; intros l P; cbn; [lia|]. destruct l; [discriminate|]. cbn in P. apply andb_true_iff in P as [_ P]. apply IHp in P. cbn; lia. }
            cbn [length] in LP. destruct (IH s ltac:(lia) (length p - 1) ltac:(lia)) as [_ Q].
            specialize (Q ltac:(lia)). cbn [length]. split; intros; lia.
          * destruct (IH s ltac:(lia) 0 ltac:(lia)) as [Q _]. destruct (Q eq_refl) as [Q1 Q2]. cbn [length orb]. split; [lia|]. intros C; specialize (Q2 C). lia.
        + intros Hk'. destruct k as [|k].
          * cbn [replaceGo]. destruct (isPrefix p (x :: s)) eqn:P.
            -- assert (LP : length p <= length (x :: s)).
               { clear - P. revert P. generalize (x :: s). induction p as [|a p IHp]; intros l P; cbn; [lia|]. destruct l; [discriminate|]. cbn in P. apply andb_true_iff in P as [_ P]. apply IHp in P. cbn; lia. }
               cbn [length] in LP. rewrite app_length. destruct (IH s ltac:(lia) (length p - 1) ltac:(lia)) as [_ Q].
               specialize (Q ltac:(lia)). cbn [length]. lia.
            -- destruct (IH s ltac:(lia) 0 ltac:(lia)) as [Q _]. destruct (Q eq_refl) as [Q1 Q2]. cbn [length]. lia.
          * cbn [replaceGo]. destruct (IH s ltac:(lia) k ltac:(lia)) as [_ Q]. cbn [length] in Hk'. specialize (Q ltac:(lia)). cbn [length]. lia. }
    destruct (G (length s) s (le_n _) 0) as [Q _]; [lia|]. exact (Q eq_refl).
  Qed.
  Lemma while_coll s : forall f, length s <= f -> whileReplace f [bsl; bsl; c] [bsl; c] s = coll c true 0 s.
  Proof.
    intros f; revert s; induction f as [|f IH]; intros s L; cbn [whileReplace].
    - destruct s; [auto|cbn in L; lia].
    - destruct (contains [bsl; bsl; c] s) eqn:E.
      + destruct (pass_shorter [bsl; bsl; c] [bsl; c] s) as [_ Q]; [cbn; lia|]. specialize (Q E).
        rewrite IH by lia. apply coll_pass0.
      + symmetry. apply (coll_id s 0); auto.
  Qed.
  Lemma escapeStep_esc s : escapeStep s c = esc (Ascii.eqb c) 0 s.
  Proof. unfold escapeStep. rewrite while_coll by auto. apply coll_after_insert. Qed.

  (* the same for unescape *)
  Lemma ucoll_id s : forall k, contains [bsl; c] (repeat bsl k ++ s) = false -> coll c false k s = repeat bsl k ++ s.
  Proof.
    induction s as [|x s IH]; intros k H; cbn [coll]; [rewrite app_nil_r; auto|].
    destruct (Ascii.eqb x bsl) eqn:B.
    - apply aeqb_eq in B; subst x. replace (repeat bsl k ++ bsl :: s) with (repeat bsl (S k) ++ s) in *.
      + apply IH; auto.
      + change (bsl :: s) with ([bsl] ++ s). rewrite app_assoc, repeat_snoc. auto.
    - assert (H0 : contains [bsl; c] s = false).
      { destruct (contains [bsl; c] s) eqn:Q; auto. pose proof (contains_app _ (repeat bsl k ++ [x]) _ Q) as X. rewrite <- app_assoc in X. cbn [app] in X. congruence. }
      specialize (IH 0 H0). cbn [repeat app] in IH. rewrite IH.
      destruct (Ascii.eqb x c) eqn:C; auto. apply aeqb_eq in C; subst x.
      destruct k as [|k]; auto. exfalso. rewrite <- repeat_snoc in H || idtac.
      assert (X : contains [bsl; c] (repeat bsl (S k) ++ c :: s) = true).
      { clear. induction k as [|k IH]; [cbn; rewrite !Ascii.eqb_refl; auto|].
        replace (repeat bsl (S (S k)) ++ c :: s) with (bsl :: (repeat bsl (S k) ++ c :: s)) by reflexivity.
        rewrite contains_cons, IH. apply orb_true_r. }
      congruence.
  Qed.
  Lemma ucoll_pass s : forall k, coll c false k (replaceAll [bsl; c] [c] s) = coll c false k s.
  Proof.
    unfold replaceAll. 
    assert (G : forall n s, length s <= n -> forall k, coll c false k (replaceGo [bsl; c] [c] 0 s) = coll c false k s).
    { clear s. induction n as [|n IH]; intros s L k; destruct s as [|x s]; cbn [length] in L; try lia; auto.
      cbn [replaceGo]. destruct (isPrefix [bsl; c] (x :: s)) eqn:P.
      - destruct s as [|y s]; cbn [isPrefix] in P; try (rewrite ?andb_false_r in P; discriminate).
        apply andb_true_iff in P as [P1 P]. apply andb_true_iff in P as [P2 _].
        apply aeqb_eq in P1, P2; subst x y. cbn [length Nat.sub replaceGo app coll].
        rewrite ?Hc, ?Ascii.eqb_refl, ?Hc, ?Ascii.eqb_refl. cbn [length] in L. rewrite IH by lia. reflexivity.
      - cbn [coll]. rewrite !IH by lia. reflexivity. }
    intros k. apply (G (length s)); auto.
  Qed.
  Lemma uwhile_coll s : forall f, length s <= f -> whileReplace f [bsl; c] [c] s = coll c false 0 s.
  Proof.
    intros f; revert s; induction f as [|f IH]; intros s L; cbn [whileReplace].
    - destruct s; [auto|cbn in L; lia].
    - destruct (contains [bsl; c] s) eqn:E.
      + destruct (pass_shorter [bsl; c] [c] s) as [_ Q]; [cbn; lia|]. specialize (Q E).
        rewrite IH by lia. apply ucoll_pass.
      + symmetry. apply (ucoll_id s 0); auto.
  Qed.
  Lemma unescapeStep_unesc s : unescapeStep s c = unesc (Ascii.eqb c) 0 s.
  Proof.
    unfold unescapeStep. rewrite uwhile_coll by auto. generalize 0.
    induction s as [|x s IH]; intros k; cbn [coll unesc]; auto.
    rewrite (Ascii.eqb_sym x c). rewrite !IH. auto.
  Qed.
End Step.

Lemma esc_rep P k s : forall j, esc P j (repeat bsl k ++ s) = esc P (j + k) s.
Proof.
  induction k as [|k IH]; intros j; [rewrite Nat.add_0_r; auto|]. cbn [repeat app esc]. rewrite Ascii.eqb_refl.
  rewrite IH. f_equal. lia.
Qed.
Lemma unesc_rep P k s : forall j, unesc P j (repeat bsl k ++ s) = unesc P (j + k) s.
Proof.
  induction k as [|k IH]; intros j; [rewrite Nat.add_0_r; auto|]. cbn [repeat app unesc]. rewrite Ascii.eqb_refl.
  rewrite IH. f_equal. lia.
Qed.
Lemma bsl_refl : Ascii.eqb bsl bsl = true. Proof. reflexivity. Qed.

Lemma esc_esc P Q s : P bsl = false -> Q bsl = false -> forall k,
  esc Q 0 (esc P k s) = esc (fun x => P x || Q x) k s.
Proof.
  intros HP HQ. induction s as [|x s IH]; intros k; cbn [esc].
  - rewrite <- (app_nil_r (repeat bsl k)) at 1. rewrite esc_rep. cbn. auto.
  - destruct (Ascii.eqb x bsl) eqn:B; [apply IH|]. destruct (P x) eqn:Px; cbn [orb].
    + cbn [esc]. rewrite bsl_refl, B. destruct (Q x); rewrite IH; auto.
    + rewrite esc_rep. cbn [esc Nat.add]. rewrite B. destruct (Q x); rewrite IH; auto.
Qed.
Lemma unesc_unesc P Q s : P bsl = false -> Q bsl = false -> forall k,
  unesc Q 0 (unesc P k s) = unesc (fun x => P x || Q x) k s.
Proof.
  intros HP HQ. induction s as [|x s IH]; intros k; cbn [unesc].
  - rewrite <- (app_nil_r (repeat bsl k)) at 1. rewrite unesc_rep. cbn. auto.
  - destruct (Ascii.eqb x bsl) eqn:B; [apply IH|]. destruct (P x) eqn:Px; cbn [orb].
    + cbn [unesc]. rewrite B. destruct (Q x); cbn [repeat app]; rewrite IH; auto.
    + rewrite unesc_rep. cbn [unesc Nat.add]. rewrite B. destruct (Q x); rewrite IH; auto.
Qed.
Lemma esc_ext P Q s : (forall x, P x = Q x) -> forall k, esc P k s = esc Q k s.
Proof. intros H; induction s as [|x s IH]; intros k; cbn [esc]; auto. rewrite H, !IH. auto. Qed.
Lemma unesc_ext P Q s : (forall x, P x = Q x) -> forall k, unesc P k s = unesc Q k s.
Proof. intros H; induction s as [|x s IH]; intros k; cbn [unesc]; auto. rewrite H, !IH. auto. Qed.
Lemma esc_none s : forall k, esc (fun _ => false) k s = repeat bsl k ++ s.
Proof.
  induction s as [|x s IH]; intros k; cbn [esc]; [rewrite app_nil_r; auto|].
  destruct (Ascii.eqb x bsl) eqn:B.
  - apply aeqb_eq in B; subst. rewrite IH. change (bsl :: s) with ([bsl] ++ s). rewrite app_assoc, repeat_snoc. auto.
  - rewrite (IH 0). auto.
Qed.
Lemma unesc_none s : forall k, unesc (fun _ => false) k s = repeat bsl k ++ s.
Proof.
  induction s as [|x s IH]; intros k; cbn [unesc]; [rewrite app_nil_r; auto|].
  destruct (Ascii.eqb x bsl) eqn:B.
  - apply aeqb_eq in B; subst. rewrite IH. change (bsl :: s) with ([bsl] ++ s). rewrite app_assoc, repeat_snoc. auto.
  - rewrite (IH 0). auto.
Qed.

Lemma existsb_bsl l : forallb (fun c => negb (Ascii.eqb c bsl)) l = true -> existsb (Ascii.eqb bsl) l = false.
Proof.
  induction l as [|c l IH]; cbn [existsb forallb]; auto. intros H; apply andb_true_iff in H as [H1 H2]. rewrite IH by auto.
  rewrite Ascii.eqb_sym. destruct (Ascii.eqb c bsl); auto.
Qed.
Lemma escape_chars l : forallb (fun c => negb (Ascii.eqb c bsl)) l = true ->
  forall s, fold_left escapeStep l s = esc (fun x => existsb (Ascii.eqb x) l) 0 s.
Proof.
  induction l as [|c l IH] using rev_ind; intros H s.
  - cbn [fold_left]. symmetry. rewrite (esc_ext _ (fun _ => false)) by auto. apply esc_none.
  - rewrite forallb_app in H. apply andb_true_iff in H as [H1 H2]. cbn in H2. rewrite andb_true_r in H2.
    rewrite fold_left_app. cbn [fold_left]. rewrite IH by auto. apply negb_true_iff in H2. rewrite escapeStep_esc by auto.
    rewrite esc_esc; [|apply existsb_bsl; auto|auto].
    apply esc_ext. intros x. rewrite existsb_app. cbn. rewrite orb_false_r, (Ascii.eqb_sym c x). auto.
Qed.
Lemma unescape_chars l : forallb (fun c => negb (Ascii.eqb c bsl)) l = true ->
  forall s, fold_left unescapeStep l s = unesc (fun x => existsb (Ascii.eqb x) l) 0 s.
Proof.
  induction l as [|c l IH] using rev_ind; intros H s.
  - cbn [fold_left]. symmetry. rewrite (unesc_ext _ (fun _ => false)) by auto. apply unesc_none.
  - rewrite forallb_app in H. apply andb_true_iff in H as [H1 H2]. cbn in H2. rewrite andb_true_r in H2.
    rewrite fold_left_app. cbn [fold_left]. rewrite IH by auto. apply negb_true_iff in H2. rewrite unescapeStep_unesc by auto.
    rewrite unesc_unesc; [|apply existsb_bsl; auto|auto].
    apply unesc_ext. intros x. rewrite existsb_app. cbn. rewrite orb_false_r, (Ascii.eqb_sym c x). auto.
Qed.

(* ---------------- C33 ---------------- *)
(* what the two functions do, for every string *)
Theorem C33_escape_closed_form : forall s, escapeRegExpSpecialChar s = esc special 0 s.
Proof. intros s. unfold escapeRegExpSpecialChar. rewrite escape_chars by reflexivity. reflexivity. Qed.
Theorem C33_unescape_closed_form : forall s, unescapeRegExpSpecialChar s = unesc special 0 s.
Proof. intros s. unfold unescapeRegExpSpecialChar. rewrite unescape_chars by reflexivity. reflexivity. Qed.

Lemma unesc_esc P s : P bsl = false -> forall k, unesc P 0 (esc P k s) = unesc P k s.
Proof.
  intros HP. induction s as [|x s IH]; intros k; cbn [esc unesc].
  - rewrite <- (app_nil_r (repeat bsl k)) at 1. rewrite unesc_rep. cbn. auto.
  - destruct (Ascii.eqb x bsl) eqn:B; [apply IH|]. destruct (P x) eqn:Px.
    + cbn [unesc]. rewrite bsl_refl, B, Px, IH. auto.
    + rewrite unesc_rep. cbn [unesc Nat.add]. rewrite B, Px, IH. auto.
Qed.
Lemma unesc_id s : forall k, (k <> 0 -> match s with x :: _ => special x = false | [] => True end) -> noEscaped s = true -> unesc special k s = repeat bsl k ++ s.
Proof.
  induction s as [|x s IH]; intros k Hk H; cbn [unesc]; [rewrite app_nil_r; auto|].
  cbn [noEscaped] in H. apply andb_true_iff in H as [H1 H2]. apply negb_true_iff in H1.
  destruct (Ascii.eqb x bsl) eqn:B.
  - apply aeqb_eq in B; subst. rewrite IH; [|intros _; destruct s as [|y s]; auto|auto].
    change (bsl :: s) with ([bsl] ++ s). rewrite app_assoc, repeat_snoc. auto.
  - rewrite (IH 0) by (auto; congruence). cbn [repeat app].
    destruct (special x) eqn:Sp; auto. destruct k; auto. exfalso. discriminate Hk; lia.
Qed.
Lemma unesc_id_inv s : forall k, unesc special k s = repeat bsl k ++ s -> noEscaped s = true /\ (k <> 0 -> match s with x :: _ => special x = false | [] => True end).
Proof.
  assert (L : forall s k, length (unesc special k s) <= k + length s).
  { intros t; induction t as [|x t IH]; intros k; cbn [unesc]; [rewrite repeat_length; lia|].
    destruct (Ascii.eqb x bsl); [specialize (IH (S k)); cbn; lia|].
    destruct (special x); cbn [length]; rewrite ?app_length, ?repeat_length; cbn [length]; specialize (IH 0); lia. }
  induction s as [|x s IH]; intros k H; cbn [unesc noEscaped] in *; auto.
  destruct (Ascii.eqb x bsl) eqn:B.
  - apply aeqb_eq in B; subst. change (bsl :: s) with ([bsl] ++ s) in H. rewrite app_assoc, repeat_snoc in H.
    apply (IH (S k)) in H as [H1 H2]. rewrite H1. split; [|intros _; reflexivity].
    destruct s as [|y s]; auto. rewrite H2 by lia. reflexivity.
  - cbn [andb negb]. destruct (special x) eqn:S.
    + destruct k as [|k].
      * cbn [repeat app] in H. injection H as H0. destruct (IH 0 H0) as [Q _]. rewrite Q. split; auto. congruence.
      * exfalso. apply (f_equal (@length ascii)) in H. rewrite app_length, repeat_length in H. cbn [length] in H. specialize (L s 0). lia.
    + apply app_inv_head in H. injection H as H0. destruct (IH 0 H0) as [Q _]. rewrite Q. split; auto.
Qed.

(* unescape undoes escape exactly for the strings that contain no backslash directly
   before a special character *)
Theorem C33_unescape_inverts_escape : forall s,
  unescapeRegExpSpecialChar (escapeRegExpSpecialChar s) = s <-> noEscaped s = true.
Proof.
  intros s. rewrite C33_unescape_closed_form, C33_escape_closed_form, unesc_esc by reflexivity. split.
  - intros H. apply (unesc_id_inv s 0 H).
  - intros H. apply (unesc_id s 0); auto. congruence.
Qed.
(* escaping twice is the same as escaping once, for every string *)
Theorem C33_escape_idempotent : forall s, escapeRegExpSpecialChar (escapeRegExpSpecialChar s) = escapeRegExpSpecialChar s.
Proof.
  intros s. rewrite !C33_escape_closed_form. rewrite esc_esc by reflexivity. apply esc_ext. intros x. apply orb_diag.
Qed.

(* characters that are special for regular expressions but not escaped *)
Definition forgotten (c : ascii) : bool := existsb (Ascii.eqb c) ["("; ")"; "{"; "}"; "|"; bsl]%char.

Lemma special_not_alnum c : special c = true -> isAlnum c = false.
Proof.
  unfold special. cbn [existsb]. intros H.
  repeat (apply orb_true_iff in H as [H|H]; [apply aeqb_eq in H; subst; reflexivity|]). discriminate.
Qed.
Lemma parse_esc s : forall acc, forallb (fun c => negb (forgotten c)) s = true ->
  parsePattern acc (esc special 0 s) = Some [rev acc ++ s].
Proof.
  induction s as [|x s IH]; intros acc H; cbn [esc]; [cbn; rewrite app_nil_r; auto|].
  cbn [forallb] in H. apply andb_true_iff in H as [H1 H2]. apply negb_true_iff in H1.
  assert (B : Ascii.eqb x bsl = false).
  { destruct (Ascii.eqb x bsl) eqn:B; auto. apply aeqb_eq in B; subst. cbv in H1. discriminate. }
  rewrite B. destruct (special x) eqn:S.
  - cbn [parsePattern]. rewrite bsl_refl, (special_not_alnum x S), IH by auto. cbn [rev]. rewrite <- app_assoc. auto.
  - cbn [repeat app parsePattern]. rewrite B.
    assert (B2 : Ascii.eqb x "|" = false).
    { destruct (Ascii.eqb x "|") eqn:B2; auto. apply aeqb_eq in B2; subst. cbv in H1. discriminate. }
    rewrite B2. assert (M : meta x = false).
    { unfold meta. change (existsb (Ascii.eqb x) (["^"; "$"; "."; "["; "]"; "*"; "+"; "?"]%char ++ ["("; ")"; "{"; "}"; bsl]%char) = false). rewrite existsb_app. fold (special x). rewrite S. cbn [orb]. unfold forgotten in H1. cbn [existsb] in *.
      apply orb_false_iff in H1 as [? H1]. apply orb_false_iff in H1 as [? H1]. apply orb_false_iff in H1 as [? H1]. apply orb_false_iff in H1 as [? H1].
      rewrite H, H0, H3, H4, B. auto. }
    rewrite M, IH by auto. cbn [rev]. rewrite <- app_assoc. auto.
Qed.
(* the escaped form of s finds exactly the strings that contain s literally *)
Theorem C33_escaped_pattern_matches_literally : forall s t, forallb (fun c => negb (forgotten c)) s = true ->
  regexContains (escapeRegExpSpecialChar s) t = Some (contains s t).
Proof.
  intros s t H. unfold regexContains. rewrite C33_escape_closed_form, parse_esc by auto. cbn. rewrite orb_false_r. auto.
Qed.
(* not so for the forgotten characters *)
Theorem C33_forgotten_alternation : exists s t, regexContains (escapeRegExpSpecialChar s) t = Some true /\ contains s t = false.
Proof. exists (lit "a|b"), (lit "b"). split; reflexivity. Qed.

Lemma isPrefix_spec p s : isPrefix p s = true <-> exists r, s = p ++ r.
Proof.
  revert s; induction p as [|x p IH]; intros s; cbn [isPrefix app]; [split; eauto|].
  destruct s as [|y s]; [split; [discriminate|intros [r H]; discriminate]|].
  rewrite andb_true_iff, aeqb_eq, IH. split.
  - intros [-> [r ->]]; eauto.
  - intros [r H]; inversion H; eauto.
Qed.
Lemma contains_spec p s : contains p s = true <-> exists a b, s = a ++ p ++ b.
Proof.
  induction s as [|x s IH].
  - cbn [contains]. rewrite orb_false_r, isPrefix_spec. split; [intros [r H]; exists [], r; auto|].
    intros (a & b & H). destruct a; [cbn in H; eauto|discriminate].
  - rewrite contains_cons, orb_true_iff, isPrefix_spec, IH. split.
    + intros [[r H]|(a & b & ->)]; [exists [], r; auto|exists (x :: a), b; auto].
    + intros (a & b & H). destruct a as [|y a]; [left; exists b; auto|right]. inversion H. eauto.
Qed.
Example C33_ex : escapeRegExpSpecialChar (lit "[1-,1++]=[a.b]") = [bsl] ++ lit "[1-,1" ++ [bsl] ++ lit "+" ++ [bsl] ++ lit "+" ++ [bsl] ++ lit "]=" ++ [bsl] ++ lit "[a" ++ [bsl] ++ lit ".b" ++ [bsl] ++ lit "]".
Proof. reflexivity. Qed.
