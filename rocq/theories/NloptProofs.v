(* Lemmas for C95: parameters with and without the fixed ones *)
From Coq Require Import String Ascii List ZArith Reals Bool Lia Lra.
From Coquelicot Require Import Complex.
From Verif Require Import ArrayModel PathModel StrModel CGBoxModel FitResultModel LikParModel LikGradProps PwaFitModel PwaFitProofs NloptModel.
Import ListNotations.
Open Scope list_scope. Open Scope nat_scope.

(* specification: the values that belong to free parameters *)
Definition freeValues (pars : list fitParameter) (v : list R) : list R := map snd (filter (fun q => negb (fpFixed (fst q))) (List.combine pars v)).
Definition nmbFixed (pars : list fitParameter) : nat := length (filter fpFixed pars).

Lemma freeOf_values : forall pars v, freeOf pars v = freeValues pars v.
Proof. induction pars as [|p pars IH]; intros [|a v]; try reflexivity. unfold freeValues. cbn [freeOf List.combine filter fst]. destruct (fpFixed p); cbn [negb map snd]; [apply IH|f_equal; apply IH]. Qed.
Lemma freeValues_all : forall pars v, nmbFixed pars = 0 -> length v = length pars -> freeValues pars v = v.
Proof.
  unfold nmbFixed, freeValues. induction pars as [|p pars IH]; intros [|a v] H L; try discriminate L; [reflexivity|]. cbn [filter] in H. cbn [List.combine filter fst]. destruct (fpFixed p); [discriminate|].
  cbn [negb map snd]. f_equal. apply IH; [exact H|cbn in L; lia].
Qed.
Lemma addFixed_none : forall pars x, nmbFixed pars = 0 -> length x = length pars -> addFixed pars x = Some x.
Proof.
  unfold nmbFixed. induction pars as [|p pars IH]; intros [|a x] H L; try discriminate L; [reflexivity|]. cbn [filter] in H. cbn [addFixed]. destruct (fpFixed p); [discriminate|].
  rewrite IH; [reflexivity|exact H|cbn in L; lia].
Qed.
Lemma addFixed_inv : forall pars x par, addFixed pars x = Some par -> length par = length pars /\ (forall k p, nth_error pars k = Some p -> fpFixed p = true -> nth_error par k = Some 0%R)
  /\ (length x + nmbFixed pars = length pars -> freeValues pars par = x).
Proof.
  unfold nmbFixed, freeValues. induction pars as [|p pars IH]; intros x par E.
  - cbn in E. injection E as <-. split; [reflexivity|]. split; [intros [|k]; discriminate|]. cbn. destruct x; [reflexivity|cbn; lia].
  - cbn [addFixed] in E. cbn [filter length]. destruct (fpFixed p) eqn:F.
    + destruct (addFixed pars x) as [l|] eqn:El; [|discriminate]. cbn [bnd] in E. injection E as <-. destruct (IH _ _ El) as (A & B & C). cbn [length]. split; [lia|]. split.
      * intros [|k] q Hk Hq; [reflexivity|]. cbn in Hk. cbn. now apply (B k q).
      * cbn [length List.combine filter fst]. rewrite F. cbn [negb]. intros. apply C. lia.
    + destruct x as [|a x]; [discriminate|]. destruct (addFixed pars x) as [l|] eqn:El; [|discriminate]. cbn [bnd] in E. injection E as <-. destruct (IH _ _ El) as (A & B & C). cbn [length]. split; [lia|]. split.
      * intros [|k] q Hk Hq; [cbn in Hk; congruence|]. cbn in Hk. cbn. now apply (B k q).
      * cbn [List.combine filter fst]. rewrite F. cbn [negb map snd]. intros. f_equal. apply C. lia.
Qed.
Lemma filter_le {A} (f : A -> bool) l : length (filter f l) <= length l.
Proof. induction l as [|a l IH]; cbn; [lia|]. destruct (f a); cbn; lia. Qed.
Lemma addFixed_some : forall pars x, length x + nmbFixed pars = length pars -> exists par, addFixed pars x = Some par.
Proof.
  unfold nmbFixed. induction pars as [|p pars IH]; intros x L; [eexists; reflexivity|]. cbn [filter length] in L. cbn [addFixed]. destruct (fpFixed p).
  - destruct (IH x) as [l El]; [cbn in L; lia|]. rewrite El. eexists. reflexivity.
  - destruct x as [|a x]; [pose proof (filter_le fpFixed pars); cbn in L; lia|]. destruct (IH x) as [l El]; [cbn in L; lia|]. rewrite El. eexists. reflexivity.
Qed.
Lemma addFixed_at : forall pars x par k xk, addFixed pars x = Some par -> nth_error x k = Some xk -> length x + nmbFixed pars = length pars ->
  exists j, nth_error par j = Some xk /\ (forall y, addFixed pars (setAt x k y) = Some (setAt par j y)) /\ forall g, length g = length pars -> nth_error (freeOf pars g) k = nth_error g j.
Proof.
  unfold nmbFixed. induction pars as [|p pars IH]; intros x par k xk E Hk L.
  - destruct x; [destruct k; discriminate|cbn in L; lia].
  - cbn [addFixed] in *. cbn [filter length] in L. destruct (fpFixed p) eqn:F.
    + destruct (addFixed pars x) as [l|] eqn:El; [|discriminate]. cbn [bnd] in E. injection E as <-. destruct (IH x l k xk El Hk) as (j & J1 & J2 & J3); [cbn in L; lia|].
      exists (S j). split; [exact J1|]. split; [intros y; now rewrite J2|]. intros [|a g] Lg; [discriminate|]. cbn [freeOf nth_error]. rewrite F. apply J3. cbn in Lg. lia.
    + destruct x as [|a x]; [discriminate|]. destruct (addFixed pars x) as [l|] eqn:El; [|discriminate]. cbn [bnd] in E. injection E as <-. destruct k as [|k].
      * exists 0. split; [exact Hk|]. split; [intros y; cbn [setAt]; now rewrite El|]. intros [|b g] Lg; [discriminate|]. cbn [freeOf nth_error]. rewrite F. reflexivity.
      * cbn in Hk. destruct (IH x l k xk El Hk) as (j & J1 & J2 & J3); [cbn in L; lia|]. exists (S j). split; [exact J1|]. split; [intros y; cbn [setAt]; now rewrite J2|].
        intros [|b g] Lg; [discriminate|]. cbn [freeOf nth_error]. rewrite F. cbn [nth_error]. apply J3. cbn in Lg. lia.
Qed.

(* start values: those of pwaFit for the free parameters *)
Lemma nlStart_map u N : forall pars k, nlStart u N k pars =
  map snd (filter (fun v => negb (fst v)) (map (fun x => if fpFixed (snd x) then (true, 0%R) else (false, draw u N (k + 2 * fst x))) (List.combine (List.seq 0 (length pars)) pars))).
Proof.
  induction pars as [|p pars IH]; intros k; [reflexivity|]. cbn [nlStart length List.seq List.combine map fst snd]. rewrite <- (seq_shift (length pars)), shift_map. cbn [filter].
  rewrite Nat.mul_0_r, Nat.add_0_r. destruct (fpFixed p); cbn [negb fst map snd]; [apply IH|f_equal; apply IH].
Qed.
