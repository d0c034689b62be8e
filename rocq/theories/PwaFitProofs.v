(* Lemmas for C94: the loop over the parameters and the search of the nearest entry *)
From Coq Require Import String Ascii List ZArith Reals Bool Lia Lra.
From Coquelicot Require Import Complex.
From Verif Require Import ArrayModel PathModel StrModel CGBoxModel FitResultModel LikParModel PwaFitModel.
Import ListNotations.
Open Scope list_scope. Open Scope nat_scope.

Definition unit_u (u : nat -> R) : Prop := forall k, (0 < u k < 1)%R.

Lemma base_pos u N k : unit_u u -> (0 < 1/100 + (sqrt (INR N) - 1/100) * u k)%R.
Proof.
  intros H. specialize (H k). pose proof (sqrt_pos (INR N)). replace (1/100 + (sqrt (INR N) - 1/100) * u k)%R with (1/100 * (1 - u k) + sqrt (INR N) * u k)%R by field.
  assert (0 <= sqrt (INR N) * u k)%R by (apply Rmult_le_pos; lra). lra.
Qed.
Lemma draw_nz u N k : unit_u u -> draw u N k <> 0%R.
Proof. intros H. pose proof (base_pos u N k H). unfold draw. destruct (Rlt_dec _ _); lra. Qed.
Lemma draw_range u N k : unit_u u -> (Rmin (1/100) (sqrt (INR N)) <= Rabs (draw u N k) <= Rmax (1/100) (sqrt (INR N)))%R.
Proof.
  intros H. pose proof (base_pos u N k H) as B.
  assert (E : Rabs (draw u N k) = (1/100 + (sqrt (INR N) - 1/100) * u k)%R).
  { unfold draw. destruct (Rlt_dec _ _); [rewrite Rabs_mult, Rabs_pos_eq by lra; replace (Rabs (-1)) with 1%R; [lra|]|rewrite Rabs_pos_eq by lra; reflexivity].
    unfold Rabs; destruct (Rcase_abs _); lra. }
  rewrite E. specialize (H k). unfold Rmin, Rmax. destruct (Rle_dec (1/100) (sqrt (INR N))) as [L|L].
  - split; nra.
  - split; nra.
Qed.

(* without a fit result *)
Lemma shift_map u N k : forall (l : list fitParameter) s,
  map (fun x => if fpFixed (snd x) then (true, 0%R) else (false, draw u N (k + 2 * fst x))) (List.combine (map S (List.seq s (length l))) l)
  = map (fun x => if fpFixed (snd x) then (true, 0%R) else (false, draw u N (k + 2 + 2 * fst x))) (List.combine (List.seq s (length l)) l).
Proof.
  induction l as [|q l IH]; intros s; [reflexivity|]. cbn [length List.seq map List.combine fst snd]. rewrite IH. f_equal. now replace (k + 2 * S s) with (k + 2 + 2 * s) by lia.
Qed.
Lemma rand_fold u N : unit_u u -> forall l k out,
  foldO (startStep u N None) l (k, out) = Some (k + 2 * length l, out ++ map (fun x => if fpFixed (snd x) then (true, 0%R) else (false, draw u N (k + 2 * fst x))) (List.combine (List.seq 0 (length l)) l)).
Proof.
  intros U. induction l as [|p l IH]; intros k out; cbn [foldO length List.seq List.combine map].
  - now rewrite app_nil_r, Nat.mul_0_r, Nat.add_0_r.
  - unfold startStep at 1. cbn [bnd]. rewrite <- (seq_shift (length l)).
    rewrite shift_map.
    cbn [fst snd]. destruct (fpFixed p); [|destruct (Req_EM_T _ _) as [Z|_]; [now apply draw_nz in Z|]]; cbn [bnd]; rewrite IH; f_equal; f_equal; try lia; rewrite <- app_assoc; cbn [app]; now rewrite ?Nat.mul_0_r, ?Nat.add_0_r.
Qed.

(* with a fit result *)
Definition fromOk (u : nat -> R) (N : nat) (r : fitResult) (p : fitParameter) (v : bool * R) : Prop :=
  exists x, fitParameterOf r (parName p) = Some x /\
    if fpFixed p then v = (true, 0%R) else fst v = false /\ (x <> 0%R -> snd v = x) /\ (x = 0%R -> exists k, snd v = draw u N k).
Lemma from_fold u N r : forall l k out k' out', foldO (startStep u N (Some r)) l (k, out) = Some (k', out') ->
  exists vs, out' = out ++ vs /\ Forall2 (fromOk u N r) l vs.
Proof.
  induction l as [|p l IH]; intros k out k' out' E; cbn [foldO] in E.
  - injection E as <- <-. exists []. split; [now rewrite app_nil_r|constructor].
  - unfold startStep at 1 in E. destruct (fitParameterOf r (parName p)) as [x|] eqn:Ex; [|discriminate]. cbn [bnd] in E. unfold fromOk.
    assert (G : forall v k1, foldO (startStep u N (Some r)) l (k1, out ++ [v]) = Some (k', out') -> fromOk u N r p v -> exists vs, out' = out ++ vs /\ Forall2 (fromOk u N r) (p :: l) vs).
    { intros v k1 E1 F. destruct (IH _ _ _ _ E1) as (vs & -> & Fs). exists (v :: vs). split; [now rewrite <- app_assoc|now constructor]. }
    destruct (fpFixed p) eqn:Ef; [|destruct (Req_EM_T x 0) as [Z|Z]]; cbn [bnd] in E; apply G in E; try exact E; exists x; (split; [exact Ex|]); rewrite Ef; auto; cbn [fst snd]; repeat split; intros; try contradiction; eauto.
Qed.
Lemma from_fold_some u N r : forall l k out, (forall p, In p l -> fitParameterOf r (parName p) <> None) ->
  exists s, foldO (startStep u N (Some r)) l (k, out) = Some s.
Proof.
  induction l as [|p l IH]; intros k out H; [eexists; reflexivity|]. cbn [foldO]. unfold startStep at 1.
  destruct (fitParameterOf r (parName p)) as [x|] eqn:Ex; [|now destruct (H p (or_introl eq_refl))]. cbn [bnd].
  destruct (fpFixed p); [|destruct (Req_EM_T x 0)]; cbn [bnd]; apply IH; intros q Hq; apply H; now right.
Qed.

(* the nearest entry *)
Definition dist (c : R) (r : fitResult) : R := Rabs (c - massCenter r).
Lemma best_inv c : forall l i best j m, bestLoop c i l best = (j, m) ->
  ((j, m) = best /\ forall r, In r l -> (Rabs (c - snd best) < dist c r)%R)
  \/ (exists n r, nth_error l n = Some r /\ j = i + n /\ m = massCenter r /\ (dist c r <= Rabs (c - snd best))%R
       /\ (forall r', In r' l -> (dist c r <= dist c r')%R) /\ (forall n' r', n < n' -> nth_error l n' = Some r' -> (dist c r < dist c r')%R)).
Proof.
  induction l as [|r l IH]; intros i best j m E; cbn [bestLoop] in E.
  - left. split; [now symmetry|intros r []].
  - apply IH in E. destruct (Rle_dec (Rabs (c - massCenter r)) (Rabs (c - snd best))) as [L|L]; cbn [snd] in E.
    + right. destruct E as [[E H]|(n & r1 & E1 & -> & -> & E2 & E3 & E4)].
      * injection E as -> ->. exists 0, r. split; [reflexivity|]. split; [lia|]. split; [reflexivity|]. split; [exact L|]. split.
        -- intros r' [<-|Hr]; [apply Rle_refl|]. apply Rlt_le. now apply H.
        -- intros [|n'] r' Hn Hr; [lia|]. cbn in Hr. apply H. now apply nth_error_In in Hr.
      * exists (S n), r1. split; [exact E1|]. split; [lia|]. split; [reflexivity|]. split; [unfold dist in *; lra|]. split.
        -- intros r' [<-|Hr]; [exact E2|now apply E3].
        -- intros [|n'] r' Hn Hr; [lia|]. cbn in Hr. apply (E4 n'); [lia|exact Hr].
    + apply Rnot_le_lt in L. destruct E as [[E H]|(n & r1 & E1 & -> & -> & E2 & E3 & E4)].
      * left. split; [exact E|]. intros r' [<-|Hr]; [exact L|now apply H].
      * right. exists (S n), r1. split; [exact E1|]. split; [lia|]. split; [reflexivity|]. split; [exact E2|]. split.
        -- intros r' [<-|Hr]; [unfold dist in *; lra|now apply E3].
        -- intros [|n'] r' Hn Hr; [lia|]. cbn in Hr. apply (E4 n'); [lia|exact Hr].
Qed.
