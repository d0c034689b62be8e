(* Lemmas for C87, part 2: what the double loops write. *)
From Coq Require Import List Reals Bool Arith ZArith Lia Lra.
From Coquelicot Require Import Complex.
From Verif Require Import PhysModel ChiModel ChiSpec ChiProofs ChiProofs2 ChiProofs3 ChiProofs5 PaChiModel PaChiSpec PaChiProofs.
Import ListNotations.
Open Scope nat_scope.

Lemma put_other r c x m a b : ~ (a = r /\ b = c) -> put r c x m a b = m a b.
Proof. intros H. unfold put. destruct (Nat.eqb_spec a r), (Nat.eqb_spec b c); cbn [andb]; auto. tauto. Qed.
Lemma in_c0 a w : In (w, 0) (compsOf a w).
Proof. unfold compsOf. destruct (Nat.eqb w a); left; reflexivity. Qed.
Lemma in_c1 a w : w <> a -> In (w, 1) (compsOf a w).
Proof. intros H. unfold compsOf. apply Nat.eqb_neq in H. rewrite H. right; left; reflexivity. Qed.
Lemma in_p0 w : In (w, 0) (partsOf w). Proof. left; reflexivity. Qed.
Lemma in_p1 w : In (w, 1) (partsOf w). Proof. right; left; reflexivity. Qed.
Ltac ins := first [apply in_c0 | apply in_c1; assumption | apply in_p0 | apply in_p1].
Ltac unt H w v := rewrite put_other;
  [| intros [? ?]; first [apply (H (w, 0) (v, 0)); [ins|ins|unfold pos, pos2, ix; cbn [fst snd]; lia]
                        |apply (H (w, 0) (v, 1)); [ins|ins|unfold pos, pos2, ix; cbn [fst snd]; lia]
                        |apply (H (w, 1) (v, 0)); [ins|ins|unfold pos, pos2, ix; cbn [fst snd]; lia]
                        |apply (H (w, 1) (v, 1)); [ins|ins|unfold pos, pos2, ix; cbn [fst snd]; lia]]].
(* cases for a cell of wave w *)
Ltac comps Hc := apply in_compsOf in Hc; destruct Hc as [Hc1 [Hc2|[Hc2 Hc3]]].
Ltac eqbs := repeat match goal with |- context [Nat.eqb ?x ?y] => destruct (Nat.eqb_spec x y); try lia end.

Section Steps.
Variables (z : nat -> bool) (a n : nat).
Let at_ x := (x, skips z x).
Let ws := kept z n.
Lemma real_block cov c c' : In c (flat_map (compsOf a) ws) -> In c' (flat_map (compsOf a) ws) ->
  loops (realStep a (z a) cov) (map at_ ws) zeroMat (pos z a c) (pos z a c') = cov (ix c) (ix c').
Proof.
  intros Hc Hc'. apply in_flat_map in Hc, Hc'. destruct Hc as (w & Hw & Hc), Hc' as (v & Hv & Hc').
  apply (blocks z ws (realStep a (z a) cov) (compsOf a) (compsOf a) (pos z a) (pos z a) (fun c c' _ => cov (ix c) (ix c')) zeroMat) with (w := w) (v := v); auto.
  - apply kept_NoDup.
  - apply apart_pos.
  - apply apart_pos.
  - clear. intros w v m r s _ _ H. unfold realStep, putIf. rewrite !rowSkip_place. cbn [fst].
    destruct (Nat.eqb_spec v a), (Nat.eqb_spec w a); cbn [negb andb]; repeat unt H w v; reflexivity.
  - clear. intros w v m [cw ce] [dv de] _ _ Hc Hd. apply in_compsOf in Hc, Hd. cbn [fst snd] in Hc, Hd. destruct Hc as [-> Hc], Hd as [-> Hd].
    unfold realStep, putIf. rewrite !rowSkip_place. cbn [fst]. unfold pos, ix; cbn [fst snd].
    destruct Hc as [-> |[-> Hc]], Hd as [-> |[-> Hd]]; repeat match goal with H : _ <> _ |- _ => apply Nat.eqb_neq in H; rewrite H; clear H end;
      cbn [negb andb]; destruct (Nat.eqb v a), (Nat.eqb w a); cbn [negb andb]; unfold put; eqbs; cbn [andb]; rewrite ?Nat.add_0_r; reflexivity.
Qed.
Lemma cov_block cov c c' : In c (flat_map partsOf ws) -> In c' (flat_map partsOf ws) ->
  loops (covStep cov) (map at_ ws) zeroMat (pos2 z c) (pos2 z c') = cov (ix c) (ix c').
Proof.
  intros Hc Hc'. apply in_flat_map in Hc, Hc'. destruct Hc as (w & Hw & Hc), Hc' as (v & Hv & Hc').
  apply (blocks z ws (covStep cov) partsOf partsOf (pos2 z) (pos2 z) (fun c c' _ => cov (ix c) (ix c')) zeroMat) with (w := w) (v := v); auto.
  - apply kept_NoDup.
  - apply apart_pos2.
  - apply apart_pos2.
  - clear. intros w v m r s _ _ H. unfold covStep. cbn [fst snd]. rewrite !place2. repeat unt H w v; reflexivity.
  - clear. intros w v m [cw ce] [dv de] _ _ Hc Hd. apply in_partsOf in Hc, Hd. cbn [fst snd] in Hc, Hd. destruct Hc as [-> Hc], Hd as [-> Hd].
    unfold covStep. cbn [fst snd]. rewrite !place2. unfold pos2, ix; cbn [fst snd].
    destruct Hc as [-> | ->], Hd as [-> | ->]; unfold put; eqbs; cbn [andb]; rewrite ?Nat.add_0_r; reflexivity.
Qed.
(* entry of the Jacobian matrix *)
Definition jacEnt (amp : nat -> C) (c k : comp) (old : R) : R :=
  let n := Cmod (amp a) in
  let xa1 := fst (amp a) in
  let xa2 := snd (amp a) in
  let xi1 := fst (amp (fst c)) in
  let xi2 := snd (amp (fst c)) in
  (if Nat.eqb (fst k) a then
    if Nat.eqb (fst c) a then if Nat.eqb (snd k) 0 then xa1 / n else xa2 / n
    else if Nat.eqb (snd c) 0 then
      if Nat.eqb (snd k) 0 then xi1 / n - xa1 * (xi1 * xa1 + xi2 * xa2) / n ^ 3 else xi2 / n - xa2 * (xi2 * xa2 + xi1 * xa1) / n ^ 3
    else if Nat.eqb (snd k) 0 then xi2 / n - xa1 * (xi2 * xa1 - xi1 * xa2) / n ^ 3 else - xi1 / n - xa2 * (xi2 * xa1 - xi1 * xa2) / n ^ 3
  else if Nat.eqb (fst c) (fst k) then
    if Nat.eqb (snd c) 0 then if Nat.eqb (snd k) 0 then xa1 / n else xa2 / n
    else if Nat.eqb (snd k) 0 then - xa2 / n else xa1 / n
  else old)%R.
Lemma jac_block amp c k : In c (flat_map (compsOf a) ws) -> In k (flat_map partsOf ws) ->
  loops (jacStep a (z a) amp) (map at_ ws) zeroMat (pos z a c) (pos2 z k) = jacEnt amp c k 0.
Proof.
  intros Hc Hc'. apply in_flat_map in Hc, Hc'. destruct Hc as (w & Hw & Hc), Hc' as (v & Hv & Hc').
  apply (blocks z ws (jacStep a (z a) amp) (compsOf a) partsOf (pos z a) (pos2 z) (fun c c' old => jacEnt amp c c' old) zeroMat) with (w := w) (v := v); auto.
  - apply kept_NoDup.
  - apply apart_pos.
  - apply apart_pos2.
  - clear. intros w v m r s _ _ H. unfold jacStep. cbv zeta. rewrite !rowSkip_place. cbn [fst snd]. rewrite !place2.
    destruct (Nat.eqb_spec w a); destruct (Nat.eqb_spec v a); cbn [negb andb].
    + repeat unt H w v; reflexivity.
    + destruct (Nat.eqb_spec w v); [congruence|reflexivity].
    + repeat unt H w v; reflexivity.
    + destruct (Nat.eqb_spec w v); [|reflexivity]. repeat unt H w v; reflexivity.
  - clear. intros w v m [cw ce] [dv de] _ _ Hc Hd. apply in_compsOf in Hc. apply in_partsOf in Hd. cbn [fst snd] in Hc, Hd. destruct Hc as [-> Hc], Hd as [-> Hd].
    unfold jacStep, jacEnt. cbv zeta. rewrite !rowSkip_place. cbn [fst snd]. rewrite !place2. unfold pos, pos2; cbn [fst snd].
    destruct (Nat.eqb_spec w a) as [E1|E1]; destruct (Nat.eqb_spec v a) as [E2|E2]; cbn [negb andb].
    + destruct Hc as [-> |[-> Hc]]; [|contradiction]. destruct Hd as [-> | ->]; unfold put; eqbs; cbn [andb]; reflexivity.
    + destruct (Nat.eqb_spec w v); [congruence|reflexivity].
    + destruct Hc as [-> |[-> Hc]], Hd as [-> | ->]; unfold put; eqbs; cbn [andb]; reflexivity.
    + destruct (Nat.eqb_spec w v); [|reflexivity]. destruct Hc as [-> |[-> Hc]], Hd as [-> | ->]; unfold put; eqbs; cbn [andb]; reflexivity.
Qed.
Lemma mask_block uc red c c' : uc <> UseFull -> In c (flat_map (compsOf a) ws) -> In c' (flat_map (compsOf a) ws) ->
  loops (maskStep a (z a) uc) (map at_ ws) red (pos z a c) (pos z a c') = masked uc (fun _ _ => red (pos z a c) (pos z a c')) c c'.
Proof.
  intros Hu Hc Hc'. apply in_flat_map in Hc, Hc'. destruct Hc as (w & Hw & Hc), Hc' as (v & Hv & Hc').
  apply (blocks z ws (maskStep a (z a) uc) (compsOf a) (compsOf a) (pos z a) (pos z a) (fun c c' x => masked uc (fun _ _ => x) c c') red) with (w := w) (v := v); auto.
  - apply kept_NoDup.
  - apply apart_pos.
  - apply apart_pos.
  - clear. intros w v m r s _ _ H. unfold maskStep, putIf. rewrite !rowSkip_place. cbn [fst].
    destruct (Nat.eqb_spec w v) as [E|E]; [destruct uc; try reflexivity|];
    destruct (Nat.eqb_spec v a), (Nat.eqb_spec w a); cbn [negb andb]; repeat unt H w v; reflexivity.
  - clear - Hu. intros w v m [cw ce] [dv de] _ _ Hc Hd. apply in_compsOf in Hc, Hd. cbn [fst snd] in Hc, Hd. destruct Hc as [-> Hc], Hd as [-> Hd].
    unfold maskStep, putIf, masked. rewrite !rowSkip_place. cbn [fst snd]. unfold pos; cbn [fst snd].
    destruct (Nat.eqb_spec w v) as [E|E].
    + subst v. destruct uc; [|reflexivity|congruence].
      destruct Hc as [-> |[-> Hc]], Hd as [-> |[-> Hd]]; repeat match goal with H : _ <> _ |- _ => apply Nat.eqb_neq in H; rewrite ?H; clear H end;
      cbn [negb andb Nat.eqb]; try destruct (Nat.eqb w a); cbn [negb andb]; unfold put; eqbs; cbn [andb]; rewrite ?Nat.add_0_r; reflexivity.
    + destruct uc; [| |congruence]; destruct Hc as [-> |[-> Hc]], Hd as [-> |[-> Hd]]; try (apply Nat.eqb_neq in Hc; rewrite Hc); try (apply Nat.eqb_neq in Hd; rewrite Hd); cbn [negb andb];
      destruct (Nat.eqb v a), (Nat.eqb w a); cbn [negb andb]; unfold put; eqbs; cbn [andb]; reflexivity.
Qed.
Lemma back_block red c c' : In c (flat_map (compsOf a) ws) -> In c' (flat_map (compsOf a) ws) ->
  loops (backStep a (z a) red) (map at_ ws) zeroMat (ix c) (ix c') = red (pos z a c) (pos z a c').
Proof.
  intros Hc Hc'. apply in_flat_map in Hc, Hc'. destruct Hc as (w & Hw & Hc), Hc' as (v & Hv & Hc').
  apply (blocks z ws (backStep a (z a) red) (compsOf a) (compsOf a) ix ix (fun c c' _ => red (pos z a c) (pos z a c')) zeroMat) with (w := w) (v := v); auto.
  - apply kept_NoDup.
  - apply apart_ix.
  - apply apart_ix.
  - clear. intros w v m r s _ _ H. unfold backStep, putIf. rewrite !rowSkip_place. cbn [fst].
    destruct (Nat.eqb_spec v a), (Nat.eqb_spec w a); cbn [negb andb]; repeat unt H w v; reflexivity.
  - clear. intros w v m [cw ce] [dv de] _ _ Hc Hd. apply in_compsOf in Hc, Hd. cbn [fst snd] in Hc, Hd. destruct Hc as [-> Hc], Hd as [-> Hd].
    unfold backStep, putIf. rewrite !rowSkip_place. cbn [fst]. unfold pos, ix; cbn [fst snd].
    destruct Hc as [-> |[-> Hc]], Hd as [-> |[-> Hd]]; repeat match goal with H : _ <> _ |- _ => apply Nat.eqb_neq in H; rewrite H; clear H end;
      cbn [negb andb]; destruct (Nat.eqb v a), (Nat.eqb w a); cbn [negb andb]; unfold put; eqbs; cbn [andb]; rewrite ?Nat.add_0_r; reflexivity.
Qed.
End Steps.
