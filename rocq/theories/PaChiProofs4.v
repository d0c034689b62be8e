(* Lemmas for C87, part 4: the Jacobian matrix. *)
From Coq Require Import List Reals Bool Arith ZArith Lia Lra.
From Coquelicot Require Import Hierarchy Complex Derive AutoDerive.
From Verif Require Import PhysModel ChiModel ChiSpec ChiProofs ChiProofs2 ChiProofs3 ChiProofs5 PaChiModel PaChiSpec PaChiProofs PaChiProofs2.
Import ListNotations.
Open Scope R_scope.

(* z / (a / |a|) in real and imaginary part *)
Lemma rot_re (x y : C) : Re (x / (y / RtoC (Cmod y)))%C = (fst x * fst y + snd x * snd y) / sqrt (fst y ^ 2 + snd y ^ 2).
Proof.
  destruct x as [x1 x2], y as [y1 y2]. unfold Cmod; cbn [fst snd]. set (n := sqrt (y1 ^ 2 + y2 ^ 2)).
  assert (P : 0 <= y1 ^ 2 + y2 ^ 2) by (pose proof (pow2_ge_0 y1); pose proof (pow2_ge_0 y2); lra).
  assert (Hn : n * n = y1 ^ 2 + y2 ^ 2) by (apply sqrt_sqrt; auto).
  destruct (Req_EM_T n 0) as [E|E].
  - assert (y1 ^ 2 + y2 ^ 2 = 0) by (rewrite <- Hn, E; ring). pose proof (pow2_ge_0 y1). pose proof (pow2_ge_0 y2).
    assert (Z1 : y1 = 0) by (apply Rsqr_0_uniq; unfold Rsqr; lra). assert (Z2 : y2 = 0) by (apply Rsqr_0_uniq; unfold Rsqr; lra).
    rewrite Z1, Z2. unfold Cdiv, Cinv, RtoC, Cmult, Re; cbn [fst snd]. unfold Rdiv. ring.
  - unfold Cdiv, Cinv, RtoC, Cmult, Re; cbn [fst snd].
    replace ((y1 * (n / (n ^ 2 + 0 ^ 2)) - y2 * (- 0 / (n ^ 2 + 0 ^ 2)))) with (y1 / n) by (field; auto).
    replace ((y1 * (- 0 / (n ^ 2 + 0 ^ 2)) + y2 * (n / (n ^ 2 + 0 ^ 2)))) with (y2 / n) by (field; auto).
    replace ((y1 / n) ^ 2 + (y2 / n) ^ 2) with 1.
    + field; auto.
    + replace ((y1 / n) ^ 2 + (y2 / n) ^ 2) with ((y1 ^ 2 + y2 ^ 2) / (n * n)) by (field; auto). rewrite <- Hn. field; auto.
Qed.
Lemma rot_im (x y : C) : Im (x / (y / RtoC (Cmod y)))%C = (snd x * fst y - fst x * snd y) / sqrt (fst y ^ 2 + snd y ^ 2).
Proof.
  destruct x as [x1 x2], y as [y1 y2]. unfold Cmod; cbn [fst snd]. set (n := sqrt (y1 ^ 2 + y2 ^ 2)).
  assert (P : 0 <= y1 ^ 2 + y2 ^ 2) by (pose proof (pow2_ge_0 y1); pose proof (pow2_ge_0 y2); lra).
  assert (Hn : n * n = y1 ^ 2 + y2 ^ 2) by (apply sqrt_sqrt; auto).
  destruct (Req_EM_T n 0) as [E|E].
  - assert (y1 ^ 2 + y2 ^ 2 = 0) by (rewrite <- Hn, E; ring). pose proof (pow2_ge_0 y1). pose proof (pow2_ge_0 y2).
    assert (Z1 : y1 = 0) by (apply Rsqr_0_uniq; unfold Rsqr; lra). assert (Z2 : y2 = 0) by (apply Rsqr_0_uniq; unfold Rsqr; lra).
    rewrite Z1, Z2. unfold Cdiv, Cinv, RtoC, Cmult, Im; cbn [fst snd]. unfold Rdiv. ring.
  - unfold Cdiv, Cinv, RtoC, Cmult, Im; cbn [fst snd].
    replace ((y1 * (n / (n ^ 2 + 0 ^ 2)) - y2 * (- 0 / (n ^ 2 + 0 ^ 2)))) with (y1 / n) by (field; auto).
    replace ((y1 * (- 0 / (n ^ 2 + 0 ^ 2)) + y2 * (n / (n ^ 2 + 0 ^ 2)))) with (y2 / n) by (field; auto).
    replace ((y1 / n) ^ 2 + (y2 / n) ^ 2) with 1.
    + field; auto.
    + replace ((y1 / n) ^ 2 + (y2 / n) ^ 2) with ((y1 ^ 2 + y2 ^ 2) / (n * n)) by (field; auto). rewrite <- Hn. field; auto.
Qed.
Lemma mod_pos (y : C) : y <> (0, 0) -> 0 < fst y ^ 2 + snd y ^ 2.
Proof.
  destruct y as [a b]. cbn [fst snd]. intros H. pose proof (pow2_ge_0 a). pose proof (pow2_ge_0 b).
  destruct (Req_EM_T (a ^ 2 + b ^ 2) 0) as [E|E]; [|lra]. exfalso. apply H.
  f_equal; apply Rsqr_0_uniq; unfold Rsqr; lra.
Qed.
Notation isd := (is_derive (K := R_AbsRing) (V := R_NormedModule)).
(* derivatives of (x1 a1 + x2 a2) / |a| *)
Lemma d_lin u v n : isd (fun t : R => (u + v * t) / n) 0 (v / n).
Proof. unfold Rdiv. auto_derive; auto. ring. Qed.
Lemma d_norm1 p q c d : 0 < p ^ 2 + q ^ 2 -> isd (fun t : R => (c + d * t) / sqrt ((p + t) ^ 2 + q ^ 2)) 0 (d / sqrt (p ^ 2 + q ^ 2) - p * c / sqrt (p ^ 2 + q ^ 2) ^ 3).
Proof.
  intros H. assert (Hs : 0 < sqrt (p ^ 2 + q ^ 2)) by (apply sqrt_lt_R0; auto).
  auto_derive.
  - rewrite Rplus_0_r. replace (p * (p * 1) + q * (q * 1)) with (p ^ 2 + q ^ 2) by ring. split; auto. split; auto. lra.
  - rewrite Rplus_0_r. replace (p * (p * 1) + q * (q * 1)) with (p ^ 2 + q ^ 2) by ring. set (n := sqrt (p ^ 2 + q ^ 2)) in *. field. lra.
Qed.
Lemma d_norm2 p q c d : 0 < p ^ 2 + q ^ 2 -> isd (fun t : R => (c + d * t) / sqrt (p ^ 2 + (q + t) ^ 2)) 0 (d / sqrt (p ^ 2 + q ^ 2) - q * c / sqrt (p ^ 2 + q ^ 2) ^ 3).
Proof.
  intros H. pose proof (d_norm1 q p c d) as D. rewrite Rplus_comm in H. specialize (D H). rewrite (Rplus_comm (p ^ 2)).
  eapply is_derive_ext; [|exact D]. intros t. cbv beta. rewrite (Rplus_comm (p ^ 2)). reflexivity.
Qed.
Lemma d_abs1 p q : 0 < p ^ 2 + q ^ 2 -> isd (fun t : R => ((p + t) * (p + t) + q * q) / sqrt ((p + t) ^ 2 + q ^ 2)) 0 (p / sqrt (p ^ 2 + q ^ 2)).
Proof.
  intros H. assert (Hs : 0 < sqrt (p ^ 2 + q ^ 2)) by (apply sqrt_lt_R0; auto).
  assert (Hn : sqrt (p ^ 2 + q ^ 2) * sqrt (p ^ 2 + q ^ 2) = p ^ 2 + q ^ 2) by (apply sqrt_sqrt; lra).
  auto_derive.
  - rewrite Rplus_0_r. replace (p * (p * 1) + q * (q * 1)) with (p ^ 2 + q ^ 2) by ring. split; auto. split; auto. lra.
  - rewrite Rplus_0_r. replace (p * (p * 1) + q * (q * 1)) with (p ^ 2 + q ^ 2) by ring. set (n := sqrt (p ^ 2 + q ^ 2)) in *.
    replace (p * p + q * q) with (n * n) by (rewrite Hn; ring). field. lra.
Qed.
Lemma d_abs2 p q : 0 < p ^ 2 + q ^ 2 -> isd (fun t : R => (p * p + (q + t) * (q + t)) / sqrt (p ^ 2 + (q + t) ^ 2)) 0 (q / sqrt (p ^ 2 + q ^ 2)).
Proof.
  intros H. rewrite Rplus_comm in H. pose proof (d_abs1 q p H) as D. rewrite (Rplus_comm (p ^ 2)).
  eapply is_derive_ext; [|exact D]. intros t. cbv beta. rewrite (Rplus_comm (p ^ 2)), (Rplus_comm (p * p)). reflexivity.
Qed.

(* the derivative of a rotated amplitude is the entry of the code's matrix *)
Lemma jac_derive a (A : nat -> C) (c k : comp) : A a <> (0, 0) -> (snd k = 0 \/ snd k = 1)%nat -> (snd c = 0 \/ (snd c = 1 /\ fst c <> a))%nat ->
  isd (fun t : R => part (snd c) (rotated a (bump A k t) (fst c))) 0 (jacEnt a A c k 0).
Proof.
  intros Ha Hk Hc. destruct c as [w e], k as [u f]. cbn [fst snd] in *. pose proof (mod_pos (A a) Ha) as P.
  unfold jacEnt. cbn [fst snd]. unfold Cmod. unfold rotated.
  destruct (A a) as [a1 a2] eqn:EA. cbn [fst snd] in *.
  set (F := fun t : R => part e (bump A (u, f) t w / (bump A (u, f) t a / RtoC (Cmod (bump A (u, f) t a))))%C).
  change (isd F 0 ((if Nat.eqb u a
     then if Nat.eqb w a then if Nat.eqb f 0 then a1 / sqrt (a1 ^ 2 + a2 ^ 2) else a2 / sqrt (a1 ^ 2 + a2 ^ 2)
       else if Nat.eqb e 0 then
         if Nat.eqb f 0 then fst (A w) / sqrt (a1 ^ 2 + a2 ^ 2) - a1 * (fst (A w) * a1 + snd (A w) * a2) / sqrt (a1 ^ 2 + a2 ^ 2) ^ 3
         else snd (A w) / sqrt (a1 ^ 2 + a2 ^ 2) - a2 * (snd (A w) * a2 + fst (A w) * a1) / sqrt (a1 ^ 2 + a2 ^ 2) ^ 3
       else if Nat.eqb f 0 then snd (A w) / sqrt (a1 ^ 2 + a2 ^ 2) - a1 * (snd (A w) * a1 - fst (A w) * a2) / sqrt (a1 ^ 2 + a2 ^ 2) ^ 3
         else - fst (A w) / sqrt (a1 ^ 2 + a2 ^ 2) - a2 * (snd (A w) * a1 - fst (A w) * a2) / sqrt (a1 ^ 2 + a2 ^ 2) ^ 3
     else if Nat.eqb w u
       then if Nat.eqb e 0 then if Nat.eqb f 0 then a1 / sqrt (a1 ^ 2 + a2 ^ 2) else a2 / sqrt (a1 ^ 2 + a2 ^ 2)
            else if Nat.eqb f 0 then - a2 / sqrt (a1 ^ 2 + a2 ^ 2) else a1 / sqrt (a1 ^ 2 + a2 ^ 2)
       else 0))).
  assert (Fe : forall t, F t = match e with
      | O => (fst (bump A (u, f) t w) * fst (bump A (u, f) t a) + snd (bump A (u, f) t w) * snd (bump A (u, f) t a)) / sqrt (fst (bump A (u, f) t a) ^ 2 + snd (bump A (u, f) t a) ^ 2)
      | _ => (snd (bump A (u, f) t w) * fst (bump A (u, f) t a) - fst (bump A (u, f) t w) * snd (bump A (u, f) t a)) / sqrt (fst (bump A (u, f) t a) ^ 2 + snd (bump A (u, f) t a) ^ 2) end).
  { intros t. unfold F, part. destruct e; [apply rot_re|apply rot_im]. }
  apply (is_derive_ext (fun t => match e with
      | O => (fst (bump A (u, f) t w) * fst (bump A (u, f) t a) + snd (bump A (u, f) t w) * snd (bump A (u, f) t a)) / sqrt (fst (bump A (u, f) t a) ^ 2 + snd (bump A (u, f) t a) ^ 2)
      | _ => (snd (bump A (u, f) t w) * fst (bump A (u, f) t a) - fst (bump A (u, f) t w) * snd (bump A (u, f) t a)) / sqrt (fst (bump A (u, f) t a) ^ 2 + snd (bump A (u, f) t a) ^ 2) end));
    [intros t; symmetry; apply Fe|]. clear F Fe. unfold bump. cbn [fst snd].
  destruct (Nat.eqb_spec u a) as [-> |Hu].
  - rewrite Nat.eqb_refl, EA. destruct (Nat.eqb_spec w a) as [-> |Hw].
    + destruct Hc as [-> |[_ Hc]]; [|contradiction]. rewrite EA. destruct Hk as [-> | ->]; cbn [Nat.eqb Cplus fst snd].
      * eapply is_derive_ext; [|apply (d_abs1 a1 a2 P)]. intros t. cbv beta. rewrite !Rplus_0_r. reflexivity.
      * eapply is_derive_ext; [|apply (d_abs2 a1 a2 P)]. intros t. cbv beta. rewrite !Rplus_0_r. reflexivity.
    + destruct (A w) as [x1 x2]. destruct Hc as [-> |[-> _]], Hk as [-> | ->]; cbn [Nat.eqb Cplus fst snd].
      * eapply is_derive_ext; [|apply (d_norm1 a1 a2 (x1 * a1 + x2 * a2) x1 P)]. intros t. cbv beta. rewrite !Rplus_0_r. f_equal. ring.
      * replace (x2 * a2 + x1 * a1) with (x1 * a1 + x2 * a2) by ring. eapply is_derive_ext; [|apply (d_norm2 a1 a2 (x1 * a1 + x2 * a2) x2 P)]. intros t. cbv beta. rewrite !Rplus_0_r. f_equal. ring.
      * eapply is_derive_ext; [|apply (d_norm1 a1 a2 (x2 * a1 - x1 * a2) x2 P)]. intros t. cbv beta. rewrite !Rplus_0_r. f_equal. ring.
      * eapply is_derive_ext; [|apply (d_norm2 a1 a2 (x2 * a1 - x1 * a2) (- x1) P)]. intros t. cbv beta. rewrite !Rplus_0_r. f_equal. ring.
  - replace (Nat.eqb a u) with false by (symmetry; apply Nat.eqb_neq; auto). rewrite EA. destruct (Nat.eqb_spec w u) as [-> |Hw].
    + destruct (A u) as [x1 x2]. destruct Hc as [-> |[-> _]], Hk as [-> | ->]; cbn [Nat.eqb Cplus fst snd].
      * eapply is_derive_ext; [|apply (d_lin (x1 * a1 + x2 * a2) a1)]. intros t. cbv beta. f_equal. ring.
      * eapply is_derive_ext; [|apply (d_lin (x1 * a1 + x2 * a2) a2)]. intros t. cbv beta. f_equal. ring.
      * eapply is_derive_ext; [|apply (d_lin (x2 * a1 - x1 * a2) (- a2))]. intros t. cbv beta. f_equal. ring.
      * eapply is_derive_ext; [|apply (d_lin (x2 * a1 - x1 * a2) a1)]. intros t. cbv beta. f_equal. ring.
    + destruct e; apply (is_derive_const (K := R_AbsRing) (V := R_NormedModule)).
Qed.
