(* C85: a concrete case, and what the code does not guarantee. *)
From Coq Require Import String List Reals Sorted Lra Lia Bool Arith.
From Coquelicot Require Import Complex.
From Verif Require Import PhysModel PhaseProofs PhaseProofs3 MassDepModel PsIntModel PsIntSpec PsIntProofs PsIntProofs2 PsIntProofs3 PsIntProofs4 PsIntProps PsIntProps2.
Import ListNotations.
Open Scope R_scope.

(* all events have weight 1 and amplitude M: the integral is M^2 *)
Definition demoDraw : drawing := fun _ M _ => (1, (M, 0)).
Definition thr0 : string -> R := fun _ => 0.
Definition h0 : list op := [ODir "d"; OUpper 50].
Definition s0 : state := setUpperMassBound 50 (setDirectory "d" start).
Definition v1 : vertex := Vertex 1 "a" 0 (9 / 4) (1 / 2) 1.
Definition v2 : vertex := Vertex 2 "a" 0 (9 / 4) (5 / 2) 1.
Definition v3 : vertex := Vertex 3 "a" 0 (9 / 4) (7 / 2) 1.

Lemma measured_const draw name p z : (forall k, draw name (pM p) k = (1, z)) -> measured draw name p -> pInt p = (Cmod z) ^ 2 /\ pErr p = 0.
Proof.
  intros Hd [pos [n [Hn [H1 H2]]]].
  assert (N2 : (2 <= n)%nat) by (destruct Hn as [E|E]; rewrite E; lia). clear Hn.
  assert (Pn : 2 <= INR n) by (apply le_INR in N2; simpl in N2; lra).
  assert (Hs : forall x, In x (samplesAt draw name (pM p) pos n) -> x = (Cmod z) ^ 2).
  { intros x Hx. unfold samplesAt in Hx. apply in_map_iff in Hx. destruct Hx as [k [E _]]. rewrite Hd in E. rewrite <- E. ring. }
  assert (Ls : length (samplesAt draw name (pM p) pos n) = n) by (unfold samplesAt; rewrite map_length, seq_length; reflexivity).
  set (s := samplesAt draw name (pM p) pos n) in *.
  assert (Ht : total s = INR n * (Cmod z) ^ 2).
  { rewrite <- (map_id s). rewrite (total_const R (fun x => x) ((Cmod z) ^ 2)) by (intros x Hx; apply Hs; exact Hx). rewrite Ls. reflexivity. }
  assert (Ei : pInt p = (Cmod z) ^ 2) by (apply (Rmult_eq_reg_l (INR n)); lra).
  split; [exact Ei|]. rewrite H2. rewrite (total_const R (fun x => (x - pInt p) ^ 2) 0) by (intros x Hx; rewrite (Hs x Hx), Ei; ring).
  replace (INR (length s) * 0 / (INR n * (INR n - 1))) with 0 by (field; lra). apply sqrt_0.
Qed.
Lemma demo_values name t p : goodTable demoDraw name 0 t -> In p t -> pInt p = (pM p) ^ 2.
Proof.
  intros [_ [r [E F]]] Hp. rewrite E in Hp. destruct Hp as [<-|Hp]; [cbn; ring|]. rewrite Forall_forall in F.
  destruct (measured_const demoDraw name p (pM p, 0) (fun k => eq_refl) (F p Hp)) as [K _]. rewrite K.
  unfold Cmod. cbn [fst snd]. rewrite pow2_sqrt by nra. ring.
Qed.
Lemma consec_masses t l a b r : map pM t = l ++ a :: b :: r -> exists p q, consecutive p q t /\ pM p = a /\ pM q = b.
Proof.
  intros E. apply map_eq_app in E. destruct E as [l' [t' [E1 [E2 E3]]]].
  destruct t' as [|p [|q t']]; cbn in E3; try discriminate. injection E3 as H1 H2 _.
  exists p, q. split; [exists l', t'; exact E1|]. split; assumption.
Qed.
Lemma newMasses_consec thr upper M0 k : (k < 50)%nat -> ~ (grid thr upper k < M0 < grid thr upper (S k)) ->
  exists l r, newMasses thr upper M0 = l ++ grid thr upper k :: grid thr upper (S k) :: r.
Proof.
  intros Hk Hn. rewrite newMasses_eq.
  assert (Es : seq 1 50 = seq 1 k ++ S k :: seq (S (S k)) (49 - k)).
  { replace 50%nat with (k + (S (49 - k)))%nat by lia. rewrite seq_app. reflexivity. }
  rewrite Es, flat_map_app. cbn [flat_map].
  assert (Eg : gridF thr upper M0 (S k) = [grid thr upper (S k)]).
  { unfold gridF. replace (S k - 1)%nat with k by lia. destruct (Rlt_dec (grid thr upper k) M0); [destruct (Rlt_dec M0 (grid thr upper (S k)))|]; try reflexivity. lra. }
  rewrite Eg. destruct k as [|k].
  - exists [], (flat_map (gridF thr upper M0) (seq 2 49)). cbn [seq flat_map app Nat.sub]. f_equal. unfold grid. simpl. lra.
  - replace (seq 1 (S k)) with (seq 1 k ++ [S k]) by (rewrite <- seq_S; reflexivity). rewrite flat_map_app. cbn [flat_map]. unfold gridF at 2. rewrite app_nil_r.
    exists (thr :: flat_map (gridF thr upper M0) (seq 1 k) ++ (if Rlt_dec (grid thr upper (S k - 1)) M0 then if Rlt_dec M0 (grid thr upper (S k)) then [M0] else [] else [])),
      (flat_map (gridF thr upper M0) (seq (S (S (S k))) (49 - S k))).
    cbn [app]. rewrite <- !app_assoc. reflexivity.
Qed.
Lemma between_node t p q : sorted t -> In p t -> In q t -> pM p < pM q -> between t (pM p) (pInt p).
Proof.
  intros Hs Hp Hq Hlt. apply in_split in Hp. destruct Hp as [l [r E]]. destruct r as [|x r].
  - exfalso. subst t. apply in_app_or in Hq. destruct Hq as [Hq|[Hq|[]]]; [pose proof (sorted_last _ _ Hs q Hq); lra|subst; lra].
  - exists p, x. split; [exists l, r; exact E|]. subst t. change (l ++ p :: x :: r) with (l ++ (p :: x :: r)) in Hs. apply sorted_app in Hs. destruct Hs as [_ [Hs _]].
    apply sorted_cons in Hs. destruct Hs as [_ Hf]. inversion Hf; subst. split; [lra|ring].
Qed.
Lemma refined_consec p q x a b : consecutive p q (a ++ b) -> sorted (a ++ b) -> sorted (a ++ x :: b) -> pM p < pM x < pM q -> consecutive p x (a ++ x :: b).
Proof.
  intros [l [r E]] Hs0 Hs Hlt.
  assert (Hpq : pM p < pM q) by lra.
  pose proof Hs as Hs1. apply sorted_app in Hs1. destruct Hs1 as [_ [Hb Ha]]. apply sorted_cons in Hb. destruct Hb as [_ Hb]. rewrite Forall_forall in Hb.
  assert (Pa : In p a).
  { assert (K : In p (a ++ b)) by (rewrite E; apply in_or_app; right; left; reflexivity). apply in_app_or in K. destruct K as [K|K]; [exact K|]. pose proof (Hb p K). lra. }
  assert (Qb : In q b).
  { assert (K : In q (a ++ b)) by (rewrite E; apply in_or_app; right; right; left; reflexivity). apply in_app_or in K. destruct K as [K|K]; [|exact K]. pose proof (Ha q x K (or_introl eq_refl)). lra. }
  apply in_split in Pa. destruct Pa as [a1 [a2 Ea]]. subst a.
  rewrite <- app_assoc in E. cbn [app] in E.
  assert (K : a1 = l /\ a2 ++ b = q :: r).
  { clear Hs Ha Hb Qb Hlt. rewrite <- app_assoc in Hs0. cbn [app] in Hs0. rewrite E in Hs0. revert a1 E Hs0. induction l as [|y l IH]; intros a1 E Hs0.
    - destruct a1 as [|z a1]; cbn in E; [injection E as E; split; [reflexivity|exact E]|]. exfalso. injection E as Ez E.
      cbn in Hs0. apply sorted_cons in Hs0. destruct Hs0 as [_ Hf]. rewrite Forall_forall in Hf. assert (In p (q :: r)) by (rewrite <- E; apply in_or_app; right; left; reflexivity). pose proof (Hf p H). lra.
    - cbn in Hs0. apply sorted_cons in Hs0. destruct Hs0 as [Hs0 Hf]. rewrite Forall_forall in Hf. destruct a1 as [|z a1]; cbn in E.
      + injection E as Ez E. subst y. assert (In p (l ++ p :: q :: r)) by (apply in_or_app; right; left; reflexivity). pose proof (Hf p H). lra.
      + injection E as Ez E. subst z. destruct (IH a1 E Hs0) as [K1 K2]. subst. split; [reflexivity|exact K2]. }
  destruct K as [K1 K2]. subst a1. destruct a2 as [|y a2].
  - exists l, b. rewrite <- app_assoc. reflexivity.
  - exfalso. cbn in K2. injection K2 as -> _. assert (In q (l ++ p :: q :: a2)) by (apply in_or_app; right; right; left; reflexivity). pose proof (Ha q x H (or_introl eq_refl)). lra.
Qed.
Lemma bw_exists M M0 G y y0 : y0 <> 0 -> M0 * M0 <> M * M -> exists z, isBW M M0 G y y0 z.
Proof.
  intros Hy HM. set (den := (RtoC (M0 * M0 - M * M) - Ci * RtoC (M0 * (G * (y / y0))))%C).
  assert (Hden : den <> RtoC 0).
  { intros K. unfold den in K. unfold RtoC, Ci, Cminus, Cplus, Copp, Cmult in K. cbn [fst snd] in K. injection K as K1 K2. lra. }
  exists (RtoC (M0 * G) / den)%C. split; [exact Hy|]. split; [exact Hden|]. fold den. field. exact Hden.
Qed.
Lemma bw_differ M M0 G y y0 y' y0' z z' : M0 * G <> 0 -> y / y0 <> y' / y0' -> isBW M M0 G y y0 z -> isBW M M0 G y' y0' z' -> z <> z'.
Proof.
  intros Hg Hd [_ [_ H1]] [_ [_ H2]] E. subst z'. destruct z as [x w]. unfold RtoC, Ci, Cminus, Cplus, Copp, Cmult in H1, H2. cbn [fst snd] in H1, H2.
  injection H1 as A1 A2. injection H2 as B1 B2. set (d := y / y0) in *. set (d' := y' / y0') in *. set (A := M0 * G) in *.
  assert (K1 : w * A * (d - d') = 0) by (unfold A in *; lra). assert (K2 : x * A * (d - d') = 0) by (unfold A in *; lra).
  assert (w = 0) by (apply Rmult_integral in K1; destruct K1 as [K1|K1]; [apply Rmult_integral in K1; destruct K1; [assumption|contradiction]|lra]).
  assert (x = 0) by (apply Rmult_integral in K2; destruct K2 as [K2|K2]; [apply Rmult_integral in K2; destruct K2; [assumption|contradiction]|lra]).
  subst. unfold A in *. lra.
Qed.
Lemma answer_some t t' M M0 G y y0 bw : isAnswer t t' M M0 G bw -> between t M y -> between t' M0 y0 -> y0 <> 0 -> M0 * M0 <> M * M -> exists z, bw = Some z /\ isBW M M0 G y y0 z.
Proof.
  intros H B1 B2 Hy HM. destruct (bw_exists M M0 G y y0 Hy HM) as [z Hz]. exists z. split; [|exact Hz]. apply H. exists y, y0. repeat split; try assumption; apply Hz.
Qed.

(* the histories of the case *)
Definition calls (l : list vertex) : list op := h0 ++ map OCall l.
Lemma demo_thr l : (forall v, In v l -> vThr v = 0) -> thresholds thr0 (calls l).
Proof.
  intros H v Hv. unfold calls, h0 in Hv. destruct Hv as [Hv|[Hv|Hv]]; try discriminate. apply in_map_iff in Hv. destruct Hv as [w [E Hw]]. injection E as ->. unfold thr0. apply H. exact Hw.
Qed.
Lemma demo_stable l : (forall v, In v l -> vName v = "a"%string) -> stableNames (calls l).
Proof.
  intros H pre a mid b post E _ _ _.
  assert (N : forall v, In (OCall v) (calls l) -> vName v = "a"%string).
  { intros v Hv. unfold calls, h0 in Hv. destruct Hv as [Hv|[Hv|Hv]]; try discriminate. apply in_map_iff in Hv. destruct Hv as [w [E2 Hw]]. injection E2 as ->. apply H. exact Hw. }
  rewrite (N a), (N b); [reflexivity| |]; rewrite E; apply in_or_app; right; [right; apply in_or_app; right; left; reflexivity|left; reflexivity].
Qed.
Definition demoV (v : vertex) : Prop := vThr v = 0 /\ vName v = "a"%string.
Lemma demo_reached fuel l s : (forall v, In v l -> demoV v) -> run fuel demoDraw (calls l) start = Some s -> reached fuel demoDraw thr0 (calls l) s.
Proof. intros H E. split; [exact E|]. split; [apply demo_thr|apply demo_stable]; intros v Hv; apply (H v Hv). Qed.
Lemma demo_next fuel l s v : (forall w, In w l -> demoV w) -> demoV v -> run fuel demoDraw (calls l) start = Some s -> forall bw s', call fuel demoDraw v s = Some (bw, s') ->
  run fuel demoDraw (calls (l ++ [v])) start = Some s' /\ (forall w, In w (l ++ [v]) -> demoV w).
Proof.
  intros H Hv E bw s' Ec. split.
  - unfold calls in *. rewrite map_app, app_assoc, run_app, E. cbn [map run step]. rewrite Ec. reflexivity.
  - intros w Hw. apply in_app_or in Hw. destruct Hw as [Hw|[Hw|[]]]; [apply H; exact Hw|subst; exact Hv].
Qed.
Lemma demo_snoc l v : (forall w, In w l -> demoV w) -> demoV v -> thresholds thr0 (calls l ++ [OCall v]) /\ stableNames (calls l ++ [OCall v]).
Proof.
  intros H Hv. assert (E : calls l ++ [OCall v] = calls (l ++ [v])) by (unfold calls; rewrite map_app, app_assoc; reflexivity). rewrite E.
  assert (K : forall w, In w (l ++ [v]) -> demoV w) by (intros w Hw; apply in_app_or in Hw; destruct Hw as [Hw|[Hw|[]]]; [apply H; exact Hw|subst; exact Hv]).
  split; [apply demo_thr|apply demo_stable]; intros w Hw; apply (K w Hw).
Qed.
Lemma run_h0 fuel : run fuel demoDraw (calls []) start = Some s0.
Proof. reflexivity. Qed.
(* the first call *)
Lemma demo1 : exists b1 s1 t, call 50 demoDraw v1 s0 = Some (b1, s1) /\ sDisk s1 ("d", "a")%string <> None /\ tableKnown s1 v1 t /\ goodTable demoDraw "a" 0 t /\
  map pM t = newMasses 0 50 (1 / 2) /\ isAnswer t t (9 / 4) (1 / 2) 1 b1.
Proof.
  assert (D0 : forall w, In w (@nil vertex) -> demoV w) by (intros w []). assert (D1 : demoV v1) by (split; reflexivity).
  pose proof (demo_reached 50 [] s0 D0 (run_h0 50)) as R0. destruct (demo_snoc [] v1 D0 D1) as [T1 W1].
  destruct (C85_new_table 50 demoDraw thr0 (calls []) s0 v1 R0 T1 W1) as [bw [s' [t [g [E1 [E2 [E3 [E4 [E5 E6]]]]]]]]]; try reflexivity; try discriminate; try lia; cbn [vThr vM0 v1 sUpper s0 setUpperMassBound]; try lra.
  exists bw, s', t. split; [exact E1|]. split; [cbn [sDir s0 setUpperMassBound setDirectory vName v1] in E2; rewrite E2; discriminate|]. split; [|split; [exact E5|split; [exact E3|exact E6]]].
  destruct (demo_next 50 [] s0 v1 D0 D1 (run_h0 50) bw s' E1) as [R1 D1'].
  pose proof (demo_reached 50 ([] ++ [v1]) s' D1' R1) as RR.
  destruct (C85_known_after_call 50 demoDraw thr0 _ _ _ _ _ R0 T1 W1 E1) as [t' [K _]].
  assert (t' = t); [|subst; exact K].
  unfold tableKnown in K. destruct (findCont (vName v1) (sConts s')) as [c|] eqn:Ec.
  - destruct (C85_memory_is_file _ _ _ _ _ RR _ _ Ec) as [M1 [M2 [g' M3]]]. subst t'.
    assert (Hp : cPath c = (sDir s0, vName v1)).
    { destruct RR as [RR _]. destruct (run_dir 50 demoDraw thr0 (calls ([] ++ [v1])) "d" (demo_thr _ (fun v Hv => proj1 (D1' v Hv)))) with (s := s') as [_ Q]; [|exact RR|].
      - intros d Hd. unfold calls, h0 in Hd. destruct Hd as [Hd|[Hd|Hd]]; try congruence. apply in_map_iff in Hd. destruct Hd as [w [Q _]]. discriminate.
      - specialize (Q _ _ Ec). destruct (cPath c) as [x y]. cbn in *. subst. reflexivity. }
    rewrite Hp, E2 in M3. congruence.
  - destruct K as [g' K]. change (sDir s') with (sDir s') in K.
    assert (sDir s' = sDir s0).
    { destruct (reached_inv _ _ _ _ _ R0) as [Hi _]. destruct (call_ok _ _ _ _ _ _ _ Hi (eq_refl : vThr v1 = thr0 (vName v1)) E1) as [n [t0 [c [_ [_ [_ [_ [Q _]]]]]]]]. exact Q. }
    rewrite H, E2 in K. congruence.
Qed.
Lemma demoV1 : demoV v1. Proof. split; reflexivity. Qed.
Lemma demoV2 : demoV v2. Proof. split; reflexivity. Qed.
Lemma demoV3 : demoV v3. Proof. split; reflexivity. Qed.
Lemma grid050 k : grid 0 50 k = INR k.
Proof. unfold grid. field. Qed.
(* the points 2 and 3 are neighbours in the first table, and 0 and 1/2 *)
Lemma demo_23 t : map pM t = newMasses 0 50 (1 / 2) -> exists p q, consecutive p q t /\ pM p = 2 /\ pM q = 3.
Proof.
  intros E. destruct (newMasses_consec 0 50 (1 / 2) 2) as [l [r K]]; [lia|rewrite !grid050; simpl; lra|]. rewrite K, !grid050 in E.
  destruct (consec_masses _ _ _ _ _ E) as [p [q [H1 [H2 H3]]]]. exists p, q. split; [exact H1|]. simpl in H2, H3. split; lra.
Qed.
Lemma demo_half t : map pM t = newMasses 0 50 (1 / 2) -> exists p, In p t /\ pM p = 1 / 2.
Proof. intros E. assert (K : In (1 / 2) (map pM t)) by (rewrite E; apply newMasses_M0; lra). apply in_map_iff in K. destruct K as [p [K1 K2]]. exists p. split; assumption. Qed.
Lemma cons_in p q t : consecutive p q t -> In p t /\ In q t.
Proof. intros [l [r E]]. subst. split; apply in_or_app; right; [left|right; left]; reflexivity. Qed.
Lemma demo_chord t p q : goodTable demoDraw "a" 0 t -> consecutive p q t -> pM p = 2 -> 9 / 4 < pM q -> between t (9 / 4) (4 + (pM q + 2) / 4).
Proof.
  intros Hg Hc E2 E3. destruct (cons_in _ _ _ Hc) as [I1 I2]. exists p, q. split; [exact Hc|]. split; [lra|].
  rewrite (demo_values "a" t p Hg I1), (demo_values "a" t q Hg I2), E2. field.
Qed.
Lemma demo_at t p M : goodTable demoDraw "a" 0 t -> In p t -> pM p = M -> M < 3 -> (exists q, In q t /\ pM q = 3) -> between t M (M ^ 2).
Proof.
  intros Hg Hp E Hlt [q [Hq E3]]. pose proof (proj1 Hg) as Hs. rewrite <- E, <- (demo_values "a" t p Hg Hp). apply (between_node t p q Hs Hp Hq). lra.
Qed.
Lemma known_for draw s v t t0 : tableKnown s v t -> tableFor draw s (vName v) v t0 -> t0 = t.
Proof.
  unfold tableKnown, tableFor. destruct (findCont (vName v) (sConts s)); [congruence|]. intros [g E] H. rewrite E in H. destruct H as [g' H]. congruence.
Qed.
Lemma known_v s v w t : vName v = vName w -> tableKnown s v t -> tableKnown s w t.
Proof. intros E. unfold tableKnown. rewrite E. tauto. Qed.
(* a call of v2 or v3 after that of v1 *)
Lemma demo2 v m s1 t : demoV v -> vM v = 9 / 4 -> vM0 v = m -> vGamma v = 1 -> 2 < m < 50 -> m <> 3 -> ~ inTable t m ->
  inv demoDraw thr0 s1 -> (findName (vAddr v) (sNames s1) = None \/ findName (vAddr v) (sNames s1) = Some "a"%string) ->
  (exists c, findCont "a" (sConts s1) = Some c /\ cTab c = t /\ cName c = "a"%string /\ cPath c = ("d", "a")%string) -> goodTable demoDraw "a" 0 t -> map pM t = newMasses 0 50 (1 / 2) ->
  exists b2 s2 t2 c2, call 50 demoDraw v s1 = Some (b2, s2) /\ findCont "a" (sConts s2) = Some c2 /\ cTab c2 = t2 /\ goodTable demoDraw "a" 0 t2 /\
    isAnswer t t2 (9 / 4) m 1 b2 /\ refined demoDraw "a" m t t2 /\ (exists p, In p t2 /\ pM p = m) /\ sDisk s2 ("d", "a")%string = Some (fileOf c2) /\ (forall q, In q t -> In q t2).
Proof.
  intros [Dv1 Dv2] EM EM0 EG Hm Hm3 Hni Hi Hnm [c [Hc [Ec1 [Ec2 Ec3]]]] Hg Hmap.
  assert (Hn : findName (vAddr v) (sNames s1) = Some "a"%string \/ (findName (vAddr v) (sNames s1) = None /\ "a"%string = vName v)) by (destruct Hnm as [K|K]; [right; split; [exact K|symmetry; exact Dv2]|left; exact K]).
  destruct (lastMass_new _ _ _ _ Hmap) as [Hfm Hlm].
  assert (Htot : call 50 demoDraw v s1 <> None).
  { apply (call_total 50 demoDraw thr0 s1 v "a"); [exact Hi|rewrite Dv1; reflexivity|lia|exact Hn|left; congruence|].
    intros t' HT. unfold tableFor in HT. rewrite Hc in HT. subst t'. rewrite Ec1, Hfm, Hlm, EM0. lra. }
  destruct (call 50 demoDraw v s1) as [[b2 s2]|] eqn:E; [|congruence].
  destruct (call_ok _ _ _ _ _ _ _ Hi (eq_trans Dv1 eq_refl : vThr v = thr0 (vName v)) E) as [n [t0 [c2 [E1 [E1' [_ [E3 [_ [_ [HT [Ha [Hin [[Hgc _] [_ [_ [Hcmp [Hcase [_ [_ [_ Hsub]]]]]]]]]]]]]]]]]]]].
  assert (En : n = "a"%string) by (destruct E1' as [K|[_ K]]; [destruct Hnm; congruence|congruence]). subst n.
  unfold tableFor in HT. rewrite Hc in HT. subst t0. rewrite EM, EM0, EG, ?Ec1 in *.
  destruct Hcase as [[c0 [F1 [F2 [F3 [F4 [_ F5]]]]]]|[F1 _]]; [|congruence]. rewrite Hc in F1. injection F1 as <-. rewrite F3, Ec2 in *.
  change (thr0 "a") with 0 in *.
  exists b2, s2, (cTab c2), c2. split; [reflexivity|]. split; [rewrite E3, findCont_set, String.eqb_refl; reflexivity|]. split; [reflexivity|].
  split; [exact Hgc|]. split; [exact Ha|]. destruct Hcmp as [K|[_ K]]; [exfalso; apply Hni; rewrite <- K; exact Hin|].
  split; [exact K|]. split; [destruct K as [a [p [b [_ [K2 [K3 _]]]]]]; exists p; split; [rewrite K2; apply in_or_app; right; left; reflexivity|exact K3]|].
  split; [rewrite <- (F5 Hni), F4, Ec3; reflexivity|exact Hsub].
Qed.
Lemma not_in_grid t m : map pM t = newMasses 0 50 (1 / 2) -> m = 5 / 2 \/ m = 7 / 2 -> ~ inTable t m.
Proof.
  intros E Hm [p [Hp Hc]]. assert (K : In (pM p) (newMasses 0 50 (1 / 2))) by (rewrite <- E; apply in_map; exact Hp).
  assert (G : forall x, In x (newMasses 0 50 (1 / 2)) -> x = 1 / 2 \/ exists k, x = INR k).
  { intros x Hx. rewrite newMasses_eq in Hx. destruct Hx as [Hx|Hx]; [right; exists 0%nat; simpl; lra|]. apply in_flat_map in Hx. destruct Hx as [k [_ Hx]].
    unfold gridF in Hx. apply in_app_or in Hx. destruct Hx as [Hx|[Hx|[]]]; [|right; exists k; rewrite <- Hx; apply grid050].
    left. destruct (Rlt_dec _ _) in Hx; [destruct (Rlt_dec _ _) in Hx|]; cbn in Hx; tauto || (destruct Hx as [Hx|[]]; lra). }
  destruct (G _ K) as [Q|[k Q]]; rewrite Q in Hc; unfold Rabs in Hc; [destruct (Rcase_abs _) in Hc; destruct Hm; lra|].
  assert (k <= 2 \/ k = 3 \/ 4 <= k)%nat by lia. destruct H as [H|[H|H]].
  - apply le_INR in H. simpl in H. destruct (Rcase_abs _) in Hc; destruct Hm; lra.
  - subst k. simpl in Hc. destruct (Rcase_abs _) in Hc; destruct Hm; lra.
  - apply le_INR in H. simpl in H. destruct (Rcase_abs _) in Hc; destruct Hm; lra.
Qed.
(* the state after the first call *)
Lemma demo1_state : exists b1 s1 t c, call 50 demoDraw v1 s0 = Some (b1, s1) /\ run 50 demoDraw (calls [v1]) start = Some s1 /\ findCont "a" (sConts s1) = Some c /\ cTab c = t /\ cName c = "a"%string /\ cPath c = ("d", "a")%string /\
  sNames s1 = [(1%nat, "a"%string)] /\ goodTable demoDraw "a" 0 t /\ map pM t = newMasses 0 50 (1 / 2) /\ isAnswer t t (9 / 4) (1 / 2) 1 b1 /\ inv demoDraw thr0 s1 /\ sDir s1 = "d"%string /\ sUpper s1 = 50 /\ sDisk s1 ("d", "b")%string = None.
Proof.
  destruct demo1 as [b1 [s1 [t [E1 [E2 [E3 [E4 [E5 E6]]]]]]]].
  destruct (demo_next 50 [] s0 v1 (fun w (H : In w []) => match H with end) demoV1 (run_h0 50) b1 s1 E1) as [R1 D1].
  pose proof (demo_reached 50 [v1] s1 D1 R1) as RR. destruct (reached_inv _ _ _ _ _ RR) as [Hi [Hm _]].
  pose proof (demo_reached 50 [] s0 (fun w (H : In w []) => match H with end) (run_h0 50)) as R0. destruct (reached_inv _ _ _ _ _ R0) as [Hi0 _].
  destruct (call_ok _ _ _ _ _ _ _ Hi0 (eq_refl : vThr v1 = thr0 (vName v1)) E1) as [n [t0 [c [A1 [A2 [A3 [A4 [A5 [A6 [_ [_ [_ [_ [_ [A8 [_ [A7 _]]]]]]]]]]]]]]]]].
  assert (En : n = "a"%string) by (destruct A2 as [K|[_ K]]; [discriminate|exact K]). subst n.
  assert (Hf : findCont "a" (sConts s1) = Some c) by (rewrite A4, findCont_set, String.eqb_refl; reflexivity).
  exists b1, s1, t, c. split; [exact E1|]. split; [exact R1|]. split; [exact Hf|].
  split; [unfold tableKnown in E3; change (vName v1) with "a"%string in E3; rewrite Hf in E3; symmetry; exact E3|].
  destruct A7 as [[c0 [K _]]|[_ [K1 [K2 _]]]]; [discriminate|].
  split; [exact K1|]. split; [exact K2|]. split; [destruct A3 as [K|[_ K]]; [rewrite K in A1; discriminate|exact K]|].
  split; [exact E4|]. split; [exact E5|]. split; [exact E6|]. split; [exact Hi|]. split; [exact A5|]. split; [exact A6|].
  destruct (sDisk s1 ("d", "b")%string) as [f|] eqn:Ef; [|reflexivity]. exfalso. assert (Q : ("d", "b")%string = cPath c) by (apply A8; [intros [g Q]; discriminate|congruence]). rewrite K2 in Q. discriminate.
Qed.
Lemma refined_ok t t2 m : goodTable demoDraw "a" 0 t -> goodTable demoDraw "a" 0 t2 -> map pM t = newMasses 0 50 (1 / 2) -> refined demoDraw "a" m t t2 -> 9 / 4 < m < 3 ->
  between t (9 / 4) (21 / 4) /\ between t2 (9 / 4) (4 + (m + 2) / 4) /\ (exists q, In q t2 /\ pM q = 3).
Proof.
  intros Hg Hg2 Hmap [a [p [b [E [E2 [Ep _]]]]]] Hm. destruct (demo_23 t Hmap) as [x [y [Hc [Ex Ey]]]]. destruct (cons_in _ _ _ Hc) as [I1 I2].
  split; [replace (21 / 4) with (4 + (pM y + 2) / 4) by (rewrite Ey; field); apply (demo_chord t x y Hg Hc Ex); lra|].
  pose proof (proj1 Hg) as Hs. pose proof (proj1 Hg2) as Hs2. rewrite E in Hc, Hs. rewrite E2 in Hs2.
  pose proof (refined_consec x y p a b Hc Hs Hs2 ltac:(lra)) as Hc2. rewrite <- E2 in Hc2.
  split; [rewrite <- Ep; apply (demo_chord t2 x p Hg2 Hc2 Ex); lra|].
  exists y. split; [|exact Ey]. rewrite E2. rewrite E in I2. apply in_app_or in I2. apply in_or_app. destruct I2; [left|right; right]; assumption.
Qed.

(* the first answer for a resonance whose mass is not yet in the table differs from the second one *)
Theorem C85_same_call_same_answer_refuted : exists h s z1 s1 z2 s2, reached 50 demoDraw thr0 h s /\
  call 50 demoDraw v2 s = Some (Some z1, s1) /\ call 50 demoDraw v2 s1 = Some (Some z2, s2) /\ z1 <> z2.
Proof.
  destruct demo1_state as [b1 [s1 [t [c [E1 [R1 [Hc [Ec [En [Ep [Enm [Hg [Hmap [Ha1 [Hi [_ [_ _]]]]]]]]]]]]]]]]].
  assert (D1 : forall w, In w [v1] -> demoV w) by (intros w [<-|[]]; apply demoV1).
  destruct (demo2 v2 (5 / 2) s1 t demoV2 eq_refl eq_refl eq_refl ltac:(lra) ltac:(lra) (not_in_grid t _ Hmap (or_introl eq_refl)) Hi) as [b2 [s2 [t2 [c2 [F1 [F2 [F3 [F4 [F5 [F6 [[p [F7 F8]] [_ _]]]]]]]]]]]]; try assumption.
  { left. rewrite Enm. reflexivity. }
  { exists c. repeat split; assumption. }
  destruct (refined_ok t t2 (5 / 2) Hg F4 Hmap F6 ltac:(lra)) as [B1 [B2 B3]].
  destruct (demo_next 50 [v1] s1 v2 D1 demoV2 R1 b2 s2 F1) as [R2 D2]. cbn [app] in R2, D2.
  pose proof (demo_reached 50 [v1; v2] s2 D2 R2) as RR2. destruct (demo_snoc [v1; v2] v2 D2 demoV2) as [T2 W2].
  assert (HK : tableKnown s2 v2 t2) by (unfold tableKnown; change (vName v2) with "a"%string; rewrite F2; symmetry; exact F3).
  assert (Hin : inTable t2 (vM0 v2)) by (cbn [vM0 v2]; rewrite <- F8; apply inTable_self; exact F7).
  pose proof (demo_at t2 p (5 / 2) F4 F7 F8 ltac:(lra) B3) as B4.
  assert (Htot : call 50 demoDraw v2 s2 <> None).
  { apply (C85_total 50 demoDraw thr0 (calls [v1; v2])); try assumption; try lia; [left; change (vName v2) with "a"%string; congruence|].
    intros t' HT. rewrite (known_for _ _ _ _ _ HK HT). pose proof (proj1 F4) as Hs. destruct (good_sorted _ _ _ _ F4) as [_ Hne].
    assert (K : firstMass t2 <= 5 / 2 < lastMass t2) by (apply (between_domain t2 (5 / 2) Hs Hne); eexists; exact B4). cbn [vM0 v2]. lra. }
  destruct (call 50 demoDraw v2 s2) as [[b3 s3]|] eqn:E3; [|congruence].
  destruct (known_call _ _ _ _ _ _ _ _ _ RR2 T2 W2 E3 HK Hin) as [A3 _]. cbn [vM vM0 vGamma v2] in A3.
  destruct (answer_some _ _ _ _ _ _ _ _ F5 B1 B4 ltac:(lra) ltac:(lra)) as [z1 [Z1 Y1]].
  destruct (answer_some _ _ _ _ _ _ _ _ A3 B2 B4 ltac:(lra) ltac:(lra)) as [z2 [Z2 Y2]].
  exists (calls [v1]), s1, z1, s2, z2, s3. split; [apply (demo_reached 50 [v1] s1 D1 R1)|]. split; [congruence|]. split; [congruence|].
  assert (Kd : 21 / 4 / (5 / 2) ^ 2 <> (4 + (5 / 2 + 2) / 4) / (5 / 2) ^ 2) by lra.
  apply (bw_differ (9 / 4) (5 / 2) 1 _ _ _ _ z1 z2 ltac:(lra) Kd Y1 Y2).
Qed.
(* the answer for one resonance changes when another one with the same quantum numbers is asked for *)
Theorem C85_other_resonance_refuted : exists h s z1 s1 b2 s2 z3 s3, reached 50 demoDraw thr0 h s /\
  call 50 demoDraw v1 s = Some (Some z1, s1) /\ call 50 demoDraw v2 s1 = Some (b2, s2) /\ call 50 demoDraw v1 s2 = Some (Some z3, s3) /\ z1 <> z3.
Proof.
  destruct demo1_state as [b1 [s1 [t [c [E1 [R1 [Hc [Ec [En [Ep [Enm [Hg [Hmap [Ha1 [Hi [_ [_ _]]]]]]]]]]]]]]]]].
  assert (D1 : forall w, In w [v1] -> demoV w) by (intros w [<-|[]]; apply demoV1).
  destruct (demo2 v2 (5 / 2) s1 t demoV2 eq_refl eq_refl eq_refl ltac:(lra) ltac:(lra) (not_in_grid t _ Hmap (or_introl eq_refl)) Hi) as [b2 [s2 [t2 [c2 [F1 [F2 [F3 [F4 [F5 [F6 [[p [F7 F8]] [_ Hsub]]]]]]]]]]]]; try assumption.
  { left. rewrite Enm. reflexivity. }
  { exists c. repeat split; assumption. }
  destruct (refined_ok t t2 (5 / 2) Hg F4 Hmap F6 ltac:(lra)) as [B1 [B2 B3]].
  destruct (demo_next 50 [v1] s1 v2 D1 demoV2 R1 b2 s2 F1) as [R2 D2]. cbn [app] in R2, D2.
  pose proof (demo_reached 50 [v1; v2] s2 D2 R2) as RR2. destruct (demo_snoc [v1; v2] v1 D2 demoV1) as [T2 W2].
  assert (HK : tableKnown s2 v1 t2) by (unfold tableKnown; change (vName v1) with "a"%string; rewrite F2; symmetry; exact F3).
  destruct (demo_half t Hmap) as [ph [Ph1 Ph2]].
  assert (Hin : inTable t2 (vM0 v1)) by (cbn [vM0 v1]; rewrite <- Ph2; apply inTable_self; apply Hsub; exact Ph1).
  pose proof (demo_at t2 ph (1 / 2) F4 (Hsub _ Ph1) Ph2 ltac:(lra) B3) as B4.
  assert (B5 : between t (1 / 2) ((1 / 2) ^ 2)).
  { destruct (demo_23 t Hmap) as [x [y [Hcc [Ex Ey]]]]. destruct (cons_in _ _ _ Hcc) as [_ I2]. apply (demo_at t ph (1 / 2) Hg Ph1 Ph2 ltac:(lra)). exists y. split; assumption. }
  assert (Htot : call 50 demoDraw v1 s2 <> None).
  { apply (C85_total 50 demoDraw thr0 (calls [v1; v2])); try assumption; try lia; [left; change (vName v1) with "a"%string; congruence|].
    intros t' HT. rewrite (known_for _ _ _ _ _ HK HT). pose proof (proj1 F4) as Hs. destruct (good_sorted _ _ _ _ F4) as [_ Hne].
    assert (K : firstMass t2 <= 1 / 2 < lastMass t2) by (apply (between_domain t2 (1 / 2) Hs Hne); eexists; exact B4). cbn [vM0 v1]. lra. }
  destruct (call 50 demoDraw v1 s2) as [[b3 s3]|] eqn:E3; [|congruence].
  destruct (known_call _ _ _ _ _ _ _ _ _ RR2 T2 W2 E3 HK Hin) as [A3 _]. cbn [vM vM0 vGamma v1] in A3.
  destruct (answer_some _ _ _ _ _ _ _ _ Ha1 B1 B5 ltac:(lra) ltac:(lra)) as [z1 [Z1 Y1]].
  destruct (answer_some _ _ _ _ _ _ _ _ A3 B2 B4 ltac:(lra) ltac:(lra)) as [z3 [Z3 Y3]].
  exists (calls []), s0, z1, s1, b2, s2, z3, s3. split; [apply (demo_reached 50 [] s0); [intros w []|reflexivity]|]. split; [congruence|]. split; [exact F1|]. split; [congruence|].
  assert (Kd : 21 / 4 / (1 / 2) ^ 2 <> (4 + (5 / 2 + 2) / 4) / (1 / 2) ^ 2) by lra.
  apply (bw_differ (9 / 4) (1 / 2) 1 _ _ _ _ z1 z3 ltac:(lra) Kd Y1 Y3).
Qed.
