(* C85: the table of phase-space integrals behind the Breit-Wigner amplitude of resonances with unstable daughters. *)
From Coq Require Import String List Reals Sorted Lra Lia Bool Arith.
From Coquelicot Require Import Complex.
From Verif Require Import PhysModel PhaseProofs PhaseProofs3 MassDepModel PsIntModel PsIntSpec PsIntProofs PsIntProofs2 PsIntProofs3 PsIntProofs4.
Import ListNotations.
Open Scope R_scope.

(* ---- evaluation of one point: any number of at least two events ---- *)
Theorem C85_statistics : forall draw name M n pos, (2 <= n)%nat ->
  exists p, evalInt draw name M n pos = Some (p, (pos + n)%nat) /\ pM p = M /\
    let s := samplesAt draw name M pos n in
    INR n * pInt p = total s /\ (pErr p) ^ 2 * (INR n * (INR n - 1)) = total (map (fun x => (x - pInt p) ^ 2) s) /\ 0 <= pErr p /\
    ((forall k, 0 <= fst (draw name M k)) -> 0 <= pInt p) /\
    (pErr p = 0 <-> forall x, In x s -> x = pInt p).
Proof.
  intros draw name M n pos H2. destruct (evalInt_from draw name M n pos H2) as [p [E [Ep [Hi He]]]]. rewrite Ep in *.
  exists p. split; [exact E|]. split; [exact Ep|]. cbv zeta. set (s := samplesAt draw name M pos n) in *.
  assert (Pn : 2 <= INR n) by (apply le_INR in H2; simpl in H2; lra).
  assert (Hnn : forall l : list R, (forall x, In x l -> 0 <= x) -> 0 <= total l).
  { induction l as [|x l IH]; intros H; [cbn; lra|]. change (total (x :: l)) with (x + total l). pose proof (H x (or_introl eq_refl)). specialize (IH (fun y Hy => H y (or_intror Hy))). lra. }
  assert (Hz : forall l : list R, (forall x, In x l -> 0 <= x) -> total l = 0 -> forall x, In x l -> x = 0).
  { induction l as [|x l IH]; intros H H0 y Hy; [destruct Hy|]. change (total (x :: l)) with (x + total l) in H0.
    pose proof (H x (or_introl eq_refl)). pose proof (Hnn l (fun y Hy => H y (or_intror Hy))).
    destruct Hy as [K|K]; [lra|apply (IH (fun y Hy => H y (or_intror Hy)) ltac:(lra) y K)]. }
  set (q := total (map (fun x => (x - pInt p) ^ 2) s)) in *.
  assert (Hsq : forall x, In x (map (fun x => (x - pInt p) ^ 2) s) -> 0 <= x) by (intros x Hx; apply in_map_iff in Hx; destruct Hx as [y [<- _]]; apply pow2_ge_0).
  assert (Hq : 0 <= q) by (apply Hnn; exact Hsq).
  assert (Hd : 0 < INR n * (INR n - 1)) by nra.
  assert (Hqd : 0 <= q / (INR n * (INR n - 1))) by (apply Rmult_le_pos; [exact Hq|apply Rlt_le, Rinv_0_lt_compat; exact Hd]).
  split; [exact Hi|]. split; [rewrite He, pow2_sqrt by exact Hqd; field; lra|]. split; [rewrite He; apply sqrt_pos|]. split.
  - intros Hw. assert (0 <= total s); [|nra]. apply Hnn. intros x Hx. unfold s, samplesAt in Hx. apply in_map_iff in Hx. destruct Hx as [k [<- _]].
    specialize (Hw k). destruct (draw name M k) as [w a]. cbn in Hw. apply Rmult_le_pos; [exact Hw|apply pow2_ge_0].
  - split.
    + intros H0. rewrite He in H0. apply sqrt_eq_0 in H0; [|exact Hqd].
      assert (q = 0) by (apply (Rmult_eq_reg_r (/ (INR n * (INR n - 1)))); [unfold Rdiv in H0; lra|apply Rinv_neq_0_compat; lra]).
      intros x Hx. pose proof (Hz _ Hsq H ((x - pInt p) ^ 2)) as K. assert (K2 : (x - pInt p) ^ 2 = 0) by (apply K; apply (in_map (fun x => (x - pInt p) ^ 2)); exact Hx). nra.
    + intros H. rewrite He. replace q with 0; [replace (0 / (INR n * (INR n - 1))) with 0 by (field; lra); apply sqrt_0|].
      unfold q. rewrite (total_const R (fun x => (x - pInt p) ^ 2) 0); [ring|]. intros x Hx. rewrite (H x Hx). ring.
Qed.

(* ---- interpolation in any table ---- *)
Lemma sorted_last t p : sorted (t ++ [p]) -> forall q, In q t -> pM q < pM p.
Proof. intros H q Hq. apply sorted_app in H. destruct H as [_ [_ H]]. apply H; [exact Hq|left; reflexivity]. Qed.
Lemma between_domain t M : sorted t -> t <> [] -> (exists y, between t M y) <-> firstMass t <= M < lastMass t.
Proof.
  intros Hs Hne. unfold firstMass, lastMass. split.
  - intros [y [p [q [[l [r E]] [B _]]]]].
    assert (H1 : pM (hd (Pt 0 0 0) t) <= pM p).
    { destruct l as [|x l]; cbn in E; rewrite E; cbn [hd]; [lra|]. rewrite E in Hs. apply sorted_cons in Hs. destruct Hs as [_ Hf].
      rewrite Forall_forall in Hf. assert (In p (l ++ p :: q :: r)) by (apply in_or_app; right; left; reflexivity). pose proof (Hf p H). lra. }
    assert (H2 : pM q <= pM (List.last t (Pt 0 0 0))).
    { destruct r as [|x r].
      - rewrite E. replace (l ++ [p; q]) with ((l ++ [p]) ++ [q]) by (rewrite <- app_assoc; reflexivity). rewrite last_last. lra.
      - destruct (exists_last (l := x :: r) ltac:(discriminate)) as [r' [z Er]]. rewrite Er in E.
        assert (E' : t = (l ++ p :: q :: r') ++ [z]) by (rewrite E, <- app_assoc; reflexivity). rewrite E' in *. rewrite last_last.
        apply Rlt_le. apply (sorted_last _ _ Hs). apply in_or_app. right. right. left. reflexivity. }
    lra.
  - intros [H1 H2]. destruct (split_at M t Hs) as [a [b [E [Ha Hb]]]].
    assert (Hl : a = [] \/ exists a0 p, a = a0 ++ [p]) by (destruct a as [|x a]; [left; reflexivity|right; destruct (exists_last (l := x :: a) ltac:(discriminate)) as [a0 [p0 E0]]; exists a0, p0; exact E0]).
    destruct Hl as [Ea|[a' [p Ea]]].
    + subst a. cbn in E. subst b. destruct t as [|x t]; [congruence|]. pose proof (Hb x (or_introl eq_refl)). cbn in H1. lra.
    + destruct b as [|q b].
      * rewrite app_nil_r in E. subst t a. rewrite last_last in H2. pose proof (Ha p ltac:(apply in_or_app; right; left; reflexivity)). lra.
      * subst a t. exists (pInt p + (pInt q - pInt p) / (pM q - pM p) * (M - pM p)). exists p, q. split; [exists a', b; rewrite <- app_assoc; reflexivity|].
        pose proof (Ha p ltac:(apply in_or_app; right; left; reflexivity)). pose proof (Hb q (or_introl eq_refl)).
        split; [lra|]. field. lra.
Qed.

(* the value lies on the line between the neighbours; a point of the table is reproduced; outside of the table,
   and at its last point, there is no value *)
Theorem C85_interpolation : forall t M, sorted t -> t <> [] ->
  exists r, interpolate t M = Some r /\
    (forall y, r = Some y <-> between t M y) /\
    (r = None <-> (M < firstMass t \/ lastMass t <= M)) /\
    (forall p, In p t -> pM p = M -> M < lastMass t -> r = Some (pInt p)) /\
    (forall p q, consecutive p q t -> pM p <= M < pM q ->
       exists y, r = Some y /\ Rmin (pInt p) (pInt q) <= y <= Rmax (pInt p) (pInt q)).
Proof.
  intros t M Hs Hne. destruct (interpolate_ok t M Hs Hne) as [r [E H]]. exists r. split; [exact E|]. split; [exact H|].
  assert (Hdom : r = None <-> (M < firstMass t \/ lastMass t <= M)).
  { pose proof (between_domain t M Hs Hne) as B. split.
    - intros Hr. destruct (Rlt_dec M (firstMass t)) as [L|L]; [left; exact L|]. right. destruct (Rle_dec (lastMass t) M) as [L2|L2]; [exact L2|].
      exfalso. assert (K : exists y, between t M y) by (apply B; lra). destruct K as [y K]. apply H in K. congruence.
    - intros Hr. destruct r as [y|]; [|reflexivity]. exfalso. assert (K : exists y, between t M y) by (exists y; apply H; reflexivity). apply B in K. lra. }
  split; [exact Hdom|]. split.
  - intros p Hp Em Hl. apply H.
    apply in_split in Hp. destruct Hp as [l [r' Et]]. destruct r' as [|q r'].
    { exfalso. unfold lastMass in Hl. rewrite Et, last_last in Hl. lra. }
    exists p, q. split; [exists l, r'; exact Et|].
    rewrite Et in Hs. change (l ++ p :: q :: r') with (l ++ (p :: q :: r')) in Hs. apply sorted_app in Hs. destruct Hs as [_ [Hs _]].
    apply sorted_cons in Hs. destruct Hs as [_ Hs]. inversion Hs; subst. split; [lra|ring].
  - intros p q Cq B. exists (pInt p + (pInt q - pInt p) / (pM q - pM p) * (M - pM p)). split.
    + apply H. exists p, q. split; [exact Cq|]. split; [exact B|]. field. lra.
    + set (l := (M - pM p) / (pM q - pM p)).
      assert (Hl : 0 <= l <= 1).
      { unfold l. split; [apply Rmult_le_pos; [lra|apply Rlt_le, Rinv_0_lt_compat; lra]|]. apply (Rmult_le_reg_r (pM q - pM p)); [lra|]. field_simplify; lra. }
      replace (pInt p + (pInt q - pInt p) / (pM q - pM p) * (M - pM p)) with (pInt p + (pInt q - pInt p) * l) by (unfold l; field; lra).
      unfold Rmin, Rmax. destruct (Rle_dec (pInt p) (pInt q)); nra.
Qed.

(* ---- after every history ---- *)
(* every table, in a file or in memory, is sorted, starts with 0 at the threshold and consists of measured points *)
Theorem C85_tables : forall fuel draw thr h s, run fuel draw h start = Some s -> thresholds thr h ->
  (forall p f, sDisk s p = Some f -> exists t g, f = Good t g /\ goodTable draw (snd p) (thr (snd p)) t) /\
  (forall n c, findCont n (sConts s) = Some c -> goodTable draw (cName c) (thr (cName c)) (cTab c)).
Proof.
  intros fuel draw thr h s H Ht. destruct (run_inv fuel draw thr h start s (start_inv draw thr) Ht H) as [H1 H2].
  split; [exact H1|]. intros n c Hc. apply (H2 n c Hc).
Qed.
Lemma reached_inv fuel draw thr h s : reached fuel draw thr h s -> inv draw thr s /\ mirror s /\ nameFrom h s.
Proof.
  intros [H [Ht Hw]]. split; [apply (run_inv fuel draw thr h start); [apply start_inv|exact Ht|exact H]|].
  split; [apply (run_mirror fuel draw thr h Ht Hw s H)|apply (run_names fuel draw thr h Ht s H)].
Qed.
(* the table in memory is the one in its file *)
Theorem C85_memory_is_file : forall fuel draw thr h s, reached fuel draw thr h s ->
  forall n c, findCont n (sConts s) = Some c -> cName c = n /\ snd (cPath c) = n /\ exists g, sDisk s (cPath c) = Some (Good (cTab c) g).
Proof.
  intros fuel draw thr h s H n c Hc. destruct (reached_inv _ _ _ _ _ H) as [[_ Hi] [Hm _]].
  destruct (Hm n c Hc) as [E Hg]. destruct (Hi n c Hc) as [_ [Hp _]]. split; [exact E|]. split; [rewrite Hp; exact E|exact Hg].
Qed.

(* ---- the answer to a call ---- *)
Theorem C85_answer : forall fuel draw thr h s v bw s', reached fuel draw thr h s -> thresholds thr (h ++ [OCall v]) -> stableNames (h ++ [OCall v]) ->
  call fuel draw v s = Some (bw, s') ->
  exists t t', tableFor draw s (vName v) v t /\ tableFor draw s' (vName v) v t' /\
    goodTable draw (vName v) (vThr v) t /\ goodTable draw (vName v) (vThr v) t' /\
    isAnswer t t' (vM v) (vM0 v) (vGamma v) bw /\
    inTable t' (vM0 v) /\
    (inTable t (vM0 v) -> t' = t) /\
    (~ inTable t (vM0 v) -> refined draw (vName v) (vM0 v) t t').
Proof.
  intros fuel draw thr h s v bw s' Hr Ht Hw H. destruct (reached_inv _ _ _ _ _ Hr) as [Hi [Hm Hn]].
  assert (Htv : vThr v = thr (vName v)) by (apply Ht; apply in_or_app; right; left; reflexivity).
  pose proof (nameFrom_call _ _ _ _ _ _ _ _ Hi Htv Hn Hw H) as Hname.
  destruct (call_ok _ _ _ _ _ _ _ Hi Htv H) as [n [t [c [E1 [_ [_ [E3 [_ [_ [HT [Ha [Hin [[Hg _] [Hgt [_ [Hcmp [Hcase [_ [_ [_ Hsub]]]]]]]]]]]]]]]]]]]].
  rewrite Hname in E1. injection E1 as <-.
  assert (Hcn : cName c = vName v) by (destruct Hcase as [[c0 [F1 [_ [F2 _]]]]|[_ [F2 _]]]; [rewrite F2; apply (Hm _ _ F1)|exact F2]).
  rewrite Hcn, <- Htv in *.
  exists t, (cTab c). split; [exact HT|].
  split; [unfold tableFor; rewrite E3, findCont_set, String.eqb_refl; reflexivity|].
  split; [exact Hgt|]. split; [exact Hg|]. split; [exact Ha|]. split; [exact Hin|]. split.
  - intros K. destruct Hcmp as [Q|[Q _]]; [exact Q|contradiction].
  - intros K. destruct Hcmp as [Q|[_ Q]]; [|exact Q]. subst t. contradiction.
Qed.
(* the answer is a finite number exactly if both masses lie in the range of the table (without its last point) and the
   integral at the peak is not zero, unless numerator and denominator vanish at M = M0 *)
Theorem C85_domain : forall t t' M M0 G bw, sorted t -> t <> [] -> sorted t' -> t' <> [] -> isAnswer t t' M M0 G bw ->
  (bw <> None <-> (firstMass t <= M < lastMass t /\ firstMass t' <= M0 < lastMass t' /\
     exists y y0, between t M y /\ between t' M0 y0 /\ y0 <> 0 /\ (M0 * M0 <> M * M \/ M0 * (G * (y / y0)) <> 0))).
Proof.
  intros t t' M M0 G bw Hs Hne Hs' Hne' H. split.
  - intros Hb. destruct bw as [z|]; [|congruence]. destruct (proj1 (H z) eq_refl) as [y [y0 [B1 [B2 [Hy [Hd _]]]]]].
    split; [apply (between_domain t M Hs Hne); exists y; exact B1|]. split; [apply (between_domain t' M0 Hs' Hne'); exists y0; exact B2|].
    exists y, y0. split; [exact B1|]. split; [exact B2|]. split; [exact Hy|].
    destruct (Req_EM_T (M0 * M0) (M * M)) as [Q|Q]; [|left; exact Q]. right. intros K. apply Hd. rewrite K.
    replace (M0 * M0 - M * M) with 0 by lra. ring.
  - intros [_ [_ [y [y0 [B1 [B2 [Hy Hd]]]]]]] Hb.
    set (den := (RtoC (M0 * M0 - M * M) - Ci * RtoC (M0 * (G * (y / y0))))%C).
    assert (Hden : den <> RtoC 0).
    { intros K. unfold den in K. unfold RtoC, Ci, Cminus, Cplus, Copp, Cmult in K. cbn [fst snd] in K. injection K as K1 K2. destruct Hd; lra. }
    assert (K : bw = Some (RtoC (M0 * G) / den)%C).
    { apply H. exists y, y0. split; [exact B1|]. split; [exact B2|]. split; [exact Hy|]. split; [exact Hden|]. fold den. field. exact Hden. }
    congruence.
Qed.
(* the Breit-Wigner: exactly i at the peak, and its imaginary part is |z|^2 times the relative width *)
Lemma isBW_peak M0 G y z : M0 * G <> 0 -> isBW M0 M0 G y y z -> z = Ci.
Proof.
  intros Hg [Hy [Hd H]]. replace (y / y) with 1 in * by (field; exact Hy). replace (M0 * M0 - M0 * M0) with 0 in * by ring.
  destruct z as [x w]. unfold Ci. unfold RtoC, Ci, Cminus, Cplus, Copp, Cmult in H. cbn [fst snd] in H. injection H as H1 H2.
  assert (w = 1) by (apply (Rmult_eq_reg_r (M0 * G)); lra). assert (x = 0) by (apply (Rmult_eq_reg_r (M0 * G)); [lra|exact Hg]). subst. reflexivity.
Qed.
Theorem C85_peak : forall t t' M0 G z, t = t' -> sorted t -> M0 * G <> 0 -> isAnswer t t' M0 M0 G (Some z) -> z = Ci.
Proof.
  intros t t' M0 G z Et Hs Hg H. subst t'. destruct (proj1 (H z) eq_refl) as [y [y0 [B1 [B2 Hb]]]].
  pose proof (between_unique t M0 y y0 Hs B1 B2). subst y0. apply (isBW_peak M0 G y); assumption.
Qed.
Theorem C85_width : forall t t' M M0 G z, M0 * G <> 0 -> isAnswer t t' M M0 G (Some z) ->
  exists y y0, between t M y /\ between t' M0 y0 /\ y0 <> 0 /\ Im z = (Cmod z) ^ 2 * (y / y0).
Proof.
  intros t t' M M0 G z Hg H. destruct (proj1 (H z) eq_refl) as [y [y0 [B1 [B2 [Hy [Hd E]]]]]].
  exists y, y0. split; [exact B1|]. split; [exact B2|]. split; [exact Hy|].
  set (dyn := y / y0) in *. destruct z as [x w]. unfold Cmod, Im. cbn [fst snd]. rewrite pow2_sqrt by nra.
  unfold RtoC, Ci, Cminus, Cplus, Copp, Cmult in E. cbn [fst snd] in E. injection E as E1 E2.
  set (B := M0 * M0 - M * M) in *. set (A := M0 * G) in *.
  assert (E1' : x * B + w * (A * dyn) = A) by (unfold A in *; lra). assert (E2' : w * B = x * (A * dyn)) by (unfold A in *; lra).
  apply (Rmult_eq_reg_l A); [|exact Hg].
  transitivity ((x * B + w * (A * dyn)) * w); [rewrite E1'; reflexivity|].
  replace ((x * B + w * (A * dyn)) * w) with (x * (w * B) + w * w * (A * dyn)) by ring. rewrite E2'. ring.
Qed.
