From Coq Require Import String List Reals Sorted Lra Lia Bool Arith.
From Coquelicot Require Import Complex.
From Verif Require Import PhysModel PhaseProofs PhaseProofs3 MassDepModel PsIntModel PsIntSpec PsIntProofs.
Import ListNotations.
Open Scope R_scope.

(* ---- insertion ---- *)
Lemma addLoop_none p t : forall last, (forall q, In q t -> pM q <= pM p \/ pM p < pM last) -> sorted (last :: t) -> addLoop p last t = (t, false).
Proof.
  induction t as [|q r IH]; intros last H Hs; [reflexivity|]. cbn [addLoop].
  apply sorted_cons in Hs. destruct Hs as [Hs Hf]. inversion Hf; subst.
  rewrite IH; [|intros x Hx; destruct (H x (or_intror Hx)) as [K|K]; [left|right]; lra|exact Hs].
  destruct (H q (or_introl eq_refl)) as [K|K].
  - rewrite (rltb_false (pM p) (pM q)) by lra. rewrite Bool.andb_false_r. reflexivity.
  - rewrite (rltb_true (pM p) (pM last)) by lra. reflexivity.
Qed.
Lemma addLoop_hit p : forall a last b, sorted (last :: a ++ b) -> b <> [] -> pM last <= pM p ->
  (forall q, In q a -> pM q <= pM p) -> (forall q, In q b -> pM p < pM q) -> addLoop p last (a ++ b) = (a ++ p :: b, true).
Proof.
  induction a as [|x a IH]; intros last b Hs Hb Hl Ha Hbb.
  - destruct b as [|q b]; [congruence|]. cbn [app addLoop]. apply sorted_cons in Hs. destruct Hs as [Hs _].
    pose proof (Hbb q (or_introl eq_refl)).
    rewrite addLoop_none; [|intros y Hy; right; exact H|exact Hs].
    rewrite (rltb_false (pM p) (pM last)) by lra. rewrite (rltb_true (pM p) (pM q)) by lra. reflexivity.
  - cbn [app addLoop]. apply sorted_cons in Hs. destruct Hs as [Hs _].
    rewrite IH; [|exact Hs|exact Hb|apply Ha; left; reflexivity|intros q Hq; apply Ha; right; exact Hq|exact Hbb].
    rewrite (rltb_false (pM p) (pM x)) by (apply Ha; left; reflexivity). rewrite Bool.andb_false_r. reflexivity.
Qed.
Lemma split_at m t : sorted t -> exists a b, t = a ++ b /\ (forall q, In q a -> pM q <= m) /\ (forall q, In q b -> m < pM q).
Proof.
  induction t as [|x t IH]; intros Hs; [exists [], []; repeat split; intros q []|].
  apply sorted_cons in Hs. destruct Hs as [Hs Hf]. destruct (IH Hs) as [a [b [E [Ha Hb]]]].
  destruct (Rle_dec (pM x) m) as [L|L].
  - exists (x :: a), b. cbn. rewrite E. split; [reflexivity|]. split; [|exact Hb]. intros q [K|K]; [subst; exact L|apply Ha; exact K].
  - exists [], (x :: t). split; [reflexivity|]. split; [intros q []|]. intros q [K|K]; [subst; lra|].
    rewrite Forall_forall in Hf. pose proof (Hf q K). lra.
Qed.
(* where a point can be added and what comes out *)
Lemma addToTable_ok p t : sorted t -> t <> [] -> (forall q, In q t -> pM q <> pM p) ->
  (exists a b, a <> [] /\ b <> [] /\ t = a ++ b /\ sorted (a ++ p :: b) /\ addToTable p t = Some (a ++ p :: b)) \/
  (addToTable p t = None /\ ((forall q, In q t -> pM q < pM p) \/ (forall q, In q t -> pM p < pM q))).
Proof.
  intros Hs Hne Hd. destruct (split_at (pM p) t Hs) as [a [b [E [Ha Hb]]]].
  destruct t as [|h t]; [congruence|]. unfold addToTable.
  destruct a as [|x a].
  - right. cbn in E. subst b. pose proof (Hb h (or_introl eq_refl)).
    rewrite addLoop_none; [|intros q Hq; right; exact H|exact Hs]. split; [reflexivity|]. right. exact Hb.
  - cbn [app] in E. injection E as <- E.
    destruct b as [|y b].
    + right. rewrite app_nil_r in E. subst a. rewrite addLoop_none; [|intros q Hq; left; apply Ha; right; exact Hq|exact Hs].
      split; [reflexivity|]. left. intros q Hq. pose proof (Ha q Hq). pose proof (Hd q Hq). lra.
    + left. exists (h :: a), (y :: b). split; [discriminate|]. split; [discriminate|]. split; [cbn; rewrite E; reflexivity|].
      subst t. rewrite addLoop_hit; [|exact Hs|discriminate|apply Ha; left; reflexivity|intros q Hq; apply Ha; right; exact Hq|exact Hb].
      split; [|reflexivity].
      change ((h :: a) ++ p :: y :: b) with ((h :: a) ++ (p :: y :: b)).
      change (h :: a ++ y :: b) with ((h :: a) ++ y :: b) in Hs. apply sorted_app in Hs. destruct Hs as [H1 [H2 H3]].
      apply sorted_app. split; [exact H1|]. split.
      * apply sorted_cons. split; [exact H2|]. rewrite Forall_forall. exact Hb.
      * intros u v Hu [K|K]; [subst v|apply H3; assumption].
        pose proof (Ha u Hu). assert (In u (h :: a ++ y :: b)) by (change (h :: a ++ y :: b) with ((h :: a) ++ y :: b); apply in_or_app; left; exact Hu).
        pose proof (Hd u H0). lra.
Qed.
Lemma closeTo_true a b : closeTo a b = true <-> Rabs (a - b) < / 10000000000.
Proof. unfold closeTo, rltb. destruct (Rlt_dec (Rabs (a - b)) (/ 10000000000)); split; intros; try lra; congruence. Qed.
Lemma inTable_eqb t M0 : existsb (fun p => closeTo (pM p) M0) t = true <-> inTable t M0.
Proof.
  rewrite existsb_exists. unfold inTable. split; intros [p [H1 H2]]; exists p; (split; [exact H1|]); apply closeTo_true; exact H2.
Qed.
Lemma inTable_self t p : In p t -> inTable t (pM p).
Proof. intros H. exists p. split; [exact H|]. rewrite Rminus_diag_eq by reflexivity. rewrite Rabs_R0. lra. Qed.

(* ---- value at the resonance ---- *)
Definition c1of (M0 : R) (c : container) : container :=
  if existsb (fun m => closeTo m M0) (cM0s c) then c else setM0s (cM0s c ++ [M0]) c.
Lemma c1of_tab M0 c : cTab (c1of M0 c) = cTab c /\ cName (c1of M0 c) = cName c /\ cPath (c1of M0 c) = cPath c /\ cThr (c1of M0 c) = cThr c /\ cM0 (c1of M0 c) = cM0 c.
Proof. unfold c1of. destruct (existsb _ _); repeat split; reflexivity. Qed.
Lemma c1of_idem M0 c : c1of M0 (c1of M0 c) = c1of M0 c.
Proof.
  unfold c1of at 2 3. destruct (existsb (fun m => closeTo m M0) (cM0s c)) eqn:E; unfold c1of.
  - rewrite E. reflexivity.
  - cbn [cM0s setM0s]. rewrite existsb_app, E. cbn [existsb orb]. replace (closeTo M0 M0) with true; [reflexivity|].
    symmetry. apply closeTo_true. rewrite Rminus_diag_eq by reflexivity. rewrite Rabs_R0. lra.
Qed.
Lemma getInt0_S f draw M0 c d pos : getInt0 (S f) draw M0 c d pos =
  if existsb (fun p => closeTo (pM p) M0) (cTab (c1of M0 c)) then
    doM v <- interpolate (cTab (c1of M0 c)) M0; Some (v, c1of M0 c, d, pos)
  else
    doM r <- evalInt draw (cName (c1of M0 c)) M0 N_MC_EVENTS_FOR_M0 pos;
    doM t <- addToTable (fst r) (cTab (c1of M0 c));
    doM d2 <- writeTable true (setTab t (c1of M0 c)) d;
    getInt0 f draw M0 (setTab t (c1of M0 c)) d2 (snd r).
Proof. reflexivity. Qed.
Lemma getInt0_known fuel draw M0 c d pos : sorted (cTab c) -> inTable (cTab c) M0 ->
  exists v, getInt0 (S fuel) draw M0 c d pos = Some (v, c1of M0 c, d, pos) /\ (forall y, v = Some y <-> between (cTab c) M0 y).
Proof.
  intros Hs Hi. rewrite getInt0_S. destruct (c1of_tab M0 c) as [Et _]. rewrite Et.
  apply inTable_eqb in Hi. rewrite Hi.
  assert (Hne : cTab c <> []) by (intros E; rewrite E in Hi; discriminate).
  destruct (interpolate_ok (cTab c) M0 Hs Hne) as [r [E H]]. rewrite E. cbn [bindM]. exists r. split; [reflexivity|exact H].
Qed.
Lemma getInt0_new fuel draw M0 c d pos r : sorted (cTab c) -> cTab c <> [] -> ~ inTable (cTab c) M0 ->
  getInt0 fuel draw M0 c d pos = Some r ->
  exists v a p b, cTab c = a ++ b /\ a <> [] /\ b <> [] /\ pM p = M0 /\ measured draw (cName c) p /\ sorted (a ++ p :: b) /\
    let c' := setTab (a ++ p :: b) (c1of M0 c) in
    r = (v, c', setFile d (cPath c) (fileOf c'), (pos + N_MC_EVENTS_FOR_M0)%nat) /\
    (forall y, v = Some y <-> between (a ++ p :: b) M0 y) /\
    (forall z, (forall k, draw (cName c) M0 k = (1, z)) -> p = Pt M0 ((Cmod z) ^ 2) 0).
Proof.
  intros Hs Hne Hi H. destruct fuel as [|f]; [discriminate|]. rewrite getInt0_S in H.
  destruct (c1of_tab M0 c) as [Et [En [Ep _]]]. rewrite Et, En in H.
  destruct (existsb (fun p => closeTo (pM p) M0) (cTab c)) eqn:Ex; [apply inTable_eqb in Ex; contradiction|].
  destruct (evalInt_ok draw (cName c) M0 N_MC_EVENTS_FOR_M0 pos (or_intror eq_refl)) as [p [Ee [Epm [Hm Hz]]]].
  rewrite Ee in H. cbn [bindM fst snd] in H.
  destruct (addToTable_ok p (cTab c) Hs Hne) as [[a [b [Ha [Hb [E [Hs' Ea]]]]]]|[Ea _]].
  { intros q Hq E. apply Hi. rewrite Epm in E. rewrite <- E. apply inTable_self. exact Hq. }
  2:{ rewrite Ea in H. discriminate. }
  rewrite Ea in H. cbn [bindM writeTable] in H.
  set (c' := setTab (a ++ p :: b) (c1of M0 c)) in *.
  assert (Hp : cPath c' = cPath c) by (unfold c'; cbn; exact Ep).
  destruct f as [|f]; [discriminate|].
  assert (Ht : cTab c' = a ++ p :: b) by reflexivity.
  destruct (getInt0_known f draw M0 c' (setFile d (cPath c') (fileOf c')) (pos + N_MC_EVENTS_FOR_M0)) as [v [Ev Hv]].
  { rewrite Ht. exact Hs'. }
  { rewrite Ht, <- Epm. apply inTable_self. apply in_or_app. right. left. reflexivity. }
  rewrite Ev in H. injection H as <-.
  exists v, a, p, b. split; [exact E|]. split; [exact Ha|]. split; [exact Hb|]. split; [exact Epm|]. split; [exact Hm|].
  split; [exact Hs'|]. cbv zeta. fold c'. split; [|split; [rewrite Ht in Hv; exact Hv|exact Hz]].
  rewrite Ep.
  assert (Ec : c1of M0 c' = c').
  { unfold c'. pose proof (c1of_idem M0 c) as K. unfold c1of at 1 in K. unfold c1of at 1. cbn [cM0s setTab].
    destruct (existsb (fun m => closeTo m M0) (cM0s (c1of M0 c))) eqn:E2; [reflexivity|].
    exfalso. apply (f_equal cM0s) in K. cbn in K. apply (f_equal (@length R)) in K. rewrite app_length in K. cbn in K. lia. }
  rewrite Ec. reflexivity.
Qed.
(* a new mass can be added iff it is inside the table *)
Lemma getInt0_total fuel draw M0 c d pos p q : sorted (cTab c) -> In p (cTab c) -> In q (cTab c) -> pM p <= M0 <= pM q -> (2 <= fuel)%nat ->
  getInt0 fuel draw M0 c d pos <> None.
Proof.
  intros Hs Hp Hq HM Hf. assert (Hne : cTab c <> []) by (intros E; rewrite E in Hp; destruct Hp).
  destruct fuel as [|[|f]]; [lia|lia|].
  destruct (existsb (fun p => closeTo (pM p) M0) (cTab c)) eqn:Ex.
  - apply inTable_eqb in Ex. destruct (getInt0_known (S f) draw M0 c d pos Hs Ex) as [v [E _]]. rewrite E. discriminate.
  - assert (Hi : ~ inTable (cTab c) M0) by (intros K; apply inTable_eqb in K; congruence).
    rewrite getInt0_S. destruct (c1of_tab M0 c) as [Et [En [Ep _]]]. rewrite Et, En, Ex.
    destruct (evalInt_ok draw (cName c) M0 N_MC_EVENTS_FOR_M0 pos (or_intror eq_refl)) as [x [Ee [Epm [Hm Hz]]]].
    rewrite Ee. cbn [bindM fst snd].
    destruct (addToTable_ok x (cTab c) Hs Hne) as [[a [b [Ha [Hb [E [Hs' Ea]]]]]]|[Ea [K|K]]].
    { intros u Hu E. apply Hi. rewrite Epm in E. rewrite <- E. apply inTable_self. exact Hu. }
    + rewrite Ea. cbn [bindM writeTable].
      destruct (getInt0_known f draw M0 (setTab (a ++ x :: b) (c1of M0 c)) (setFile d (cPath (setTab (a ++ x :: b) (c1of M0 c))) (fileOf (setTab (a ++ x :: b) (c1of M0 c)))) (pos + N_MC_EVENTS_FOR_M0) Hs') as [v [Ev _]].
      { rewrite <- Epm. apply inTable_self. cbn. apply in_or_app. right. left. reflexivity. }
      cbn [cPath setTab] in *. rewrite Ev. discriminate.
    + exfalso. pose proof (K q Hq). lra.
    + exfalso. pose proof (K p Hp). lra.
Qed.

(* ---- the amplitude ---- *)
Lemma lorentz_ok A B Cc (z : C) : lorentz A B Cc = Some z <-> ((RtoC B - Ci * RtoC Cc)%C <> RtoC 0 /\ (z * (RtoC B - Ci * RtoC Cc))%C = RtoC A).
Proof.
  assert (Ed : (RtoC B - Ci * RtoC Cc)%C = (B, - Cc)) by (unfold RtoC, Ci, Cminus, Cplus, Copp, Cmult; cbn [fst snd]; f_equal; ring).
  rewrite Ed. unfold lorentz. destruct (Req_EM_T (B * B + Cc * Cc) 0) as [Z|Z].
  - unfold rdiv. destruct (Req_EM_T (B * B + Cc * Cc) 0); [|contradiction]. cbn. split; [discriminate|]. intros [K _]. exfalso. apply K.
    unfold RtoC. f_equal; nra.
  - rewrite rdiv_ok by exact Z. cbn [bindM]. destruct z as [x y]. unfold Cmult, RtoC. cbn [fst snd]. split.
    + intros K. injection K as <- <-. split; [intros K; injection K as K1 K2; apply Z; rewrite K1; replace Cc with (- - Cc) by ring; rewrite K2; ring|].
      f_equal; field; exact Z.
    + intros [_ K]. injection K as K1 K2. f_equal. assert (Z' : B ^ 2 + Cc ^ 2 <> 0) by (intros W; apply Z; rewrite <- W; ring).
      f_equal.
      * apply (Rmult_eq_reg_r (B * B + Cc * Cc)); [|exact Z].
        transitivity (A * B); [field; exact Z|]. rewrite <- K1. replace (x * (B * B + Cc * Cc)) with ((x * B - y * - Cc) * B - (x * - Cc + y * B) * Cc) by ring. rewrite K2. ring.
      * apply (Rmult_eq_reg_r (B * B + Cc * Cc)); [|exact Z].
        transitivity (A * Cc); [field; exact Z|]. rewrite <- K1. replace (y * (B * B + Cc * Cc)) with ((x * - Cc + y * B) * B + (x * B - y * - Cc) * Cc) by ring. rewrite K2. ring.
Qed.
Lemma answer_ok t t' M M0 G (a b : option R) :
  (forall y, a = Some y <-> between t M y) -> (forall y, b = Some y <-> between t' M0 y) ->
  isAnswer t t' M M0 G (doM x <- a; doM y <- b; doM dyn <- rdiv x y; lorentz (M0 * G) (M0 * M0 - M * M) (M0 * (G * dyn))).
Proof.
  intros Ha Hb z. split.
  - intros H. destruct a as [x|]; [|discriminate]. destruct b as [y|]; [|discriminate]. cbn [bindM] in H.
    exists x, y. split; [apply Ha; reflexivity|]. split; [apply Hb; reflexivity|].
    unfold isBW. destruct (Req_EM_T y 0) as [Z|Z].
    { unfold rdiv in H. destruct (Req_EM_T y 0); [discriminate|contradiction]. }
    rewrite rdiv_ok in H by exact Z. cbn [bindM] in H. split; [exact Z|]. apply lorentz_ok. exact H.
  - intros [x [y [Hx [Hy [Z H]]]]]. apply Ha in Hx. apply Hb in Hy. subst. cbn [bindM]. rewrite rdiv_ok by exact Z. cbn [bindM]. apply lorentz_ok. exact H.
Qed.
(* the container answers; either nothing but the list of masses changes or the table gets the new point and is written *)
Lemma amplitude_ok fuel draw M M0 G c d pos r : sorted (cTab c) -> cTab c <> [] -> amplitude fuel draw M M0 G c d pos = Some r ->
  exists bw c' d' pos', r = (bw, c', d', pos') /\ isAnswer (cTab c) (cTab c') M M0 G bw /\ sorted (cTab c') /\ inTable (cTab c') M0 /\
    cName c' = cName c /\ cPath c' = cPath c /\ cThr c' = cThr c /\
    ((inTable (cTab c) M0 /\ c' = c1of M0 c /\ d' = d /\ pos' = pos) \/
     (~ inTable (cTab c) M0 /\ (exists a b, a <> [] /\ b <> [] /\ cTab c = a ++ b /\ exists p, pM p = M0 /\ measured draw (cName c) p /\ cTab c' = a ++ p :: b /\
          (forall z, (forall k, draw (cName c) M0 k = (1, z)) -> p = Pt M0 ((Cmod z) ^ 2) 0)) /\
      d' = setFile d (cPath c) (fileOf c'))).
Proof.
  intros Hs Hne H. unfold amplitude in H.
  destruct (interpolate_ok (cTab c) M Hs Hne) as [y [Ey Hy]]. rewrite Ey in H. cbn [bindM] in H.
  destruct (existsb (fun p => closeTo (pM p) M0) (cTab c)) eqn:Ex.
  - apply inTable_eqb in Ex. destruct fuel as [|f]; [discriminate|].
    destruct (getInt0_known f draw M0 c d pos Hs Ex) as [v [E Hv]]. rewrite E in H. cbn [bindM] in H. injection H as <-.
    destruct (c1of_tab M0 c) as [Et [En [Ep [Eh _]]]].
    eexists _, _, _, _. split; [reflexivity|]. rewrite Et. split; [apply answer_ok; assumption|].
    split; [exact Hs|]. split; [exact Ex|]. split; [exact En|]. split; [exact Ep|]. split; [exact Eh|].
    left. split; [exact Ex|]. repeat split; reflexivity.
  - assert (Hi : ~ inTable (cTab c) M0) by (intros K; apply inTable_eqb in K; congruence).
    destruct (getInt0 fuel draw M0 c d pos) as [g|] eqn:Eg; [|discriminate]. cbn [bindM] in H.
    destruct (getInt0_new fuel draw M0 c d pos g Hs Hne Hi Eg) as [v [a [p [b [E [Ha [Hb [Epm [Hm [Hs' [Er [Hv Hz]]]]]]]]]]]].
    rewrite Er in H. injection H as <-.
    destruct (c1of_tab M0 c) as [Et [En [Ep [Eh _]]]].
    eexists _, _, _, _. split; [reflexivity|]. split; [apply answer_ok; assumption|].
    split; [exact Hs'|]. split; [rewrite <- Epm; apply inTable_self; cbn; apply in_or_app; right; left; reflexivity|].
    split; [exact En|]. split; [exact Ep|]. split; [exact Eh|].
    right. split; [exact Hi|]. split; [|reflexivity].
    exists a, b. split; [exact Ha|]. split; [exact Hb|]. split; [exact E|]. exists p. split; [exact Epm|]. split; [exact Hm|]. split; [reflexivity|exact Hz].
Qed.
