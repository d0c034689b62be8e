(* C95: fits with NLopt *)
From Coq Require Import String Ascii List ZArith Reals Bool Lia Lra.
From Coquelicot Require Import Complex Hierarchy Derive.
From Verif Require Import ArrayModel PathModel StrModel DecModel CGBoxModel FitResultModel LikParModel LikParProofs LikParProps LikGradProps LikSignProps PwaFitModel PwaFitProofs PwaFitProps PwaFitEx NloptModel NloptProofs.
Import ListNotations.
Open Scope list_scope. Open Scope nat_scope.

(* the counter of fixed parameters is right, and the gradient has one element per parameter *)
Definition consistent (L : nlikelihood) : Prop := nlFixed L = nmbFixed (nlPars L) /\ forall par, length par = length (nlPars L) -> length (nlGrad L par) = length par.
(* both static arrays, if they have been allocated, have room for the parameters *)
Definition room (n : nat) (st : statics) : Prop := (forall k, fst st = Some k -> n <= k) /\ (forall k, snd st = Some k -> n <= k).

(* the objective function: the likelihood at the parameters with zeros for the fixed ones, and the elements of the
   gradient that belong to free parameters *)
Theorem C95_objective : forall L x gradient st, consistent L -> length x + nmbFixed (nlPars L) = length (nlPars L) ->
  nmbFixed (nlPars L) = 0 \/ room (length (nlPars L)) st ->
  exists par st', length par = length (nlPars L) /\ (forall k p, nth_error (nlPars L) k = Some p -> fpFixed p = true -> nth_error par k = Some 0%R) /\
    freeValues (nlPars L) par = x /\
    objective L x gradient st = Some ((liEval (nlBase L) par, if gradient then Some (freeValues (nlPars L) (nlGrad L par)) else None), st').
Proof.
  intros L x gr [sp sg] [C1 C2] Lx Hr. destruct (addFixed_some _ _ Lx) as [par Ep]. destruct (addFixed_inv _ _ _ Ep) as (A & B & C). specialize (C Lx).
  exists par. unfold objective. rewrite C1. destruct (Nat.eqb_spec (length x) (length (nlPars L) - nmbFixed (nlPars L))) as [_|N]; [|lia]. cbn [negb].
  destruct (Nat.eqb_spec (nmbFixed (nlPars L)) 0) as [Z|Z]; cbn [negb].
  - assert (par = x). { rewrite addFixed_none in Ep by lia. congruence. } subst par. cbn [bnd].
    destruct gr; (eexists; split; [exact A|]; split; [exact B|]; split; [exact C|]); [|reflexivity]. rewrite freeValues_all by (rewrite ?C2; lia). reflexivity.
  - destruct Hr as [Hr|[R1 R2]]; [contradiction|]. cbn [fst snd] in R1, R2.
    assert (L1 : (length (nlPars L) <=? allocate sp (length (nlPars L))) = true) by (apply Nat.leb_le; destruct sp; cbn; [now apply R1|lia]).
    assert (L2 : (length (nlPars L) <=? allocate sg (length (nlPars L))) = true) by (apply Nat.leb_le; destruct sg; cbn; [now apply R2|lia]).
    cbv zeta. rewrite L1, Ep. cbn [bnd]. destruct gr; [rewrite L2, freeOf_values|]; eexists; (split; [exact A|]; split; [exact B|]; split; [exact C|]); reflexivity.
Qed.
(* a wrong number of parameters ends the program *)
Theorem C95_objective_mismatch : forall L x gradient st, consistent L -> length x + nmbFixed (nlPars L) <> length (nlPars L) -> objective L x gradient st = None.
Proof.
  intros L x gr st [C1 _] H. unfold objective. rewrite C1. destruct (Nat.eqb_spec (length x) (length (nlPars L) - nmbFixed (nlPars L))) as [E|_]; [|reflexivity].
  pose proof (filter_le fpFixed (nlPars L)). unfold nmbFixed in *. lia.
Qed.

(* what the objective function returns as gradient is the gradient of what it returns as value, if this is so for the
   likelihood *)
Definition valueOf (o : option ((R * option (list R)) * statics)) : R := match o with Some ((v, _), _) => v | None => 0%R end.
Theorem C95_gradient : forall L x st v g st', consistent L -> room (length (nlPars L)) st ->
  (forall par k p0 gk, length par = length (nlPars L) -> nth_error par k = Some p0 -> nth_error (nlGrad L par) k = Some gk -> is_derive (fun y : R => liEval (nlBase L) (setAt par k y)) p0 gk) ->
  objective L x true st = Some ((v, Some g), st') ->
  length g = length x /\ forall k xk gk, nth_error x k = Some xk -> nth_error g k = Some gk -> is_derive (fun y : R => valueOf (objective L (setAt x k y) false st)) xk gk.
Proof.
  intros L x st v g st' HC Hr HD E. destruct (Nat.eq_dec (length x + nmbFixed (nlPars L)) (length (nlPars L))) as [Lx|N]; [|rewrite C95_objective_mismatch in E by assumption; discriminate].
  destruct (C95_objective L x true st HC Lx (or_intror Hr)) as (par & st2 & P1 & P2 & P3 & P4). rewrite P4 in E. injection E as <- <- <-.
  destruct (addFixed_some _ _ Lx) as [par2 Ep]. 
  assert (Epar : forall a b, length a = length (nlPars L) -> length b = length (nlPars L) ->
     (forall k p, nth_error (nlPars L) k = Some p -> fpFixed p = true -> nth_error a k = Some 0%R) -> (forall k p, nth_error (nlPars L) k = Some p -> fpFixed p = true -> nth_error b k = Some 0%R) ->
     freeValues (nlPars L) a = freeValues (nlPars L) b -> a = b).
  { generalize (nlPars L). clear. induction l as [|p l IH]; intros [|a A] [|b B] LA LB HA HB H; try discriminate; [reflexivity|].
    unfold freeValues in *. cbn [List.combine filter fst] in H. assert (T : forall A', (forall k q, nth_error (p :: l) k = Some q -> fpFixed q = true -> nth_error A' k = Some 0%R) -> forall k q, nth_error l k = Some q -> fpFixed q = true -> nth_error (tl A') k = Some 0%R).
    { intros [|? A'] X k q Hq Fq; specialize (X (S k) q Hq Fq); [discriminate|exact X]. }
    destruct (fpFixed p) eqn:F; cbn [negb map snd] in H.
    - pose proof (HA 0 p eq_refl F) as Ha. pose proof (HB 0 p eq_refl F) as Hb. cbn in Ha, Hb. rewrite (IH A B); [congruence| | | | |exact H]; try (cbn in *; lia); [exact (T (a :: A) HA)|exact (T (b :: B) HB)].
    - injection H as -> H. rewrite (IH A B); [reflexivity| | | | |exact H]; try (cbn in *; lia); [exact (T (b :: A) HA)|exact (T (b :: B) HB)]. }
  destruct (addFixed_inv _ _ _ Ep) as (A & B & C). assert (par2 = par) by (apply Epar; auto; rewrite C by exact Lx; now rewrite P3). subst par2.
  assert (Lg : length (nlGrad L par) = length (nlPars L)) by (rewrite (proj2 HC) by exact P1; exact P1).
  split.
  - rewrite <- P3. unfold freeValues. rewrite !map_length. clear - P1 Lg. revert P1 Lg. generalize (nlGrad L par), (nlPars L). intros w l. revert par w. induction l as [|p l IH]; intros [|a A] [|b B] H1 H2; try discriminate; [reflexivity|].
    cbn [List.combine filter fst]. destruct (fpFixed p); cbn [negb length]; rewrite (IH A B) by (cbn in *; lia); reflexivity.
  - intros k xk gk Hk Hg. destruct (addFixed_at _ _ _ _ _ Ep Hk Lx) as (j & J1 & J2 & J3). rewrite <- freeOf_values in Hg. rewrite (J3 _ Lg) in Hg.
    apply (is_derive_ext (fun y : R => liEval (nlBase L) (setAt par j y))); [|now apply HD].
    intros y. assert (Ly : length (setAt x k y) + nmbFixed (nlPars L) = length (nlPars L)) by (rewrite setAt_length; exact Lx).
    destruct (C95_objective L (setAt x k y) false st HC Ly (or_intror Hr)) as (q & st3 & Q1 & Q2 & Q3 & Q4). rewrite Q4. cbn [valueOf]. f_equal.
    destruct (addFixed_inv _ _ _ (J2 y)) as (A' & B' & C'). apply Epar; auto. rewrite C' by exact Ly. now rewrite Q3.
Qed.

(* the free parameters start at the values pwaFit would start them for the same seed *)
Theorem C95_start_values : forall u L, randomNumbers u -> exists vars, startValues u (nlBase L) None = Some vars /\
  nlStart u (liNmbEvents (nlBase L)) 0 (nlPars L) = map snd (filter (fun v => negb (fst v)) vars).
Proof.
  intros u L U. unfold startValues. rewrite (rand_fold u _ U). cbn [bnd snd app]. eexists. split; [reflexivity|]. apply nlStart_map.
Qed.

(* ---- many fits in one process ---- *)
(* the optimiser asks for points with, and ends with, n parameters *)
Inductive asks (n : nat) : strategy -> Prop :=
| asks_stop o : length (noPars o) = n -> asks n (Stop o)
| asks_ask x gr next : length x = n -> (forall a, asks n (next a)) -> asks n (Ask x gr next).
Record job := Job { jbL : nlikelihood; jbBounds : smap (R * R); jbU : nat -> R; jbFile : str; jbCheck : bool; jbSave : bool; jbOpt : list R -> strategy }.
Definition runJob (j : job) (st : statics) := pwaNloptFit (jbL j) (jbBounds j) (jbU j) (jbFile j) (jbCheck j) (jbSave j) (jbOpt j) st.
(* one after the other in one process *)
Fixpoint inOneProcess (l : list job) (st : statics) : option (list fitResult) :=
  match l with [] => Some [] | j :: r => do x <- runJob j st; do t <- inOneProcess r (snd x); Some (fst x :: t) end.
(* each in a process of its own *)
Fixpoint separately (l : list job) : option (list fitResult) :=
  match l with [] => Some [] | j :: r => do x <- runJob j (None, None); do t <- separately r; Some (fst x :: t) end.
Definition sizes (n : nat) (st : statics) : Prop := (fst st = None \/ fst st = Some n) /\ (snd st = None \/ snd st = Some n).

Lemma sizes_room n st : sizes n st -> room n st.
Proof. intros [[A|A] [B|B]]; split; intros k H; rewrite ?A, ?B in H; try discriminate; injection H as <-; lia. Qed.
Lemma objective_sizes L x gr st : consistent L -> length x + nmbFixed (nlPars L) = length (nlPars L) -> sizes (length (nlPars L)) st ->
  exists a st' st'', objective L x gr st = Some (a, st') /\ objective L x gr (None, None) = Some (a, st'') /\ sizes (length (nlPars L)) st' /\ sizes (length (nlPars L)) st''.
Proof.
  intros HC Lx Hs.
  assert (G : forall s, sizes (length (nlPars L)) s -> exists st', objective L x gr s = Some ((liEval (nlBase L) (match addFixed (nlPars L) x with Some p => p | None => [] end), if gr then Some (freeOf (nlPars L) (nlGrad L (match addFixed (nlPars L) x with Some p => p | None => [] end))) else None), st') /\ sizes (length (nlPars L)) st').
  { intros [sp sg] [S1 S2]. cbn [fst snd] in S1, S2. destruct (addFixed_some _ _ Lx) as [par Ep]. pose proof (addFixed_inv _ _ _ Ep) as (A & _ & _). rewrite Ep.
    assert (E1 : allocate sp (length (nlPars L)) = length (nlPars L)) by (destruct S1 as [->| ->]; reflexivity).
    assert (E2 : allocate sg (length (nlPars L)) = length (nlPars L)) by (destruct S2 as [->| ->]; reflexivity).
    unfold objective. rewrite (proj1 HC), E1, E2, Nat.leb_refl. destruct (Nat.eqb_spec (length x) (length (nlPars L) - nmbFixed (nlPars L))) as [_|N]; [|lia]. cbn [negb].
    destruct (Nat.eqb_spec (nmbFixed (nlPars L)) 0) as [Z|Z]; cbn [negb].
    - assert (par = x) by (rewrite addFixed_none in Ep by lia; congruence). subst par. cbn [bnd]. destruct gr; (eexists; split; [|]).
      + rewrite freeOf_values, freeValues_all; [reflexivity|exact Z|]. rewrite (proj2 HC); lia.
      + split; cbn; auto.
      + reflexivity.
      + split; cbn; auto.
    - cbv zeta. rewrite Ep. cbn [bnd]. destruct gr; eexists; (split; [reflexivity|]); split; cbn; auto. }
  destruct (G st Hs) as (s1 & E1 & T1). destruct (G (None, None)) as (s2 & E2 & T2); [split; cbn; auto|]. eexists. exists s1, s2. repeat split; try eassumption; apply T1 || apply T2.
Qed.
Lemma optimize_sizes L : consistent L -> forall s, asks (length (nlPars L) - nmbFixed (nlPars L)) s -> forall st st2, sizes (length (nlPars L)) st -> sizes (length (nlPars L)) st2 ->
  exists o st' st2', optimize L s st = Some (o, st') /\ optimize L s st2 = Some (o, st2') /\ sizes (length (nlPars L)) st' /\ sizes (length (nlPars L)) st2' /\ length (noPars o) = length (nlPars L) - nmbFixed (nlPars L).
Proof.
  intros HC s Ha. induction Ha as [o Ho|x gr next Hx Hn IH]; intros st st2 H1 H2.
  - exists o, st, st2. split; [reflexivity|]. split; [reflexivity|]. split; [exact H1|]. split; [exact H2|exact Ho].
  - assert (Lx : length x + nmbFixed (nlPars L) = length (nlPars L)) by (pose proof (filter_le fpFixed (nlPars L)); unfold nmbFixed in *; lia).
    destruct (objective_sizes L x gr st HC Lx H1) as (a & s1 & s0 & E1 & E0 & T1 & _). destruct (objective_sizes L x gr st2 HC Lx H2) as (b & s2 & s0' & E2 & E0' & T2 & _).
    assert (b = a) by congruence. subst b. cbn [optimize]. rewrite E1, E2. cbn [bnd fst snd]. apply IH; assumption.
Qed.
Lemma nlStart_length u N : forall pars k, length (nlStart u N k pars) = length pars - nmbFixed pars.
Proof.
  unfold nmbFixed. induction pars as [|p pars IH]; intros k; [reflexivity|]. cbn [nlStart filter length]. destruct (fpFixed p); cbn [length]; rewrite IH; [lia|]. pose proof (filter_le fpFixed pars). lia.
Qed.
Lemma fit_sizes j st : consistent (jbL j) -> (forall x, length x = length (nlPars (jbL j)) - nmbFixed (nlPars (jbL j)) -> asks (length x) (jbOpt j x)) -> sizes (length (nlPars (jbL j))) st ->
  option_map fst (runJob j st) = option_map fst (runJob j (None, None)) /\ forall x, runJob j st = Some x -> sizes (length (nlPars (jbL j))) (snd x).
Proof.
  intros HC Ha Hs. pose proof (nlStart_length (jbU j) (liNmbEvents (nlBase (jbL j))) (nlPars (jbL j)) 0) as Ln. pose proof (Ha _ Ln) as Ha'. rewrite Ln in Ha'. unfold runJob, pwaNloptFit. destruct (negb _); [split; [reflexivity|discriminate]|]. cbv zeta.
  destruct (optimize_sizes (jbL j) HC _ Ha' st (None, None) Hs) as (o & s1 & s2 & E1 & E2 & T1 & T2 & _); [split; cbn; auto|].
  rewrite E1, E2. cbn [bnd]. destruct (addFixed _ _) as [params|]; cbn [bnd]; [|split; [reflexivity|discriminate]].
  destruct (correctParamSigns _ _ _) as [par|]; cbn [bnd]; [|split; [reflexivity|discriminate]]. destruct (Req_EM_T _ _); [|split; [reflexivity|discriminate]].
  destruct (buildProdAmpArrays _ _ _ _) as [amps|]; cbn [bnd]; [|split; [reflexivity|discriminate]]. split; [reflexivity|]. intros x [= <-]. exact T1.
Qed.
(* fits in one process do not influence each other as long as all have the same number of parameters *)
Theorem C95_fits_do_not_interfere : forall n jobs,
  (forall j, In j jobs -> consistent (jbL j) /\ length (nlPars (jbL j)) = n /\
    forall x, length x = length (nlPars (jbL j)) - nmbFixed (nlPars (jbL j)) -> asks (length x) (jbOpt j x)) ->
  inOneProcess jobs (None, None) = separately jobs.
Proof.
  intros n jobs H. assert (G : forall st, sizes n st -> inOneProcess jobs st = separately jobs); [|apply G; split; cbn; auto].
  induction jobs as [|j jobs IH]; intros st Hs; [reflexivity|]. destruct (H j (or_introl eq_refl)) as (H1 & H2 & H3). cbn [inOneProcess separately]. rewrite <- H2 in Hs.
  destruct (fit_sizes j st H1 H3 Hs) as [E T]. destruct (runJob j st) as [x|], (runJob j (None, None)) as [y|]; try discriminate; [|reflexivity]. cbn in E. injection E as E. cbn [bnd].
  rewrite (IH (fun k Hk => H k (or_intror Hk)) (snd x)) by (rewrite <- H2; now apply T). now rewrite E.
Qed.

(* refuted: after a fit with fixed parameters a larger one with fixed parameters writes outside of the static array *)
Definition largerSh : shape := Shape 1 (fun e => if e =? 1 then 2 else 0).
Definition dataOf (sh : shape) (names : nat -> nat -> str) : parData := match buildParDataStruct sh names (fun _ _ => 2%R) 1%R with Some d => d | None => PD 0 [] 0 (fun _ => (0, 0)%Z) end.
Definition nlOf (sh : shape) (ev : R) (eig : list R) : nlikelihood :=
  NL (Lik sh nm1 (dataOf sh nm1) 100 true (fun _ => ev) (fun _ => eig) emptyC emptyC []) (fun par => map (fun _ => 0%R) par) (fun par => Mat (length par) (length par) (fun _ _ => 1%R)).
Lemma dataOf_build sh : buildParDataStruct sh nm1 (fun _ _ => 2%R) 1%R = Some (dataOf sh nm1).
Proof. unfold dataOf. destruct (build_spec nm1 (fun _ _ => 2%R) 1%R sh) as (d & E & _). now rewrite E. Qed.
Lemma nlOf_consistent sh ev eig : consistent (nlOf sh ev eig).
Proof. split; [exact (C41_counter_after_init _ _ _ _ _ (dataOf_build sh))|]. intros par _. cbn. apply map_length. Qed.
Lemma sizes_ex : length (nlPars (nlOf sh1 0 [])) = 2 /\ nmbFixed (nlPars (nlOf sh1 0 [])) = 1 /\ length (nlPars (nlOf largerSh 0 [])) = 4 /\ nmbFixed (nlPars (nlOf largerSh 0 [])) = 3.
Proof.
  unfold nlPars, nlOf, dataOf, buildParDataStruct. cbn [nlBase liData].
  repeat split; cbn -[Req_EM_T Rle_dec]; unfold parStep; cbn -[Req_EM_T Rle_dec]; destruct (Req_EM_T 2 0); try lra; destruct (Rle_dec 1 2); try lra; reflexivity.
Qed.
Theorem C95_larger_fit_refuted : exists L1 L2 x1 x2 a st b st2, consistent L1 /\ consistent L2 /\
  objective L1 x1 false (None, None) = Some (a, st) /\ objective L2 x2 false (None, None) = Some (b, st2) /\ objective L2 x2 false st = None.
Proof.
  destruct sizes_ex as (N1 & F1 & N2 & F2).
  assert (R0 : forall n, room n (None, None)) by (intros n; split; intros k; discriminate).
  pose proof (nlOf_consistent sh1 0 []) as C1. pose proof (nlOf_consistent largerSh 0 []) as C2.
  destruct (C95_objective (nlOf largerSh 0 []) [1%R] false (None, None) C2) as (p2 & s2 & _ & _ & _ & E2); [rewrite N2, F2; reflexivity|right; apply R0|].
  destruct (addFixed_some (nlPars (nlOf sh1 0 [])) [1%R]) as [par Ep]; [rewrite N1, F1; reflexivity|].
  exists (nlOf sh1 0 []), (nlOf largerSh 0 []), [1%R], [1%R]. do 4 eexists. split; [exact C1|]. split; [exact C2|]. split; [|split; [exact E2|]].
  - unfold objective. rewrite (proj1 C1), N1, F1, Ep. cbn. reflexivity.
  - unfold objective. rewrite (proj1 C2), N2, F2. reflexivity.
Qed.
