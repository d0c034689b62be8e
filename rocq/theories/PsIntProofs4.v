From Coq Require Import String List Reals Sorted Lra Lia Bool Arith.
From Coquelicot Require Import Complex.
From Verif Require Import PhysModel PhaseProofs PhaseProofs3 MassDepModel PsIntModel PsIntSpec PsIntProofs PsIntProofs2 PsIntProofs3.
Import ListNotations.
Open Scope R_scope.

Lemma find_filter_same n (l : list (string * container)) : find (fun x => String.eqb (fst x) n) (filter (fun x => negb (String.eqb (fst x) n)) l) = None.
Proof.
  induction l as [|x l IH]; [reflexivity|]. cbn [filter]. destruct (String.eqb (fst x) n) eqn:E; cbn [negb]; [exact IH|]. cbn [find]. rewrite E. exact IH.
Qed.
Lemma find_filter_other n m (l : list (string * container)) : m <> n -> find (fun x => String.eqb (fst x) m) (filter (fun x => negb (String.eqb (fst x) n)) l) = find (fun x => String.eqb (fst x) m) l.
Proof.
  intros H. induction l as [|x l IH]; [reflexivity|]. cbn [filter]. destruct (String.eqb (fst x) n) eqn:E; cbn [negb find].
  - apply String.eqb_eq in E. destruct (String.eqb (fst x) m) eqn:E2; [apply String.eqb_eq in E2; congruence|exact IH].
  - destruct (String.eqb (fst x) m); [reflexivity|exact IH].
Qed.
Lemma findCont_set n m c l : findCont m (setCont n c l) = if String.eqb m n then Some c else findCont m l.
Proof.
  unfold findCont, setCont. cbn [find fst]. rewrite (String.eqb_sym n m). destruct (String.eqb m n) eqn:E; [reflexivity|].
  rewrite find_filter_other; [reflexivity|]. intros K. subst. rewrite String.eqb_refl in E. discriminate.
Qed.
Lemma findName_remove a b l : findName b (filter (fun x => negb (Nat.eqb (fst x) a)) l) = if Nat.eqb b a then None else findName b l.
Proof.
  unfold findName. induction l as [|x l IH]; [cbn; destruct (Nat.eqb b a); reflexivity|]. cbn [filter].
  destruct (Nat.eqb (fst x) a) eqn:E; cbn [negb].
  - rewrite IH. destruct (Nat.eqb b a) eqn:E2; [reflexivity|]. cbn [find]. apply Nat.eqb_eq in E. rewrite E.
    rewrite Nat.eqb_sym, E2. reflexivity.
  - cbn [find]. destruct (Nat.eqb (fst x) b) eqn:E2.
    + apply Nat.eqb_eq in E2. subst b. rewrite E. reflexivity.
    + exact IH.
Qed.

(* what holds after every history *)
Definition filesOk (draw : drawing) (thr : string -> R) (d : disk) : Prop :=
  forall p f, d p = Some f -> exists t g, f = Good t g /\ goodTable draw (snd p) (thr (snd p)) t.
Definition contOk (draw : drawing) (thr : string -> R) (c : container) : Prop :=
  goodTable draw (cName c) (thr (cName c)) (cTab c) /\ snd (cPath c) = cName c /\ cThr c = thr (cName c).
Definition inv (draw : drawing) (thr : string -> R) (s : state) : Prop :=
  filesOk draw thr (sDisk s) /\ (forall n c, findCont n (sConts s) = Some c -> contOk draw thr c).
(* what holds if in addition the names are right *)
Definition mirror (s : state) : Prop :=
  forall n c, findCont n (sConts s) = Some c -> cName c = n /\ exists g, sDisk s (cPath c) = Some (Good (cTab c) g).

Lemma good_sorted draw name thr t : goodTable draw name thr t -> sorted t /\ t <> [].
Proof. intros [H [r [E _]]]. split; [exact H|]. rewrite E. discriminate. Qed.
Lemma filesOk_set draw thr d p t g : filesOk draw thr d -> goodTable draw (snd p) (thr (snd p)) t -> filesOk draw thr (setFile d p (Good t g)).
Proof.
  intros H Hg q f E. unfold setFile in E. destruct (path_eqb q p) eqn:Ep; [|apply H; exact E].
  apply path_eqb_eq in Ep. subst q. injection E as <-. exists t, g. split; [reflexivity|exact Hg].
Qed.
Lemma refined_good draw name thr a p b : goodTable draw name thr (a ++ b) -> a <> [] -> sorted (a ++ p :: b) -> measured draw name p -> goodTable draw name thr (a ++ p :: b).
Proof.
  intros [_ [r [E F]]] Ha Hs Hm. split; [exact Hs|]. destruct a as [|x a]; [congruence|]. cbn in E. injection E as -> E.
  exists (a ++ p :: b). split; [reflexivity|]. subst r. apply Forall_app in F. destruct F. apply Forall_app. split; [assumption|constructor; assumption].
Qed.

(* everything about one call *)
Lemma call_ok fuel draw thr v s bw s' : inv draw thr s -> vThr v = thr (vName v) -> call fuel draw v s = Some (bw, s') ->
  exists n t c, findName (vAddr v) (sNames s') = Some n /\
    (findName (vAddr v) (sNames s) = Some n \/ (findName (vAddr v) (sNames s) = None /\ n = vName v)) /\
    (sNames s' = sNames s \/ (findName (vAddr v) (sNames s) = None /\ sNames s' = (vAddr v, vName v) :: sNames s)) /\
    sConts s' = setCont n c (sConts s) /\ sDir s' = sDir s /\ sUpper s' = sUpper s /\
    tableFor draw s n v t /\ isAnswer t (cTab c) (vM v) (vM0 v) (vGamma v) bw /\ inTable (cTab c) (vM0 v) /\
    contOk draw thr c /\ goodTable draw (cName c) (thr (cName c)) t /\
    (forall k, ~ (exists g, sDisk s k = Some g) -> sDisk s' k <> None -> k = cPath c) /\
    (cTab c = t \/ (~ inTable t (vM0 v) /\ refined draw (cName c) (vM0 v) t (cTab c))) /\
    ((exists c0, findCont n (sConts s) = Some c0 /\ t = cTab c0 /\ cName c = cName c0 /\ cPath c = cPath c0 /\
       (inTable t (vM0 v) -> c = c1of (vM0 v) c0 /\ sDisk s' = sDisk s /\ sPos s' = sPos s) /\
       (~ inTable t (vM0 v) -> sDisk s' (cPath c) = Some (fileOf c))) \/
     (findCont n (sConts s) = None /\ cName c = vName v /\ cPath c = (sDir s, vName v) /\ sDir s <> ""%string /\
       (sDisk s (sDir s, vName v) <> None -> inTable t (vM0 v) -> sDisk s' = sDisk s /\ sPos s' = sPos s) /\
       (exists g, sDisk s' (cPath c) = Some (Good (cTab c) g)))) /\
    (sDisk s' = sDisk s \/ sDisk s' (cPath c) = Some (fileOf c) /\ (forall k, k <> cPath c -> sDisk s' k = sDisk s k) \/
       (exists g, sDisk s' (cPath c) = Some (Good (cTab c) g)) /\ (forall k, k <> cPath c -> sDisk s' k = sDisk s k)) /\
    (findCont n (sConts s) = None -> sDisk s (sDir s, vName v) = None -> vThr v < sUpper s -> forall p, In p (tl t) -> constPt draw (vName v) p) /\
    (forall p, In p (cTab c) -> In p t \/ constPt draw (cName c) p) /\
    (forall q, In q t -> In q (cTab c)).
Proof.
  intros [Hf Hc] Hthr H. unfold call in H.
  set (names := match findName (vAddr v) (sNames s) with Some _ => sNames s | None => (vAddr v, vName v) :: sNames s end) in *.
  destruct (findName (vAddr v) names) as [n|] eqn:En; [|discriminate]. cbn [bindM] in H.
  assert (Hn : (findName (vAddr v) (sNames s) = Some n \/ (findName (vAddr v) (sNames s) = None /\ n = vName v)) /\
    (names = sNames s \/ (findName (vAddr v) (sNames s) = None /\ names = (vAddr v, vName v) :: sNames s))).
  { unfold names in *. destruct (findName (vAddr v) (sNames s)) eqn:E; [rewrite E in En; injection En as ->; split; left; reflexivity|].
    split; right; (split; [reflexivity|]); [|reflexivity]. unfold findName in En. cbn [find fst] in En. rewrite Nat.eqb_refl in En. cbn in En. congruence. }
  clearbody names. destruct Hn as [Hn1 Hn2].
  set (P := match findCont n (sConts s) with Some c => Some (c, sDisk s, sPos s) | None => newContainer fuel draw (sDir s) (sUpper s) v (sDisk s) (sPos s) end) in *.
  destruct P as [[[c0 d0] pos0]|] eqn:EP; [|discriminate]. cbn [bindM] in H.
  assert (HP : contOk draw thr c0 /\ tableFor draw s n v (cTab c0) /\ filesOk draw thr d0 /\
     (findCont n (sConts s) = None -> sDisk s (sDir s, vName v) = None -> vThr v < sUpper s -> forall p, In p (tl (cTab c0)) -> constPt draw (vName v) p) /\
     ((findCont n (sConts s) = Some c0 /\ d0 = sDisk s /\ pos0 = sPos s) \/
      (findCont n (sConts s) = None /\ cName c0 = vName v /\ cPath c0 = (sDir s, vName v) /\ sDir s <> ""%string /\ (exists g, d0 (cPath c0) = Some (Good (cTab c0) g)) /\
        ((sDisk s (sDir s, vName v) <> None /\ d0 = sDisk s /\ pos0 = sPos s) \/
         (sDisk s (sDir s, vName v) = None /\ d0 = setFile (sDisk s) (cPath c0) (fileOf c0)))))).
  { unfold P in EP. unfold tableFor. destruct (findCont n (sConts s)) as [c1|] eqn:Ec.
    - injection EP as -> <- <-. split; [apply (Hc n); exact Ec|]. split; [reflexivity|]. split; [exact Hf|]. split; [discriminate|]. left. repeat split; reflexivity.
    - destruct (newContainer_some _ _ _ _ _ _ _ _ _ _ EP) as [N0 [N1 [N2 [N3 [N4 [[g [N5 [N6 [N7 N8]]]]|[N5 [N6 [N7 [N8 N9]]]]]]]]]].
      + destruct (Hf _ _ N5) as [t [g2 [Eg Hg]]]. injection Eg as <- <-. cbn [snd] in Hg.
        split; [split; [rewrite N1; exact Hg|split; [rewrite N2, N1; reflexivity|rewrite N3, N1; exact Hthr]]|].
        split; [rewrite N5; exists g; reflexivity|]. split; [rewrite N6; exact Hf|]. split; [intros _ K; congruence|].
        right. split; [reflexivity|]. split; [exact N1|]. split; [exact N2|]. split; [exact N0|]. split; [exact N4|]. left. split; [congruence|]. split; assumption.
      + split; [split; [rewrite N1, <- Hthr; exact N6|split; [rewrite N2, N1; reflexivity|rewrite N3, N1; exact Hthr]]|].
        split; [rewrite N5; split; [exact N6|intros K; apply N9; exact K]|].
        split; [rewrite N7; unfold fileOf; apply filesOk_set; [exact Hf|cbn [snd]; rewrite <- Hthr; exact N6]|].
        split; [intros _ _ K; apply N9; exact K|].
        right. split; [reflexivity|]. split; [exact N1|]. split; [exact N2|]. split; [exact N0|]. split; [exact N4|]. right. split; [exact N5|]. rewrite N2. exact N7. }
  destruct HP as [Hk [HT [Hf0 [HK Hcase]]]].
  destruct Hk as [Hg [Hpath Hth]]. destruct (good_sorted _ _ _ _ Hg) as [Hs Hne].
  destruct (amplitude fuel draw (vM v) (vM0 v) (vGamma v) c0 d0 pos0) as [r|] eqn:Ea; [|discriminate]. cbn [bindM] in H.
  destruct (amplitude_ok _ _ _ _ _ _ _ _ _ Hs Hne Ea) as [bw1 [c [d' [pos' [Er [Hans [Hs' [Hin [A1 [A2 [A3 A4]]]]]]]]]]].
  rewrite Er in H. injection H as <- <-. cbn [sNames sConts sDir sUpper sDisk sPos].
  assert (Hgc : goodTable draw (cName c0) (thr (cName c0)) (cTab c)).
  { destruct A4 as [[_ [E _]]|[_ [[a [b [Ha [Hb [E [p [Hp [Hm [E2 _]]]]]]]]] _]]].
    - rewrite E. destruct (c1of_tab (vM0 v) c0) as [Et _]. rewrite Et. exact Hg.
    - rewrite E2 in *. rewrite E in Hg. apply refined_good; assumption. }
  exists n, (cTab c0), c. split; [exact En|]. split; [exact Hn1|]. split; [exact Hn2|]. split; [reflexivity|]. split; [reflexivity|]. split; [reflexivity|].
  split; [exact HT|]. split; [exact Hans|]. split; [exact Hin|].
  split; [split; [rewrite A1; exact Hgc|split; [rewrite A2, A1; exact Hpath|rewrite A3, A1; exact Hth]]|].
  split; [rewrite A1; exact Hg|].
  assert (Hd' : d' = d0 \/ d' = setFile d0 (cPath c0) (fileOf c)) by (destruct A4 as [[_ [_ [E _]]]|[_ [_ E]]]; [left|right]; exact E).
  assert (Hd0 : d0 = sDisk s \/ d0 = setFile (sDisk s) (cPath c0) (fileOf c0)) by (destruct Hcase as [[_ [E _]]|[_ [_ [_ [_ [_ [[_ [E _]]|[_ E]]]]]]]]; [left|left|right]; exact E).
  assert (Hoth : forall k, k <> cPath c0 -> d' k = sDisk s k).
  { intros k Hk. assert (d' k = d0 k) by (destruct Hd' as [E|E]; rewrite E; [reflexivity|apply setFile_other; exact Hk]).
    rewrite H. destruct Hd0 as [E|E]; rewrite E; [reflexivity|apply setFile_other; exact Hk]. }
  split. { intros k Hk1 Hk2. rewrite A2. destruct (path_eqb k (cPath c0)) eqn:Ek; [apply path_eqb_eq; exact Ek|].
    exfalso. apply Hk2. rewrite Hoth by (intros Q; subst; rewrite path_eqb_refl in Ek; discriminate).
    destruct (sDisk s k) as [g|]; [|reflexivity]. exfalso. apply Hk1. exists g. reflexivity. }
  split.
  { rewrite A1. destruct A4 as [[_ [E _]]|[Ni [[a [b [Ha [Hb [E [p [Hp [Hm [E2 _]]]]]]]]] _]]].
    - left. rewrite E. apply c1of_tab.
    - right. split; [exact Ni|]. exists a, p, b. repeat split; assumption. }
  split.
  { rewrite A1, A2. destruct Hcase as [[E1 [E2 E3]]|[E1 [E2 [E3 [E9 [[g E4] E5]]]]]].
    - left. exists c0. split; [exact E1|]. split; [reflexivity|]. split; [reflexivity|]. split; [reflexivity|]. split.
      + intros Hi. destruct A4 as [[_ [B1 [B2 B3]]]|[Ni _]]; [|contradiction]. split; [exact B1|]. split; congruence.
      + intros Ni. destruct A4 as [[Hi _]|[_ [_ B]]]; [contradiction|]. rewrite B. apply setFile_same.
    - right. split; [exact E1|]. split; [exact E2|]. split; [exact E3|]. split; [exact E9|]. split.
      + intros Hne2 Hi. destruct A4 as [[_ [B1 [B2 B3]]]|[Ni _]]; [|contradiction]. destruct E5 as [[_ [E6 E7]]|[E6 _]]; [split; congruence|contradiction].
      + destruct A4 as [[_ [B1 [B2 B3]]]|[_ [_ B]]].
        * exists g. rewrite B2, B1. destruct (c1of_tab (vM0 v) c0) as [Et _]. rewrite Et. exact E4.
        * rewrite B, setFile_same. unfold fileOf. eexists. reflexivity. }
  split.
  { rewrite A2. destruct A4 as [[_ [B1 [B2 B3]]]|[_ [_ B]]].
    - destruct Hcase as [[E1 [E2 E3]]|[E1 [E2 [E3 [E9 [[g E4] E5]]]]]]; [left; congruence|].
      right. right. split; [exists g; rewrite B2, B1; destruct (c1of_tab (vM0 v) c0) as [Et _]; rewrite Et; exact E4|exact Hoth].
    - right. left. split; [rewrite B; apply setFile_same|exact Hoth]. }
  split; [exact HK|]. rewrite A1.
  destruct A4 as [[_ [B1 _]]|[_ [[a [b [Ha [Hb [E [p [Hp [Hm [E2 Hz]]]]]]]]] _]]].
  - rewrite B1. destruct (c1of_tab (vM0 v) c0) as [Et _]. rewrite Et. split; [intros p Hp; left; exact Hp|tauto].
  - rewrite E2, E. split.
    + intros q Hq. apply in_app_or in Hq. destruct Hq as [Hq|[Hq|Hq]]; [left; apply in_or_app; left; exact Hq| |left; apply in_or_app; right; exact Hq].
      right. subst q. intros z Hzz. rewrite Hp in *. apply Hz. exact Hzz.
    + intros q Hq. apply in_app_or in Hq. apply in_or_app. destruct Hq; [left|right; right]; assumption.
Qed.
Lemma step_inv fuel draw thr o s s' : inv draw thr s -> (forall v, o = OCall v -> vThr v = thr (vName v)) -> step fuel draw o s = Some s' -> inv draw thr s'.
Proof.
  intros Hi Ht H. destruct o as [v|a|d|u|pos]; cbn [step] in H.
  - destruct (call fuel draw v s) as [[bw s1]|] eqn:E; [|discriminate]. injection H as <-.
    destruct (call_ok _ _ _ _ _ _ _ Hi (Ht v eq_refl) E) as [n [t [c [_ [_ [_ [Ec [_ [_ [_ [_ [_ [Hc [_ [_ [_ [_ [Hd _]]]]]]]]]]]]]]]]]].
    destruct Hi as [Hf Hcs]. split.
    + intros p f Hp. destruct Hc as [Hg [Hpath _]].
      assert (K : sDisk s1 p = sDisk s p \/ (p = cPath c /\ exists t g, f = Good t g /\ t = cTab c)).
      { destruct (path_eqb p (cPath c)) eqn:Ep.
        - apply path_eqb_eq in Ep. subst p. destruct Hd as [Hd|[[Hd _]|[[g Hd] _]]]; [left; rewrite Hd; reflexivity| |]; right; (split; [reflexivity|]); rewrite Hd in Hp; injection Hp as <-; eexists _, _; split; reflexivity.
        - left. assert (p <> cPath c) by (intros Q; subst; rewrite path_eqb_refl in Ep; discriminate).
          destruct Hd as [Hd|[[_ Hd]|[_ Hd]]]; [rewrite Hd; reflexivity|apply Hd; assumption|apply Hd; assumption]. }
      destruct K as [K|[K [t1 [g [K2 K3]]]]]; [apply (Hf p); congruence|]. exists t1, g. split; [exact K2|]. subst. rewrite Hpath. exact Hg.
    + intros m c1 Hm. rewrite Ec, findCont_set in Hm. destruct (String.eqb m n); [injection Hm as <-; exact Hc|apply (Hcs m); exact Hm].
  - injection H as <-. exact Hi.
  - injection H as <-. exact Hi.
  - injection H as <-. exact Hi.
  - injection H as <-. destruct Hi as [Hf _]. split; [exact Hf|]. intros n c Hc. discriminate.
Qed.
Lemma run_app fuel draw h1 h2 s : run fuel draw (h1 ++ h2) s = match run fuel draw h1 s with Some s' => run fuel draw h2 s' | None => None end.
Proof. revert s. induction h1 as [|o h IH]; intros s; [reflexivity|]. cbn [app run]. destruct (step fuel draw o s); [apply IH|reflexivity]. Qed.
Lemma run_inv fuel draw thr h : forall s s', inv draw thr s -> thresholds thr h -> run fuel draw h s = Some s' -> inv draw thr s'.
Proof.
  induction h as [|o h IH]; intros s s' Hi Ht H; cbn [run] in H; [injection H as <-; exact Hi|].
  destruct (step fuel draw o s) as [s1|] eqn:E; [|discriminate]. apply (IH s1); [|intros v Hv; apply Ht; right; exact Hv|exact H].
  apply (step_inv fuel draw thr o s); [exact Hi|intros v ->; apply Ht; left; reflexivity|exact E].
Qed.
Lemma start_inv draw thr : inv draw thr start.
Proof. split; [intros p f H; discriminate|intros n c H; discriminate]. Qed.

(* ---- names ---- *)
Definition nameFrom (h : list op) (s : state) : Prop :=
  forall a n, findName a (sNames s) = Some n -> exists pre v mid, h = pre ++ OCall v :: mid /\ vAddr v = a /\ vName v = n /\
    ~ In (ODestroy a) mid /\ (forall p, ~ In (ORestart p) mid).
Lemma nameFrom_call fuel draw thr h s v bw s' : inv draw thr s -> vThr v = thr (vName v) -> nameFrom h s -> stableNames (h ++ [OCall v]) ->
  call fuel draw v s = Some (bw, s') -> findName (vAddr v) (sNames s') = Some (vName v).
Proof.
  intros Hi Ht Hn Hw E. destruct (call_ok _ _ _ _ _ _ _ Hi Ht E) as [n [t [c [E1 [[E2|[_ E2]] _]]]]]; [|subst; exact E1].
  destruct (Hn _ _ E2) as [pre [v1 [mid [Eh [Ea [En [Hd Hr]]]]]]]. rewrite E1. f_equal. rewrite <- En.
  apply (Hw pre v1 mid v []); [rewrite Eh, <- app_assoc; reflexivity|exact Ea|rewrite Ea; exact Hd|exact Hr].
Qed.
Lemma step_nameFrom fuel draw thr h o s s' : inv draw thr s -> (forall v, o = OCall v -> vThr v = thr (vName v)) -> nameFrom h s -> step fuel draw o s = Some s' -> nameFrom (h ++ [o]) s'.
Proof.
  intros Hi Ht Hn H a n Hf.
  assert (Keep : findName a (sNames s) = Some n -> o <> ODestroy a -> (forall p, o <> ORestart p) -> exists pre v mid, h ++ [o] = pre ++ OCall v :: mid /\ vAddr v = a /\ vName v = n /\
    ~ In (ODestroy a) mid /\ (forall p, ~ In (ORestart p) mid)).
  { intros K N1 N2. destruct (Hn _ _ K) as [pre [v1 [mid [Eh [Ea [En [Hd Hr]]]]]]]. exists pre, v1, (mid ++ [o]).
    split; [rewrite Eh, <- app_assoc; reflexivity|]. split; [exact Ea|]. split; [exact En|].
    split; [intros Q; apply in_app_or in Q; destruct Q as [Q|[Q|[]]]; [exact (Hd Q)|congruence]|].
    intros p Q. apply in_app_or in Q. destruct Q as [Q|[Q|[]]]; [exact (Hr p Q)|exact (N2 p Q)]. }
  destruct o as [v|b|d|u|pos]; cbn [step] in H.
  - destruct (call fuel draw v s) as [[bw s1]|] eqn:E; [|discriminate]. injection H as <-.
    destruct (call_ok _ _ _ _ _ _ _ Hi (Ht v eq_refl) E) as [n1 [t [c [E1 [E2 [[E3|[E3 E4]] _]]]]]].
    + rewrite E3 in Hf. apply Keep; [exact Hf|discriminate|discriminate].
    + rewrite E4 in Hf. unfold findName in Hf. cbn [find fst] in Hf. destruct (Nat.eqb (vAddr v) a) eqn:Eq.
      * cbn in Hf. injection Hf as <-. apply Nat.eqb_eq in Eq. exists h, v, []. split; [reflexivity|]. split; [exact Eq|]. split; [reflexivity|]. split; [intros []|intros p []].
      * apply Keep; [exact Hf|discriminate|discriminate].
  - injection H as <-. cbn [removeVertex sNames] in Hf. rewrite findName_remove in Hf. destruct (Nat.eqb a b) eqn:Eq; [discriminate|].
    apply Keep; [exact Hf| |discriminate]. intros K. injection K as ->. rewrite Nat.eqb_refl in Eq. discriminate.
  - injection H as <-. apply Keep; [exact Hf|discriminate|discriminate].
  - injection H as <-. apply Keep; [exact Hf|discriminate|discriminate].
  - injection H as <-. discriminate.
Qed.
Lemma run_names fuel draw thr h : thresholds thr h -> forall s, run fuel draw h start = Some s -> nameFrom h s.
Proof.
  induction h as [|o h IH] using rev_ind; intros Ht s H.
  - injection H as <-. intros a n Hf. discriminate.
  - rewrite run_app in H. destruct (run fuel draw h start) as [s1|] eqn:E; [|discriminate].
    assert (Ht1 : thresholds thr h) by (intros v Hv; apply Ht; apply in_or_app; left; exact Hv).
    cbn [run] in H. destruct (step fuel draw o s1) as [s2|] eqn:E2; [|discriminate]. injection H as <-.
    apply (step_nameFrom fuel draw thr h o s1 s2); [apply (run_inv fuel draw thr h start); [apply start_inv|exact Ht1|exact E]| |apply IH; [exact Ht1|reflexivity]|exact E2].
    intros v ->. apply Ht. apply in_or_app. right. left. reflexivity.
Qed.
Lemma stable_prefix h1 h2 : stableNames (h1 ++ h2) -> stableNames h1.
Proof. intros H pre v1 mid v2 post E. apply (H pre v1 mid v2 (post ++ h2)). rewrite E, <- !app_assoc. cbn. rewrite <- !app_assoc. reflexivity. Qed.
Lemma run_mirror fuel draw thr h : thresholds thr h -> stableNames h -> forall s, run fuel draw h start = Some s -> mirror s.
Proof.
  induction h as [|o h IH] using rev_ind; intros Ht Hw s H.
  - injection H as <-. intros n c Hc. discriminate.
  - rewrite run_app in H. destruct (run fuel draw h start) as [s1|] eqn:E; [|discriminate].
    assert (Ht1 : thresholds thr h) by (intros v Hv; apply Ht; apply in_or_app; left; exact Hv).
    pose proof (run_inv fuel draw thr h start s1 (start_inv draw thr) Ht1 E) as Hi.
    pose proof (IH Ht1 (stable_prefix _ _ Hw) s1 eq_refl) as Hm.
    cbn [run] in H. destruct (step fuel draw o s1) as [s2|] eqn:E2; [|discriminate]. injection H as <-.
    destruct o as [v|b|d|u|pos]; cbn [step] in E2.
    2-4: injection E2 as <-; exact Hm.
    2: injection E2 as <-; intros n c Hc; discriminate.
    destruct (call fuel draw v s1) as [[bw s3]|] eqn:Ec; [|discriminate]. injection E2 as <-.
    assert (Htv : vThr v = thr (vName v)) by (apply Ht; apply in_or_app; right; left; reflexivity).
    pose proof (nameFrom_call fuel draw thr h s1 v bw s3 Hi Htv (run_names fuel draw thr h Ht1 s1 E) Hw Ec) as Hname.
    destruct (call_ok _ _ _ _ _ _ _ Hi Htv Ec) as [n [t [c [E1 [_ [_ [E3 [_ [_ [_ [_ [_ [Hc [_ [_ [Ht' [Hcase [Hd _]]]]]]]]]]]]]]]]]].
    rewrite Hname in E1. injection E1 as <-.
    assert (Hcn : cName c = vName v) by (destruct Hcase as [[c0 [F1 [_ [F2 _]]]]|[_ [F2 _]]]; [rewrite F2; apply (Hm _ _ F1)|exact F2]).
    intros m c1 Hf. rewrite E3, findCont_set in Hf. destruct (String.eqb m (vName v)) eqn:Em.
    + injection Hf as <-. apply String.eqb_eq in Em. subst m. split; [exact Hcn|].
      destruct Hcase as [[c0 [F1 [F5 [F2 [F3 F4]]]]]|[_ [_ [_ [_ [_ F2]]]]]]; [|exact F2].
      destruct Hd as [Hd|[[Hd _]|[Hd _]]]; [|rewrite Hd; unfold fileOf; eexists; reflexivity|exact Hd].
      rewrite Hd, F3. destruct (Hm _ _ F1) as [_ [g Hg]]. destruct Ht' as [Ht'|[Hni Hr]].
      * exists g. rewrite Ht', F5. exact Hg.
      * destruct F4 as [_ F4]. rewrite <- F3, <- Hd, (F4 Hni). unfold fileOf. eexists. reflexivity.
    + destruct (Hm _ _ Hf) as [K1 [g K2]]. split; [exact K1|]. exists g.
      assert (cPath c1 <> cPath c).
      { intros Q. apply (f_equal snd) in Q. destruct Hc as [_ [P1 _]]. rewrite P1, Hcn in Q.
        destruct Hi as [_ Hcs]. destruct (Hcs _ _ Hf) as [_ [P2 _]]. rewrite P2, K1 in Q. rewrite Q, String.eqb_refl in Em. discriminate. }
      destruct Hd as [Hd|[[_ Hd]|[_ Hd]]]; [rewrite Hd; exact K2|rewrite (Hd _ H); exact K2|rewrite (Hd _ H); exact K2].
Qed.
