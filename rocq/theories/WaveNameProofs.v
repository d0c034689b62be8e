From Coq Require Import String Ascii List ZArith Bool Reals Lia Lra.
From Verif Require Import PathModel StrModel DecModel ParticleModel WaveSetModel WaveDescModel WaveNameModel WaveNameSpec.
Import ListNotations.
Open Scope list_scope. Open Scope Z_scope.

Lemma repl_app a b : repl (a ++ b) = repl a ++ repl b.
Proof. apply map_app. Qed.
Lemma repl_idem a : repl (repl a) = repl a.
Proof.
  unfold repl. rewrite map_map. apply map_ext. intros c. destruct (Ascii.eqb c "(" || Ascii.eqb c ")") eqn:E; [reflexivity|]. rewrite E. reflexivity.
Qed.
Lemma repl_id s : (forall c, In c s -> c <> "("%char /\ c <> ")"%char) -> repl s = s.
Proof.
  induction s as [|c s IH]; intros H; [reflexivity|]. cbn [repl map]. fold (repl s). rewrite IH by (intros x Hx; apply H; right; exact Hx).
  destruct (H c (or_introl eq_refl)) as [H1 H2]. destruct (Ascii.eqb_spec c "("); [contradiction|]. destruct (Ascii.eqb_spec c ")"); [contradiction|]. reflexivity.
Qed.
Lemma in_repl c s : In c (repl s) -> c = "_"%char \/ In c s.
Proof.
  unfold repl. rewrite in_map_iff. intros [x [<- H]]. destruct (_ || _); auto.
Qed.
Lemma clean_repl s : clean s -> clean (repl s).
Proof. intros H c Hc. apply in_repl in Hc. destruct Hc as [-> | Hc]; [repeat split; discriminate|apply H, Hc]. Qed.

(* special characters *)
Definition special (c : ascii) : Prop := c = "["%char \/ c = "]"%char \/ c = "="%char.
Definition nospecial (s : str) : Prop := forall c, In c s -> ~ special c.
Lemma nospecial_app a b : nospecial a -> nospecial b -> nospecial (a ++ b).
Proof. intros H1 H2 c Hc. apply in_app_iff in Hc. destruct Hc; auto. Qed.
Lemma clean_nospecial s : clean s -> nospecial s.
Proof. intros H c Hc [E|[E|E]]; destruct (H c Hc) as (A & B & C & D); contradiction. Qed.
Lemma split_unique u : forall v u' v' c c', nospecial u -> nospecial u' -> special c -> special c' -> u ++ c :: v = u' ++ c' :: v' -> u = u' /\ c = c' /\ v = v'.
Proof.
  induction u as [|x u IH]; intros v [|x' u'] v' c c' H1 H2 Hc Hc' E; cbn [app] in E.
  - injection E as E1 E2. auto.
  - injection E as E1 E2. exfalso. apply (H2 x' (or_introl eq_refl)). rewrite <- E1. exact Hc.
  - injection E as E1 E2. exfalso. apply (H1 x (or_introl eq_refl)). rewrite E1. exact Hc'.
  - injection E as -> E. destruct (IH v u' v' c c') as (-> & -> & ->); auto; intros y Hy; [apply H1|apply H2]; right; exact Hy.
Qed.
Lemma digit_facts c : isDigit c = true -> c <> "["%char /\ c <> "]"%char /\ c <> "="%char /\ c <> ","%char /\ c <> "("%char /\ c <> ")"%char /\
  c <> "-"%char /\ c <> "+"%char /\ c <> "."%char.
Proof. intros H. repeat split; intros ->; discriminate H. Qed.

(* texts of spins and parities *)
Lemma spinStr_chars z c : In c (spinStr z) -> isDigit c = true \/ c = "-"%char \/ c = "."%char.
Proof.
  unfold spinStr. rewrite !in_app_iff. intros [H|[H|H]].
  - destruct (z <? 0); [destruct H as [<-|[]]; auto|destruct H].
  - left. destruct (showNN_spec (Z.abs z / 2)) as (_ & F & _); [apply Z.div_pos; lia|]. rewrite forallb_forall in F. apply F, H.
  - destruct (Z.even z); [destruct H|]. destruct H as [<-|[<-|[]]]; auto.
Qed.
Lemma parityStr_chars z c : In c (parityStr z) -> c = "+"%char \/ c = "-"%char \/ c = "0"%char.
Proof. unfold parityStr, signStr. destruct (z =? 0); [intros []|]. destruct (z <? 0); [intros [<-|[]]; auto|]. destruct (0 <? z); intros [<-|[]]; auto. Qed.
Lemma spinStr_clean z : clean (spinStr z) /\ repl (spinStr z) = spinStr z.
Proof.
  split; [intros c Hc|apply repl_id; intros c Hc]; apply spinStr_chars in Hc; destruct Hc as [H|[-> | ->]]; try (repeat split; discriminate);
    apply digit_facts in H; tauto.
Qed.
Lemma parityStr_clean z : clean (parityStr z) /\ repl (parityStr z) = parityStr z.
Proof. split; [intros c Hc|apply repl_id; intros c Hc]; apply parityStr_chars in Hc; destruct Hc as [->|[-> | ->]]; repeat split; discriminate. Qed.

Definition stop (r : str) : Prop := match r with [] => True | c :: _ => isDigit c = false /\ c <> "."%char end.
Lemma spinStr_inj a b r r' : stop r -> stop r' -> spinStr a ++ r = spinStr b ++ r' -> a = b /\ r = r'.
Proof.
  intros Hr Hr' H. unfold spinStr in H. rewrite <- !app_assoc in H.
  destruct (showNN_spec (Z.abs a / 2)) as (Na & Fa & Va); [apply Z.div_pos; lia|].
  destruct (showNN_spec (Z.abs b / 2)) as (Nb & Fb & Vb); [apply Z.div_pos; lia|].
  assert (forall x y : str, x <> [] -> forallb isDigit x = true -> forall s t, x ++ s = "-"%char :: t -> False) as NoMinus.
  { intros x y Nx Fx s t E. destruct x as [|c x]; [congruence|]. cbn [app] in E. injection E as -> _. cbn in Fx. discriminate. }
  assert (forall m s : str, forall z, (forallb isDigit m = true) -> stop s -> span isDigit (m ++ (if Z.even z then [] else lit ".5"%string) ++ s) =
    (m, (if Z.even z then [] else lit ".5"%string) ++ s)) as SP.
  { intros m s z Fm Hs. apply span_end; [exact Fm|]. destruct (Z.even z); [destruct s; [exact I|apply Hs]|reflexivity]. }
  assert ((a <? 0) = (b <? 0) /\ showNN (Z.abs a / 2) ++ (if Z.even a then [] else lit ".5"%string) ++ r = showNN (Z.abs b / 2) ++ (if Z.even b then [] else lit ".5"%string) ++ r') as [HS HT].
  { destruct (a <? 0), (b <? 0); cbn [app] in H.
    - injection H as H. auto.
    - exfalso. symmetry in H. eapply (NoMinus _ []); [exact Nb|exact Fb|exact H].
    - exfalso. eapply (NoMinus _ []); [exact Na|exact Fa|exact H].
    - auto. }
  pose proof (SP _ r a Fa Hr) as S1. pose proof (SP _ r' b Fb Hr') as S2. rewrite HT in S1. rewrite S2 in S1. injection S1 as E1 E2.
  assert (Z.abs a / 2 = Z.abs b / 2) as EQ by (apply showNN_inj; [apply Z.div_pos; lia..|congruence]).
  assert (Z.even a = Z.even b /\ r = r') as [EE ER].
  { destruct (Z.even a), (Z.even b); cbn [lit list_ascii_of_string app] in E2.
    - auto.
    - exfalso. rewrite <- E2 in Hr. destruct Hr as [_ Hr]. congruence.
    - exfalso. rewrite E2 in Hr'. destruct Hr' as [_ Hr']. congruence.
    - injection E2 as E2. auto. }
  split; [|exact ER].
  assert (Z.even (Z.abs a) = Z.even (Z.abs b)) as EA.
  { destruct (Z.abs_spec a) as [[_ ->]|[_ ->]]; destruct (Z.abs_spec b) as [[_ ->]|[_ ->]]; rewrite ?Z.even_opp; exact EE. }
  pose proof (Zmod_even (Z.abs a)) as M1. pose proof (Zmod_even (Z.abs b)) as M2. rewrite EA in M1. rewrite <- M2 in M1.
  assert (Z.abs a = Z.abs b) as AB.
  { rewrite (Z.div_mod (Z.abs a) 2), (Z.div_mod (Z.abs b) 2) by lia. lia. }
  destruct (Z.ltb_spec a 0), (Z.ltb_spec b 0); try discriminate; lia.
Qed.
Lemma parityStr_inj a b r r' : signum a = a -> signum b = b -> (match r with [] => True | c :: _ => c <> "+"%char /\ c <> "-"%char end) ->
  (match r' with [] => True | c :: _ => c <> "+"%char /\ c <> "-"%char end) -> parityStr a ++ r = parityStr b ++ r' -> a = b /\ r = r'.
Proof.
  intros Ha Hb Hr Hr' H.
  assert (forall z, signum z = z -> z = -1 \/ z = 0 \/ z = 1) as SG.
  { intros z. unfold signum. destruct (Z.ltb_spec z 0), (Z.ltb_spec 0 z); lia. }
  destruct (SG a Ha) as [->|[-> | ->]]; destruct (SG b Hb) as [->|[-> | ->]]; cbn in H; try (split; [reflexivity|]; congruence);
    try (subst r; destruct Hr as [? ?]; congruence); try (subst r'; destruct Hr' as [? ?]; congruence); discriminate H.
Qed.
Lemma parityStr_inj1 a b r r' : a = 1 \/ a = -1 -> b = 1 \/ b = -1 -> parityStr a ++ r = parityStr b ++ r' -> a = b /\ r = r'.
Proof. intros [-> | ->] [-> | ->] H; cbn in H; try discriminate H; injection H as H; auto. Qed.

(* quantum numbers *)
Definition igjpc (p : pprops) : str := spinStr (pI p) ++ parityStr (pG p) ++ lit ","%string ++ spinStr (pJ p) ++ parityStr (pP p) ++ parityStr (pC p).
Lemma stop_par z r : stop r -> (z = 0 \/ z = 1 \/ z = -1) -> stop (parityStr z ++ r).
Proof. intros H [->|[-> | ->]]; cbn; [exact H|split; [reflexivity|discriminate]..]. Qed.
Lemma parities_cases p : parities p -> (pG p = 0 \/ pG p = 1 \/ pG p = -1) /\ (pC p = 0 \/ pC p = 1 \/ pC p = -1) /\ (pP p = 1 \/ pP p = -1).
Proof.
  intros (H1 & H2 & H3).
  assert (forall z, signum z = z -> z = 0 \/ z = 1 \/ z = -1) as SG.
  { intros z. unfold signum. destruct (Z.ltb_spec z 0), (Z.ltb_spec 0 z); lia. }
  auto.
Qed.
Definition sep (r : str) : Prop := match r with [] => True | c :: _ => c = ","%char \/ c = "]"%char end.
Lemma sep_stop r : sep r -> stop r.
Proof. destruct r; [auto|]. cbn. intros [-> | ->]; split; try reflexivity; discriminate. Qed.
Lemma sep_par r : sep r -> match r with [] => True | c :: _ => c <> "+"%char /\ c <> "-"%char end.
Proof. destruct r; [auto|]. cbn. intros [-> | ->]; split; discriminate. Qed.
Lemma igjpc_inj p q r r' : parities p -> parities q -> sep r -> sep r' -> igjpc p ++ r = igjpc q ++ r' -> sameQn p q /\ r = r'.
Proof.
  intros Hp Hq Hr Hr' H. unfold igjpc in H. rewrite <- !app_assoc in H.
  destruct (parities_cases p Hp) as (Gp & Cp & Pp). destruct (parities_cases q Hq) as (Gq & Cq & Pq).
  apply spinStr_inj in H; [|apply stop_par; [split; [reflexivity|discriminate]|exact Gp]|apply stop_par; [split; [reflexivity|discriminate]|exact Gq]].
  destruct H as [EI H]. apply parityStr_inj in H; [|apply Hp|apply Hq|split; discriminate|split; discriminate].
  destruct H as [EG H]. cbn [lit list_ascii_of_string app] in H. injection H as H.
  apply spinStr_inj in H; [|apply stop_par; [apply stop_par; [apply sep_stop, Hr|exact Cp]|tauto]|apply stop_par; [apply stop_par; [apply sep_stop, Hr'|exact Cq]|tauto]].
  destruct H as [EJ H]. apply parityStr_inj1 in H; [|exact Pp|exact Pq]. destruct H as [EP H].
  apply parityStr_inj in H; [|apply Hp|apply Hq|apply sep_par, Hr|apply sep_par, Hr']. destruct H as [EC H].
  unfold sameQn. split; [|exact H]. split; [exact EI|]. split; [exact EG|]. split; [exact EJ|]. split; [exact EP|exact EC].
Qed.
Lemma igjpc_repl p : repl (igjpc p) = igjpc p.
Proof. unfold igjpc. rewrite !repl_app. rewrite !(proj2 (spinStr_clean _)), !(proj2 (parityStr_clean _)). reflexivity. Qed.
Lemma igjpc_nospecial p : nospecial (igjpc p).
Proof.
  assert (nospecial (lit ","%string)) as HC by (intros c [<-|[]] [E|[E|E]]; discriminate).
  assert (forall z, nospecial (spinStr z)) as HS by (intros z; apply clean_nospecial, spinStr_clean).
  assert (forall z, nospecial (parityStr z)) as HP by (intros z; apply clean_nospecial, parityStr_clean).
  unfold igjpc. do 5 (apply nospecial_app; [auto|]). auto.
Qed.

Lemma comma_split u : forall v u' v', ~ In ","%char u -> ~ In ","%char u' -> u ++ ","%char :: v = u' ++ ","%char :: v' -> u = u' /\ v = v'.
Proof.
  induction u as [|x u IH]; intros v [|x' u'] v' H1 H2 E; cbn [app] in E.
  - injection E as E. auto.
  - injection E as E1 E2. exfalso. apply H2. left. auto.
  - injection E as E1 E2. exfalso. apply H1. left. auto.
  - injection E as -> E. destruct (IH v u' v') as [-> ->]; auto; intros Hy; [apply H1|apply H2]; right; exact Hy.
Qed.
Lemma numText_facts s : numText s -> clean s /\ repl s = s.
Proof.
  intros H. assert (forall c, In c s -> isDigit c = true \/ In c (list_ascii_of_string "+-.eE")) as HC.
  { intros c Hc. specialize (H c Hc). unfold numChar in H. apply orb_prop in H. destruct H as [H|H]; [auto|right].
    apply existsb_exists in H. destruct H as [d [Hd E]]. apply Ascii.eqb_eq in E. subst d. exact Hd. }
  split; [intros c Hc|apply repl_id; intros c Hc]; destruct (HC c Hc) as [D|D]; try (apply digit_facts in D; tauto);
    cbn in D; repeat (destruct D as [<-|D]; [repeat split; discriminate|]); destruct D.
Qed.
Lemma clean_nocomma s : clean s -> ~ In ","%char s.
Proof. intros H Hc. destruct (H _ Hc) as (_ & _ & _ & E). congruence. Qed.
Lemma cleanTag_facts s : cleanTag s -> nospecial (repl s).
Proof.
  intros H c Hc HS. apply in_repl in Hc. destruct Hc as [-> | Hc].
  - destruct HS as [E|[E|E]]; discriminate.
  - specialize (H c Hc). destruct HS as [->|[-> | ->]]; discriminate H.
Qed.

(* labels in two parts *)
Definition labU (showD : R -> str) (md : mdep) : str :=
  match md with
  | MGlass g => lit "KPiSGLASS<"%string ++ repl (gTag g) ++ lit ">"%string
  | MPalano mm => lit "KPiSPalanoPennington<MMax_"%string ++ showD mm ++ lit "GeV>"%string
  | _ => mdName md
  end.
Definition labV (showD : R -> str) (md : mdep) (p : pprops) : str :=
  match md with
  | MFlat => igjpc p
  | MBinned lo hi => igjpc p ++ ","%char :: showD lo ++ ","%char :: showD hi
  | _ => repl (name p)
  end.
Definition mdNameable (showD : R -> str) (md : mdep) : Prop :=
  match md with MGlass g => cleanTag (gTag g) | MBinned lo hi => numText (showD lo) /\ numText (showD hi) | MPalano m => numText (showD m) | _ => True end.
Lemma label_eq showD md p : mdNameable showD md -> md <> MBW -> repl (parentLabel showD md p) = labU showD md ++ "["%char :: labV showD md p ++ "]"%char :: [].
Proof.
  intros HM HB. destruct md; try (exfalso; apply HB; reflexivity); unfold parentLabel; cbv zeta;
    try (change (spinStr (pI p) ++ parityStr (pG p) ++ lit ","%string ++ spinStr (pJ p) ++ parityStr (pP p) ++ parityStr (pC p)) with (igjpc p));
    rewrite ?repl_app, ?igjpc_repl.
  - reflexivity.
  - destruct HM as [H1 H2]. rewrite (proj2 (numText_facts _ H1)), (proj2 (numText_facts _ H2)).
    cbn [labU labV mdName]. rewrite <- ?app_assoc. cbn [app]. rewrite <- ?app_assoc. reflexivity.
  - reflexivity.
  - reflexivity.
  - reflexivity.
  - reflexivity.
  - reflexivity.
  - reflexivity.
  - reflexivity.
  - reflexivity.
  - cbn [labU labV mdName]. rewrite <- !app_assoc. reflexivity.
  - cbn [labU labV mdName]. rewrite (proj2 (numText_facts _ HM)). rewrite <- !app_assoc. reflexivity.
Qed.
Lemma lit_nospecial (s : string) : forallb (fun c => negb (Ascii.eqb c "[" || Ascii.eqb c "]" || Ascii.eqb c "=")) (lit s) = true -> nospecial (lit s).
Proof. intros H c Hc HS. rewrite forallb_forall in H. specialize (H c Hc). destruct HS as [->|[-> | ->]]; discriminate H. Qed.
Lemma labU_nospecial showD md : mdNameable showD md -> nospecial (labU showD md).
Proof.
  intros H. destruct md; try (apply lit_nospecial; reflexivity).
  - cbn [labU]. apply nospecial_app; [apply lit_nospecial; reflexivity|]. apply nospecial_app; [apply cleanTag_facts, H|apply lit_nospecial; reflexivity].
  - cbn [labU]. apply nospecial_app; [apply lit_nospecial; reflexivity|]. apply nospecial_app; [apply clean_nospecial, (numText_facts _ H)|apply lit_nospecial; reflexivity].
Qed.
Lemma labV_nospecial showD md p : mdNameable showD md -> clean (name p) -> nospecial (labV showD md p).
Proof.
  intros H HN. destruct md; try (apply clean_nospecial, clean_repl, HN).
  - apply igjpc_nospecial.
  - cbn [labV]. destruct H as [H1 H2].
    change (igjpc p ++ ","%char :: showD lo ++ ","%char :: showD hi) with (igjpc p ++ [","%char] ++ showD lo ++ [","%char] ++ showD hi).
    assert (nospecial [","%char]) as HC by (intros c [<-|[]] [E|[E|E]]; discriminate).
    apply nospecial_app; [apply igjpc_nospecial|]. apply nospecial_app; [exact HC|].
    apply nospecial_app; [apply clean_nospecial, (numText_facts _ H1)|]. apply nospecial_app; [exact HC|apply clean_nospecial, (numText_facts _ H2)].
Qed.
Lemma sameQn_igjpc p q : sameQn p q -> igjpc p = igjpc q.
Proof. intros (H1 & H2 & H3 & H4 & H5). unfold igjpc. congruence. Qed.
Lemma lab_inj showD md md' p q : mdNameable showD md -> mdNameable showD md' -> parities p -> parities q -> md <> MBW -> md' <> MBW ->
  labU showD md = labU showD md' -> labV showD md p = labV showD md' q -> sameIsobar showD md md' p q.
Proof.
  intros HM HM' Hp Hq B B' EU EV.
  destruct md, md'; try (exfalso; apply B; reflexivity); try (exfalso; apply B'; reflexivity); try discriminate EU; cbn [sameIsobar labU labV] in *;
    try (split; [reflexivity|exact EV]).
  - apply (igjpc_inj p q [] []); try assumption; try exact I. rewrite !app_nil_r. exact EV.
  - apply igjpc_inj in EV; try assumption; try (left; reflexivity). destruct EV as [EQ EV]. injection EV as EV.
    destruct HM as [H1 H2], HM' as [H1' H2'].
    apply comma_split in EV; try (apply clean_nocomma, numText_facts; assumption). tauto.
  - split; [|exact EV]. apply app_inv_head in EU. apply app_inv_tail in EU. exact EU.
  - split; [|exact EV]. apply app_inv_head in EU. apply app_inv_tail in EU. exact EU.
Qed.
Lemma same_lab showD md md' p q : sameIsobar showD md md' p q -> labU showD md = labU showD md' /\ labV showD md p = labV showD md' q /\ (md = MBW <-> md' = MBW).
Proof.
  intros H. destruct md, md'; cbn [sameIsobar] in H; try contradiction; try (destruct H as [H _]; discriminate H); cbn [labU labV];
    try (destruct H as [_ H]; split; [reflexivity|]; split; [exact H|]; split; intros E; try discriminate E; reflexivity).
  - split; [reflexivity|]. split; [apply sameQn_igjpc, H|split; discriminate].
  - destruct H as (H & -> & ->). split; [reflexivity|]. rewrite (sameQn_igjpc _ _ H). split; [reflexivity|split; discriminate].
  - destruct H as (-> & H). split; [reflexivity|]. split; [exact H|split; discriminate].
  - destruct H as (-> & H). split; [reflexivity|]. split; [exact H|split; discriminate].
Qed.

Definition dau (showD : R -> str) (x : wdecay) : str :=
  match x with WFs p => repl (name (ptP p)) | WNode p _ _ md _ _ => repl (parentLabel showD md (ptP p)) ++ decayName showD x end.
Lemma decayName_repl showD d : repl (decayName showD d) = decayName showD d.
Proof. destruct d; [reflexivity|]. cbn [decayName]. apply repl_idem. Qed.
Lemma decayName_eq showD p L Sp md d1 d2 : decayName showD (WNode p L Sp md d1 d2) =
  "="%char :: "["%char :: dau showD d1 ++ "["%char :: spinStr L ++ ","%char :: spinStr Sp ++ "]"%char :: dau showD d2 ++ "]"%char :: [].
Proof.
  cbn [decayName]. rewrite !repl_app, !(proj2 (spinStr_clean _)).
  assert (forall x, repl (match x with WFs p => name (ptP p) | WNode p _ _ md _ _ => parentLabel showD md (ptP p) ++ decayName showD x end) = dau showD x) as E.
  { intros [q|q L' S' m a b]; [reflexivity|]. cbn [dau]. rewrite repl_app, decayName_repl. reflexivity. }
  pose proof (E d1) as E1. pose proof (E d2) as E2. cbv beta zeta. cbn [decayName] in E1, E2. rewrite E1, E2. reflexivity.
Qed.
Definition cont (r : str) : Prop := (exists a b r0, r = "["%char :: spinStr a ++ ","%char :: spinStr b ++ "]"%char :: r0) \/ exists r0, r = "]"%char :: r0.
Lemma sp_open : special "["%char. Proof. left; reflexivity. Qed.
Lemma sp_close : special "]"%char. Proof. right; left; reflexivity. Qed.
Lemma sp_eq : special "="%char. Proof. right; right; reflexivity. Qed.
(* the second part of a label is not a pair of spins *)
Lemma labV_not_LS showD md p a b : mdNameable showD md -> clean (name p) -> parities p -> labV showD md p <> spinStr a ++ ","%char :: spinStr b.
Proof.
  intros HM HN HP E.
  assert (forall s, clean s -> s <> spinStr a ++ ","%char :: spinStr b) as CL.
  { intros s Hs ->. apply (clean_nocomma _ Hs). apply in_app_iff. right. left. reflexivity. }
  assert (forall r, sep r -> igjpc p ++ r <> spinStr a ++ ","%char :: spinStr b) as IG.
  { intros r Hr E2. unfold igjpc in E2. rewrite <- !app_assoc in E2. destruct (parities_cases p HP) as (Gp & Cp & Pp).
    apply spinStr_inj in E2; [|apply stop_par; [split; [reflexivity|discriminate]|exact Gp]|split; [reflexivity|discriminate]].
    destruct E2 as [_ E2]. destruct Gp as [G|[G|G]]; rewrite G in E2; cbn [parityStr signStr Z.eqb Z.ltb Z.compare app] in E2; try discriminate E2.
    cbn [lit list_ascii_of_string app] in E2. injection E2 as E2.
    rewrite <- (app_nil_r (spinStr b)) in E2.
    apply spinStr_inj in E2; [|apply stop_par; [apply stop_par; [apply sep_stop, Hr|exact Cp]|tauto]|exact I].
    destruct E2 as [_ E2]. destruct Pp as [P|P]; rewrite P in E2; discriminate E2. }
  destruct md; cbn [labV] in E; try (apply (CL _ (clean_repl _ HN)), E).
  - apply (IG [] I). rewrite app_nil_r. exact E.
  - apply (IG (","%char :: showD lo ++ ","%char :: showD hi)); [left; reflexivity|exact E].
Qed.
Lemma bw_dec md : md = MBW \/ md <> MBW.
Proof. destruct md; (left; reflexivity) || (right; discriminate). Qed.

Lemma dau_inj showD : forall x y r r', nameable showD x -> nameable showD y -> cont r -> cont r' -> dau showD x ++ r = dau showD y ++ r' ->
  sameDaughter showD x y /\ r = r'.
Proof.
  assert (forall r, cont r -> exists c t, r = c :: t /\ special c /\ c <> "="%char) as CS.
  { intros r [(a & b & r0 & ->)|(r0 & ->)]; do 2 eexists; (split; [reflexivity|]); split; [apply sp_open|discriminate|apply sp_close|discriminate]. }
  assert (forall f q L S' md d1 d2 r r', nameable showD (WFs f) -> nameable showD (WNode q L S' md d1 d2) -> cont r ->
     dau showD (WFs f) ++ r = dau showD (WNode q L S' md d1 d2) ++ r' -> False) as Mixed.
  { intros f q L S' md d1 d2 r r' Hf (Hn & Hp & Hm & _) Hr E. fold (mdNameable showD md) in Hm. cbn [dau] in E.
    pose proof (clean_nospecial _ (clean_repl _ Hf)) as NF.
    rewrite decayName_eq in E. destruct (bw_dec md) as [->|B].
    - cbn [parentLabel] in E. rewrite <- app_assoc in E. cbn [app] in E. destruct (CS r Hr) as (c & t & -> & Sc & Nc).
      apply split_unique in E; [destruct E as (_ & E & _); contradiction|exact NF|apply clean_nospecial, clean_repl, Hn|exact Sc|apply sp_eq].
    - rewrite (label_eq _ _ _ Hm B) in E. rewrite <- !app_assoc in E. cbn [app] in E.
      destruct Hr as [(a & b & r0 & ->)|(r0 & ->)].
      + apply split_unique in E; [|exact NF|apply labU_nospecial, Hm|apply sp_open|apply sp_open]. destruct E as (_ & _ & E).
        change (spinStr a ++ ","%char :: spinStr b ++ "]"%char :: r0) with (spinStr a ++ [","%char] ++ spinStr b ++ "]"%char :: r0) in E.
        rewrite !app_assoc in E. rewrite <- (app_assoc _ [_] _) in E. rewrite <- !app_assoc in E. cbn [app] in E.
        assert (spinStr a ++ ","%char :: spinStr b ++ "]"%char :: r0 = (spinStr a ++ ","%char :: spinStr b) ++ "]"%char :: r0) as EA by (rewrite <- app_assoc; reflexivity).
        rewrite EA in E.
        apply split_unique in E; [|apply nospecial_app; [apply clean_nospecial, spinStr_clean|]|apply labV_nospecial; [exact Hm|exact Hn]|apply sp_close|apply sp_close].
        * destruct E as (E & _). symmetry in E. apply (labV_not_LS showD md _ a b Hm Hn Hp E).
        * intros c [<-|Hc]; [intros [Q|[Q|Q]]; discriminate|revert c Hc; apply clean_nospecial, spinStr_clean].
      + apply split_unique in E; [destruct E as (_ & E & _); discriminate E|exact NF|apply labU_nospecial, Hm|apply sp_close|apply sp_open]. }
  induction x as [f|p L Sp md d1 IH1 d2 IH2]; intros y r r' Hx Hy Hr Hr' E; destruct y as [g|q L' Sp' md' e1 e2].
  - cbn [dau] in E. destruct (CS r Hr) as (c & t & -> & Sc & _). destruct (CS r' Hr') as (c' & t' & -> & Sc' & _).
    apply split_unique in E; [|apply clean_nospecial, clean_repl, Hx|apply clean_nospecial, clean_repl, Hy|exact Sc|exact Sc'].
    destruct E as (E & -> & ->). split; [exact E|reflexivity].
  - exfalso. eapply Mixed; [exact Hx|exact Hy|exact Hr|exact E].
  - exfalso. symmetry in E. eapply Mixed; [exact Hy|exact Hx|exact Hr'|exact E].
  - cbn [dau] in E. destruct Hx as (Nx & Px & Mx & H1 & H2). destruct Hy as (Ny & Py & My & H1' & H2').
    fold (mdNameable showD md) in Mx. fold (mdNameable showD md') in My.
    rewrite !decayName_eq in E. rewrite <- !app_assoc in E.
    assert (sameIsobar showD md md' (ptP p) (ptP q) /\
      dau showD d1 ++ "["%char :: spinStr L ++ ","%char :: spinStr Sp ++ "]"%char :: dau showD d2 ++ "]"%char :: r =
      dau showD e1 ++ "["%char :: spinStr L' ++ ","%char :: spinStr Sp' ++ "]"%char :: dau showD e2 ++ "]"%char :: r') as [SI ER].
    { destruct (bw_dec md) as [->|B]; destruct (bw_dec md') as [->|B'].
      - cbn [parentLabel app] in E. rewrite <- ?app_assoc in E. cbn [app] in E.
        apply split_unique in E; [|apply clean_nospecial, clean_repl, Nx|apply clean_nospecial, clean_repl, Ny|apply sp_eq|apply sp_eq].
        destruct E as (E1 & _ & E). injection E as E. rewrite <- ?app_assoc in E. cbn [app] in E. rewrite <- ?app_assoc in E. cbn [app] in E. rewrite <- ?app_assoc in E. cbn [app] in E. rewrite <- ?app_assoc in E. cbn [app] in E.
        split; [split; [reflexivity|exact E1]|exact E].
      - exfalso. rewrite (label_eq _ _ _ My B') in E. cbn [parentLabel app] in E. rewrite <- ?app_assoc in E. cbn [app] in E.
        apply split_unique in E; [destruct E as (_ & E & _); discriminate E|apply clean_nospecial, clean_repl, Nx|apply labU_nospecial, My|apply sp_eq|apply sp_open].
      - exfalso. rewrite (label_eq _ _ _ Mx B) in E. cbn [parentLabel app] in E. rewrite <- ?app_assoc in E. cbn [app] in E.
        apply split_unique in E; [destruct E as (_ & E & _); discriminate E|apply labU_nospecial, Mx|apply clean_nospecial, clean_repl, Ny|apply sp_open|apply sp_eq].
      - rewrite (label_eq _ _ _ Mx B), (label_eq _ _ _ My B') in E. rewrite <- ?app_assoc in E. cbn [app] in E. rewrite <- ?app_assoc in E. cbn [app] in E.
        apply split_unique in E; [|apply labU_nospecial, Mx|apply labU_nospecial, My|apply sp_open|apply sp_open]. destruct E as (EU & _ & E).
        apply split_unique in E; [|apply labV_nospecial; [exact Mx|exact Nx]|apply labV_nospecial; [exact My|exact Ny]|apply sp_close|apply sp_close]. destruct E as (EV & _ & E).
        injection E as E. rewrite <- ?app_assoc in E. cbn [app] in E. rewrite <- ?app_assoc in E. cbn [app] in E. rewrite <- ?app_assoc in E. cbn [app] in E. rewrite <- ?app_assoc in E. cbn [app] in E.
        split; [apply lab_inj; assumption|exact E]. }
    apply IH1 in ER; try assumption; [|left; do 3 eexists; reflexivity|left; do 3 eexists; reflexivity].
    destruct ER as [S1 ER]. injection ER as ER.
    apply spinStr_inj in ER; [|split; [reflexivity|discriminate]|split; [reflexivity|discriminate]]. destruct ER as [EL ER]. injection ER as ER.
    apply spinStr_inj in ER; [|split; [reflexivity|discriminate]|split; [reflexivity|discriminate]]. destruct ER as [ES ER]. injection ER as ER.
    apply IH2 in ER; try assumption; [|right; eexists; reflexivity|right; eexists; reflexivity]. destruct ER as [S2 ER]. injection ER as ER.
    split; [|exact ER]. cbn [sameDaughter]. auto.
Qed.
Lemma dau_same showD : forall x y, nameable showD x -> nameable showD y -> sameDaughter showD x y -> dau showD x = dau showD y.
Proof.
  induction x as [f|p L Sp md d1 IH1 d2 IH2]; intros [g|q L' Sp' md' e1 e2] Hx Hy H; cbn [sameDaughter] in H; try contradiction.
  - exact H.
  - destruct H as (SI & -> & -> & S1 & S2). destruct Hx as (Nx & Px & Mx & H1 & H2). destruct Hy as (Ny & Py & My & H1' & H2').
    fold (mdNameable showD md) in Mx. fold (mdNameable showD md') in My.
    cbn [dau]. rewrite !decayName_eq. rewrite (IH1 e1 H1 H1' S1), (IH2 e2 H2 H2' S2). f_equal.
    destruct (same_lab _ _ _ _ _ SI) as (EU & EV & EB). destruct (bw_dec md) as [->|B].
    + rewrite (proj1 EB eq_refl). cbn [parentLabel]. rewrite (proj1 EB eq_refl) in EV. exact EV.
    + assert (md' <> MBW) as B' by (intros Q; apply B, EB, Q). rewrite (label_eq _ _ _ Mx B), (label_eq _ _ _ My B'), EU, EV. reflexivity.
Qed.
