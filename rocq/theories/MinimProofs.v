(* C91: lemmas on the variables of the minimizer. *)
From Coq Require Import String Ascii List ZArith Bool Reals Lia Lra.
From Coquelicot Require Import Complex.
From Verif Require Import PathModel StrModel DecModel CGBoxModel ParticleModel ParticleProps AmpIntModel ResCacheModel ResTransSpec ResTransProofs ResTransProps MinimModel MinimSpec.
Import ListNotations.
Open Scope list_scope. Open Scope nat_scope.

(* ---- words ---- *)
Lemma isBlank_iff c : isBlank c = true <-> blank c.
Proof.
  unfold isBlank, blank. rewrite !orb_true_iff. split.
  - intros [[H|H]|H]; apply Ascii.eqb_eq in H; auto.
  - intros [H|[H|H]]; subst; auto.
Qed.
Lemma wordsFrom_in t : forall s cur, (forall c, In c cur -> ~ blank c) -> In t (wordsFrom cur s) ->
  t <> [] /\ (forall c, In c t -> ~ blank c) /\ ((exists w post, t = cur ++ w /\ s = w ++ post /\ (post = [] \/ exists c q, post = c :: q /\ blank c))
    \/ exists pre post, s = pre ++ t ++ post /\ (exists q c, pre = q ++ [c] /\ blank c) /\ (post = [] \/ exists c q, post = c :: q /\ blank c)).
Proof.
  induction s as [|a s IH]; intros cur HC HI.
  - cbn in HI. destruct cur as [|x cur]; [destruct HI|]. destruct HI as [<-|[]]. split; [discriminate|]. split; [exact HC|]. left. exists [], []. rewrite app_nil_r. auto.
  - cbn [wordsFrom] in HI. destruct (isBlank a) eqn:B.
    + apply isBlank_iff in B.
      assert (In t (wordsFrom [] s) -> t <> [] /\ (forall c, In c t -> ~ blank c) /\ exists pre post, a :: s = pre ++ t ++ post /\ (exists q c, pre = q ++ [c] /\ blank c) /\ (post = [] \/ exists c q, post = c :: q /\ blank c)) as K.
      { intros H. destruct (IH [] (fun c (H : In c []) => match H with end) H) as (A & A2 & [(w & post & Ew & Es & Q)|(pre & post & Es & (q & c & Ep & Bc) & Q)]); (split; [exact A|]; split; [exact A2|]).
        - cbn in Ew. subst t. exists [a], post. subst s. split; [reflexivity|]. split; [exists [], a; auto|exact Q].
        - exists (a :: pre), post. subst s. split; [reflexivity|]. split; [exists (a :: q), c; subst pre; auto|exact Q]. }
      destruct cur as [|x cur].
      * destruct (K HI) as (A & A2 & A3). auto.
      * destruct HI as [<-|HI]; [|destruct (K HI) as (A & A2 & A3); auto]. split; [discriminate|]. split; [exact HC|]. left. exists [], (a :: s). rewrite app_nil_r. split; [reflexivity|]. split; [reflexivity|]. right. eauto.
    + assert (~ blank a) as NB by (intros H; apply isBlank_iff in H; congruence).
      destruct (IH (cur ++ [a])) as (A & A2 & A3); [intros c H; apply in_app_iff in H as [H|[<-|[]]]; auto|exact HI|]. split; [exact A|]. split; [exact A2|]. destruct A3 as [(w & post & Ew & Es & Q)|(pre & post & Es & (q & c & Ep & Bc) & Q)].
      * left. exists (a :: w), post. rewrite <- app_assoc in Ew. subst s. auto.
      * right. exists (a :: pre), post. subst s. split; [reflexivity|]. split; [exists (a :: q), c; subst pre; auto|exact Q].
Qed.
Lemma wordsFrom_word : forall w cur post, (forall c, In c w -> ~ blank c) -> cur ++ w <> [] -> (post = [] \/ exists c q, post = c :: q /\ blank c) -> In (cur ++ w) (wordsFrom cur (w ++ post)).
Proof.
  induction w as [|a w IH]; intros cur post NB NE Q.
  - rewrite app_nil_r in *. cbn [app]. destruct Q as [->|(c & q & -> & Bc)]; cbn; [|apply isBlank_iff in Bc; rewrite Bc]; (destruct cur; [contradiction|now left]).
  - cbn [app wordsFrom]. destruct (isBlank a) eqn:B; [apply isBlank_iff in B; exfalso; apply (NB a); [now left|exact B]|].
    replace (cur ++ a :: w) with ((cur ++ [a]) ++ w) by (now rewrite <- app_assoc). apply IH; [intros c H; apply NB; now right| |exact Q]. rewrite <- app_assoc. exact NE.
Qed.
Lemma wordsFrom_later : forall pre cur rest t c, blank c -> In t (wordsFrom [] rest) -> In t (wordsFrom cur (pre ++ c :: rest)).
Proof.
  induction pre as [|a pre IH]; intros cur rest t c Bc HI; cbn [app wordsFrom].
  - apply isBlank_iff in Bc. rewrite Bc. destruct cur; [exact HI|now right].
  - destruct (isBlank a); [|now apply IH]. destruct cur; [now apply IH|]. right. now apply IH.
Qed.
Lemma has_word rel t : has rel t = true <-> isWord rel t.
Proof.
  unfold has. rewrite existsb_exists. split.
  - intros (x & HI & E). apply str_eqb_eq in E. subst x. destruct (wordsFrom_in t rel [] (fun c (H : In c []) => match H with end) HI) as (A & A2 & [(w & post & Ew & Es & Q)|(pre & post & Es & W & Q)]).
    + cbn in Ew. subst w. split; [exact A|]. split; [exact A2|]. exists [], post. auto.
    + split; [exact A|]. split; [exact A2|]. exists pre, post. auto.
  - intros (A & A2 & pre & post & -> & W & Q). exists t. split; [|apply str_eqb_refl].
    pose proof (wordsFrom_word t [] post A2 A Q) as G. cbn [app] in G. destruct W as [->|(q & c & -> & Bc)]; [exact G|]. rewrite <- app_assoc. cbn [app]. now apply wordsFrom_later.
Qed.
Lemma cut_ok s : cutAt s (beforeEq s) (afterEq s).
Proof.
  unfold afterEq. assert (match afterEqO s with Some r => s = beforeEq s ++ "="%char :: r /\ ~ In "="%char (beforeEq s) | None => ~ In "="%char s /\ beforeEq s = s end) as H.
  { induction s as [|a s IH]; [split; [intros []|reflexivity]|]. cbn. destruct (Ascii.eqb_spec a "="%char) as [->|NE]; [split; [reflexivity|intros []]|].
    destruct (afterEqO s) as [r|].
    - destruct IH as [IH1 IH2]. split; [cbn; now rewrite <- IH1|]. intros [H|H]; [congruence|contradiction].
    - destruct IH as [IH1 IH2]. split; [intros [H|H]; [congruence|contradiction]|now rewrite IH2]. }
  destruct (afterEqO s) as [r|]; [left; exact H|right]. destruct H as [H1 H2]. rewrite H2. auto.
Qed.

(* ---- loops that add variables ---- *)
Definition adds (F : nat * list var -> option (nat * list var)) (l : list var) : Prop :=
  forall n vs, n = length vs -> F (n, vs) = Some (n + length l, vs ++ l).
Lemma adds_put v : adds (put v) [v].
Proof. intros n vs ->. unfold put. cbn [fst snd]. rewrite Nat.eqb_refl. cbn. now rewrite Nat.add_1_r. Qed.
Lemma adds_nil : adds (fun s => Some s) [].
Proof. intros n vs ->. cbn. now rewrite Nat.add_0_r, app_nil_r. Qed.
Lemma adds_bnd F G l k : adds F l -> adds G k -> adds (fun s => do s1 <- F s; G s1) (l ++ k).
Proof. intros HF HG n vs E. rewrite (HF n vs E). cbn [bnd]. rewrite HG by (rewrite app_length; lia). rewrite app_length, app_assoc. f_equal. f_equal. lia. Qed.
Lemma adds_fold {B} (F : B -> nat * list var -> option (nat * list var)) (g : B -> list var) l : (forall x, In x l -> adds (F x) (g x)) -> adds (foldO F l) (flat_map g l).
Proof.
  induction l as [|x l IH]; intros H; [apply adds_nil|]. intros n vs E. cbn [foldO flat_map]. rewrite (H x (or_introl eq_refl) n vs E). cbn [bnd].
  rewrite IH; [|intros y Hy; apply H; now right|rewrite app_length; lia]. rewrite app_length, app_assoc. f_equal. f_equal. lia.
Qed.
Lemma flat_map_flat {A B C'} (g : B -> list C') (h : A -> list B) l : flat_map g (flat_map h l) = flat_map (fun x => flat_map g (h x)) l.
Proof. induction l as [|x l IH]; [reflexivity|]. cbn. now rewrite flat_map_app, IH. Qed.
Lemma flat_map_map {A B C'} (g : B -> list C') (h : A -> B) l : flat_map g (map h l) = flat_map (fun x => g (h x)) l.
Proof. induction l as [|x l IH]; [reflexivity|]. cbn. now rewrite IH. Qed.
Lemma flat_map_ext_in {A B} (g h : A -> list B) l : (forall x, In x l -> g x = h x) -> flat_map g l = flat_map h l.
Proof. induction l as [|x l IH]; intros H; [reflexivity|]. cbn. rewrite H by now left. f_equal. apply IH. intros y Hy. apply H. now right. Qed.
Lemma flat_map_index {A B} (g : nat -> list B) (h : A -> list B) (l : list A) : (forall i x, nth_error l i = Some x -> g i = h x) -> flat_map g (upTo (length l)) = flat_map h l.
Proof.
  unfold upTo. assert (forall s, (forall i x, nth_error l i = Some x -> g (s + i) = h x) -> flat_map g (List.seq s (length l)) = flat_map h l) as K.
  { induction l as [|x l IH]; intros s H; [reflexivity|]. cbn. rewrite <- (H 0 x eq_refl), Nat.add_0_r. f_equal. apply IH. intros i y E. rewrite <- (H (S i) y E). f_equal. lia. }
  intros H. now apply K.
Qed.
Lemma nth_flat2 {A B} (g : A -> list B) l : (forall x, In x l -> length (g x) = 2) -> forall j x r, nth_error l j = Some x -> r < 2 ->
  nth_error (flat_map g l) (2 * j + r) = nth_error (g x) r.
Proof.
  induction l as [|y l IH]; intros HL j x r H Hr; [destruct j; discriminate|]. cbn [flat_map]. pose proof (HL y (or_introl eq_refl)) as L2. destruct j as [|j].
  - injection H as ->. rewrite nth_error_app1 by lia. f_equal.
  - rewrite nth_error_app2 by lia. rewrite L2. replace (2 * S j + r - 2) with (2 * j + r) by lia. apply IH; auto. intros z Hz. apply HL. now right.
Qed.
Lemma len_flat2 {A B} (g : A -> list B) l : (forall x, In x l -> length (g x) = 2) -> length (flat_map g l) = 2 * length l.
Proof. induction l as [|y l IH]; intros HL; [reflexivity|]. cbn [flat_map length]. rewrite app_length, IH by (intros x Hx; apply HL; now right). rewrite (HL y (or_introl eq_refl)). lia. Qed.

Lemma flat_single {A B} (g : A -> list B) l : (forall x, In x l -> length (g x) = 1) -> length (flat_map g l) = length l /\ forall j x, nth_error l j = Some x -> nth_error (flat_map g l) j = nth_error (g x) 0.
Proof.
  induction l as [|y l IH]; intros HL; [split; [reflexivity|intros [|j]; discriminate]|]. destruct IH as [I1 I2]; [intros x Hx; apply HL; now right|]. pose proof (HL y (or_introl eq_refl)) as Ly.
  cbn [flat_map]. split; [rewrite app_length, I1, Ly; reflexivity|]. intros [|j] x H.
  - injection H as ->. apply nth_error_app1. lia.
  - rewrite nth_error_app2 by lia. rewrite Ly. replace (S j - 1) with j by lia. now apply I2.
Qed.

Section Fit.
Variables (f : fitModel) (nm : list nat) (mc : nat -> nat -> R) (nw nch nmass : nat).
Hypothesis WF : wfMin f nm mc nw nch nmass.
Variables (P : params) (rel : str).
Notation md := (fmModel f).
Definition coupVars (x : nat * nat * nat) : list var :=
  let '(i, k, b) := x in
  match nth_error (mComps md) i, nth_error (fmComps f) i with
  | Some o, Some c => match nth_error (oFromCoup o) k with
      | Some ms => match nth_error (oChans o) ms with
          | Some chan => let set := if coupFree rel o c chan b then Free (1 / 10) None None else Fixed in
              [Var (coupName o c chan b ++ lit "__real") (fst (pCoup P i k b)) set;
               Var (coupName o c chan b ++ lit "__imag") (if isAnchor f b (waveIdx chan b) i then 0%R else snd (pCoup P i k b)) (if isAnchor f b (waveIdx chan b) i then Fixed else set)]
          | None => [] end
      | None => [] end
  | _, _ => [] end.
Definition branVars (x : nat * nat * bool) : list var :=
  let '(i, k, fx) := x in if fx then [] else
  match nth_error (fmComps f) i, nth_error (mComps md) i with
  | Some c, Some o => match nth_error (mcFromBran c) k with
      | Some ms => match nth_error (oChans o) ms with
          | Some chan => let set := if branFree rel c chan then Free (1 / 10) None None else Fixed in
              [Var (branName c chan ++ lit "__real") (fst (pBran P i k)) set; Var (branName c chan ++ lit "__imag") (snd (pBran P i k)) set]
          | None => [] end
      | None => [] end
  | _, _ => [] end.
Definition parVars (x : nat * nat) : list var :=
  let '(i, k) := x in
  match nth_error (fmComps f) i with
  | Some c => match nth_error (mcPars c) k with
      | Some p => [Var (parName c p) (pPar P i k) (parSetting (if mpFixed p then true else negb (parFree rel c p)) p)]
      | None => [] end
  | None => [] end.
Definition fsmdBin (d : fsmd) (b : nat) : list var :=
  flat_map (fun k => match nth_error (nth b (fmFsmd f) []) k with
    | Some p => [Var (fsmdName b p) (pPar P (length (mComps md)) (nth b (fIndex d) 0 + k)) (parSetting (mpFixed p) p)]
    | None => [] end) (upTo (nth b (fNPar d) 0)).
Definition fsmdVars : list var := match mFsmd md with None => [] | Some d => flat_map (fsmdBin d) (upTo (if fSame d then 1 else length (fFun d))) end.

Lemma both i o : nth_error (mComps md) i = Some o -> exists c, nth_error (fmComps f) i = Some c.
Proof. intros H. destruct (nth_error (fmComps f) i) as [c|] eqn:E; [eauto|]. apply nth_error_None in E. rewrite (wmComps _ _ _ _ _ _ WF) in E. assert (i < length (mComps md)) by (apply nth_error_Some; congruence). lia. Qed.
Lemma ids i o : nth_error (mComps md) i = Some o -> oId o = i.
Proof. apply (wfIds _ _ _ _ _ _ (wmFit _ _ _ _ _ _ WF)). Qed.
Lemma comp_ok i o : nth_error (mComps md) i = Some o -> wfComp md nm mc nch o.
Proof. intros H. pose proof (wfComps _ _ _ _ _ _ (wmFit _ _ _ _ _ _ WF)) as F. rewrite Forall_forall in F. apply F. eapply nth_error_In. exact H. Qed.
Lemma master_ok i o k : nth_error (mComps md) i = Some o -> k < length (oFromCoup o) -> exists ms chan, nth_error (oFromCoup o) k = Some ms /\ nth_error (oChans o) ms = Some chan.
Proof.
  intros H Hk. destruct (comp_ok i o H) as (_ & _ & _ & F & _). destruct (nth_error (oFromCoup o) k) as [ms|] eqn:E; [|apply nth_error_None in E; lia].
  rewrite Forall_forall in F. pose proof (F ms (nth_error_In _ _ E)) as L. destruct (nth_error (oChans o) ms) as [chan|] eqn:E2; [eauto|]. apply nth_error_None in E2. lia.
Qed.
Lemma in_upTo n i : In i (upTo n) <-> i < n.
Proof. unfold upTo. rewrite in_seq. lia. Qed.
Lemma coup_adds i o : nth_error (mComps md) i = Some o -> adds (initCouplings f P rel i) (flat_map coupVars (compCoup o)).
Proof.
  intros H. destruct (both i o H) as [c Hc]. unfold compCoup. rewrite flat_map_flat. intros n vs E. unfold initCouplings. rewrite H, Hc. revert n vs E. apply adds_fold.
  intros k Hk. apply in_upTo in Hk. destruct (master_ok i o k H Hk) as (ms & chan & E1 & E2). rewrite E1, E2. rewrite flat_map_map. apply adds_fold.
  intros b _. rewrite (ids i o H). unfold coupVars, initCouplingBin. rewrite H, Hc, E1, E2. cbv zeta.
  destruct (isAnchor f b (waveIdx chan b) i); (apply (adds_bnd (put _) (put _) [_] [_]); apply adds_put).
Qed.
Lemma bran_adds i o : nth_error (mComps md) i = Some o -> adds (initBranchings f P rel i) (flat_map branVars (compBran o)).
Proof.
  intros H. destruct (both i o H) as [c Hc]. unfold compBran. rewrite flat_map_map. intros n vs E. unfold initBranchings. rewrite H, Hc. revert n vs E. apply adds_fold.
  intros k Hk. apply in_upTo in Hk. rewrite (ids i o H). unfold branVars. destruct (nth k (oFixed o) true); [apply adds_nil|]. rewrite H, Hc.
  destruct (wmPars _ _ _ _ _ _ WF i o c H Hc) as (_ & L & F). destruct (nth_error (mcFromBran c) k) as [ms|] eqn:E1; [|apply nth_error_None in E1; lia].
  rewrite Forall_forall in F. pose proof (F ms (nth_error_In _ _ E1)) as Lm. destruct (nth_error (oChans o) ms) as [chan|] eqn:E2; [|apply nth_error_None in E2; lia].
  cbv zeta. apply (adds_bnd (put _) (put _) [_] [_]); apply adds_put.
Qed.
Lemma par_adds i o : nth_error (mComps md) i = Some o -> adds (initPars f P rel i) (flat_map parVars (compPars o)).
Proof.
  intros H. destruct (both i o H) as [c Hc]. unfold compPars. rewrite flat_map_map. intros n vs E. unfold initPars. rewrite H, Hc. revert n vs E. apply adds_fold.
  intros k Hk. apply in_upTo in Hk. rewrite (ids i o H). unfold parVars. rewrite Hc. destruct (wmPars _ _ _ _ _ _ WF i o c H Hc) as (L & _).
  destruct (nth_error (mcPars c) k) as [p|] eqn:E1; [apply adds_put|]. apply nth_error_None in E1. lia.
Qed.
Lemma fsmd_adds : adds (initFsmd f P) fsmdVars.
Proof.
  unfold initFsmd, fsmdVars. destruct (mFsmd md) as [d|] eqn:D; [|apply adds_nil]. apply adds_fold. intros b Hb. apply in_upTo in Hb. apply adds_fold. intros k Hk. apply in_upTo in Hk.
  pose proof (wmFsmd _ _ _ _ _ _ WF d D b Hb) as L. destruct (nth_error (nth b (fmFsmd f) []) k) as [p|] eqn:E; [apply adds_put|]. apply nth_error_None in E. lia.
Qed.
Lemma comps_adds (F : nat -> nat * list var -> option (nat * list var)) {X} (cells : component -> list X) (g : X -> list var) :
  (forall i o, nth_error (mComps md) i = Some o -> adds (F i) (flat_map g (cells o))) ->
  adds (foldO F (upTo (length (mComps md)))) (flat_map g (flat_map cells (mComps md))).
Proof.
  intros H. rewrite flat_map_flat. rewrite <- (flat_map_index (fun i => match nth_error (mComps md) i with Some o => flat_map g (cells o) | None => [] end) (fun o => flat_map g (cells o))).
  - apply adds_fold. intros i Hi. apply in_upTo in Hi. destruct (nth_error (mComps md) i) as [o|] eqn:E; [now apply H|]. apply nth_error_None in E. lia.
  - intros i x ->. reflexivity.
Qed.
Definition allVars : list var :=
  flat_map coupVars (couplingCells md) ++ flat_map branVars (branchingCells md) ++ flat_map parVars (flat_map compPars (mComps md)) ++ fsmdVars.
Lemma init_ok : initParameters f P rel = Some allVars.
Proof.
  unfold initParameters. cbv zeta. unfold allVars, couplingCells, branchingCells.
  rewrite (comps_adds _ _ _ coup_adds 0 [] eq_refl). cbn [bnd]. rewrite (comps_adds _ _ _ bran_adds) by (cbn; lia). cbn [bnd].
  rewrite (comps_adds _ _ _ par_adds) by (rewrite app_length; cbn; lia). cbn [bnd]. rewrite fsmd_adds by (rewrite !app_length; cbn; lia). cbn [bnd snd app]. now rewrite <- !app_assoc.
Qed.

Lemma coupCell_ok i k b : In (i, k, b) (couplingCells md) -> exists o c ms chan, nth_error (mComps md) i = Some o /\ nth_error (fmComps f) i = Some c /\
  nth_error (oFromCoup o) k = Some ms /\ nth_error (oChans o) ms = Some chan /\ In b (getBins chan).
Proof.
  intros H. unfold couplingCells in H. apply in_flat_map in H as (o & Ho & H). apply In_nth_error in Ho as [i' Ho]. unfold compCoup in H. apply in_flat_map in H as (k' & Hk & H).
  apply in_upTo in Hk. destruct (master_ok i' o k' Ho Hk) as (ms & chan & E1 & E2). rewrite E1, E2 in H. apply in_map_iff in H as (b' & E & Hb). rewrite (ids i' o Ho) in E. injection E as -> -> ->.
  destruct (both i o Ho) as [c Hc]. exists o, c, ms, chan. auto.
Qed.
Lemma coup_len x : In x (couplingCells md) -> length (coupVars x) = 2.
Proof. destruct x as [[i k] b]. intros H. destruct (coupCell_ok i k b H) as (o & c & ms & chan & E1 & E2 & E3 & E4 & _). unfold coupVars. now rewrite E1, E2, E3, E4. Qed.
Lemma branCell_ok i k fx : In (i, k, fx) (branchingCells md) -> exists o c ms chan, nth_error (mComps md) i = Some o /\ nth_error (fmComps f) i = Some c /\
  nth_error (mcFromBran c) k = Some ms /\ nth_error (oChans o) ms = Some chan /\ k < length (oFixed o) /\ fx = nth k (oFixed o) true.
Proof.
  intros H. unfold branchingCells in H. apply in_flat_map in H as (o & Ho & H). apply In_nth_error in Ho as [i' Ho]. unfold compBran in H. apply in_map_iff in H as (k' & E & Hk).
  apply in_upTo in Hk. rewrite (ids i' o Ho) in E. injection E as -> -> <-. destruct (both i o Ho) as [c Hc]. destruct (wmPars _ _ _ _ _ _ WF i o c Ho Hc) as (_ & L & F).
  destruct (nth_error (mcFromBran c) k) as [ms|] eqn:E1; [|apply nth_error_None in E1; lia]. rewrite Forall_forall in F. pose proof (F ms (nth_error_In _ _ E1)) as Lm.
  destruct (nth_error (oChans o) ms) as [chan|] eqn:E2; [|apply nth_error_None in E2; lia]. exists o, c, ms, chan. auto 7.
Qed.
Lemma bran_len x : In x (branchingCells md) -> length (branVars x) = if (snd x : bool) then 0 else 2.
Proof. destruct x as [[i k] fx]. intros H. destruct (branCell_ok i k fx H) as (o & c & ms & chan & E1 & E2 & E3 & E4 & _). unfold branVars. cbn [snd]. destruct fx; [reflexivity|]. now rewrite E1, E2, E3, E4. Qed.
Lemma bran_flat l : (forall x, In x l -> length (branVars x) = if (snd x : bool) then 0 else 2) -> length (flat_map branVars l) = 2 * nFree l
  /\ forall j x r, nth_error l j = Some x -> r < length (branVars x) -> nth_error (flat_map branVars l) (2 * nFree (firstn j l) + r) = nth_error (branVars x) r.
Proof.
  induction l as [|y l IH]; intros HL; [split; [reflexivity|intros [|j]; discriminate]|]. destruct IH as [I1 I2]; [intros x Hx; apply HL; now right|]. pose proof (HL y (or_introl eq_refl)) as Ly.
  split.
  - cbn [flat_map]. rewrite app_length, I1, Ly. unfold nFree. cbn [filter]. destruct (snd y); cbn [negb length]; lia.
  - intros [|j] x r H Hr.
    + injection H as ->. cbn [firstn nFree filter length flat_map]. rewrite nth_error_app1; [reflexivity|exact Hr].
    + cbn [flat_map firstn]. assert (2 * nFree (y :: firstn j l) = length (branVars y) + 2 * nFree (firstn j l)) as -> by (rewrite Ly; unfold nFree; cbn [filter]; destruct (snd y); cbn [negb length]; lia).
      rewrite nth_error_app2 by lia. replace (_ + r - length (branVars y)) with (2 * nFree (firstn j l) + r) by lia. now apply I2.
Qed.
Lemma parCell_ok i k : In (i, k) (flat_map compPars (mComps md)) -> exists o c p, nth_error (mComps md) i = Some o /\ nth_error (fmComps f) i = Some c /\ nth_error (mcPars c) k = Some p.
Proof.
  intros H. apply in_flat_map in H as (o & Ho & H). apply In_nth_error in Ho as [i' Ho]. unfold compPars in H. apply in_map_iff in H as (k' & E & Hk). apply in_upTo in Hk. rewrite (ids i' o Ho) in E. injection E as -> ->.
  destruct (both i o Ho) as [c Hc]. destruct (wmPars _ _ _ _ _ _ WF i o c Ho Hc) as (L & _). destruct (nth_error (mcPars c) k) as [p|] eqn:E1; [|apply nth_error_None in E1; lia]. eauto 7.
Qed.
Lemma par_len x : In x (flat_map compPars (mComps md)) -> length (parVars x) = 1.
Proof. destruct x as [i k]. intros H. destruct (parCell_ok i k H) as (o & c & p & E1 & E2 & E3). unfold parVars. now rewrite E2, E3. Qed.
End Fit.
