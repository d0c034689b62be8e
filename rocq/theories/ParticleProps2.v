(* C20 (data table), C21 (text form), C58 (table queries), C59 (reading a table file) *)
From Coq Require Import String Ascii List ZArith NArith Bool Reals Permutation Sorted Lia Lra.
From Verif Require Import PathModel StrModel DecModel SpinModel ParticleModel ParticleProps.
Import ListNotations.
Open Scope Z_scope.
Open Scope list_scope.

(* the table after a sequence of addEntry calls on an empty table *)
Definition addAll (ps : list pprops) : table := fold_left (fun t p => fst (addEntry t p)) ps [].

(* ---------------- specification ---------------- *)
(* the first particle of the sequence with that name *)
Definition firstNamed (n : str) (ps : list pprops) : option pprops := find (fun p => str_eqb (name p) n) ps.

(* ---------------- C20 ---------------- *)
Lemma addEntry_sorted t p : StronglySorted key_lt t -> StronglySorted key_lt (fst (addEntry t p)).
Proof. intros S. unfold addEntry. destruct (m_find (name p) t); auto. apply m_set_sorted; auto. Qed.

Lemma addEntry_find t p n : StronglySorted key_lt t ->
  m_find n (fst (addEntry t p)) =
  match m_find n t with Some v => Some v | None => if str_eqb (name p) n then Some p else None end.
Proof.
  intros S. unfold addEntry. destruct (m_find (name p) t) eqn:E; cbn [fst].
  - destruct (m_find n t) eqn:E2; auto. destruct (str_eqb (name p) n) eqn:E3; auto.
    apply str_eqb_eq in E3; subst; congruence.
  - rewrite m_find_set by auto. rewrite (str_eqb_sym n). destruct (str_eqb (name p) n) eqn:E3; auto.
    + apply str_eqb_eq in E3; subst. rewrite E; auto.
    + destruct (m_find n t); auto.
Qed.

Lemma addAll_gen ps : forall t, StronglySorted key_lt t ->
  StronglySorted key_lt (fold_left (fun t p => fst (addEntry t p)) ps t) /\
  forall n, m_find n (fold_left (fun t p => fst (addEntry t p)) ps t) =
  match m_find n t with Some v => Some v | None => firstNamed n ps end.
Proof.
  induction ps as [|p ps IH]; intros t S; cbn [fold_left].
  - split; auto. intros n; destruct (m_find n t); auto.
  - destruct (IH _ (addEntry_sorted t p S)) as [S' F]. split; auto. intros n. rewrite F.
    rewrite addEntry_find by auto. unfold firstNamed. cbn [find].
    destruct (m_find n t); auto. destruct (str_eqb (name p) n); auto.
Qed.

(* entry(name) is the first particle of that name; isInTable says whether there is one *)
Theorem C20_first_definition_wins : forall ps n, entry (addAll ps) n = firstNamed n ps.
Proof. intros. unfold addAll, entry. rewrite (proj2 (addAll_gen ps [] (SSorted_nil _))). reflexivity. Qed.

Theorem C20_isInTable_exact : forall ps n,
  isInTable (addAll ps) n = true <-> exists p, In p ps /\ name p = n.
Proof.
  intros ps n. unfold isInTable. change (m_find n (addAll ps)) with (entry (addAll ps) n).
  rewrite C20_first_definition_wins. unfold firstNamed.
  destruct (find _ ps) as [p|] eqn:E.
  - split; auto. intros _. apply find_some in E as [I E]. apply str_eqb_eq in E. eauto.
  - split; [discriminate|]. intros (p & I & E2). pose proof (find_none _ _ E p I) as F. cbn in F.
    rewrite E2, str_eqb_refl in F; discriminate.
Qed.

(* a refused addition leaves the table as it was; refusal happens exactly for a known name *)
Theorem C20_duplicates_refused : forall ps p,
  (snd (addEntry (addAll ps) p) = false <-> exists q, In q ps /\ name q = name p) /\
  (snd (addEntry (addAll ps) p) = false -> fst (addEntry (addAll ps) p) = addAll ps).
Proof.
  intros ps p. rewrite <- C20_isInTable_exact. unfold addEntry, isInTable.
  destruct (m_find (name p) (addAll ps)); cbn; split; intuition congruence.
Qed.

(* the table never holds two entries of one name and stays in name order, so that the
   printing order is a function of the set of names *)
Theorem C20_table_in_name_order : forall ps, StronglySorted key_lt (addAll ps)
  /\ (forall k p, In (k, p) (addAll ps) -> k = name p /\ firstNamed k ps = Some p).
Proof.
  intros ps. destruct (addAll_gen ps [] (SSorted_nil _)) as [S F]. split; [exact S|].
  intros k p H. apply (proj2 (m_find_in k p (addAll ps) S)) in H.
  assert (E : firstNamed k ps = Some p) by (rewrite <- C20_first_definition_wins; exact H).
  split; auto. unfold firstNamed in E. apply find_some in E as [_ E]. apply str_eqb_eq in E; auto.
Qed.

Example C20_ex : isInTable (addAll [kaon; kaon]) (lit "K+") = true /\ snd (addEntry (addAll [kaon]) kaon) = false
  /\ length (addAll [kaon; setDecays [] kaon]) = 1%nat.
Proof. repeat split; vm_compute; reflexivity. Qed.

(* ---------------- C58: queries ---------------- *)
Definition selected (key : string) (sel : str) : Prop :=
  contains (lit key) sel = true \/ contains (lit "allQn") sel = true.

Lemma contains_spec pat s : contains pat s = true <-> exists a b, s = a ++ pat ++ b.
Proof.
  assert (PR : forall a b, isPrefix a b = true <-> exists r, b = a ++ r).
  { induction a as [|x a IH]; intros b; cbn [isPrefix app]; [split; eauto|].
    destruct b as [|y b]; [split; [discriminate|intros (r & E); discriminate]|].
    rewrite andb_true_iff, Ascii.eqb_eq, IH. split.
    - intros [-> (r & ->)]. exists r; auto.
    - intros (r & E). inversion E; subst; eauto. }
  induction s as [|c s IH]; cbn [contains].
  - rewrite orb_false_r, PR. split; intros H.
    + destruct H as (r & E). exists [], r; auto.
    + destruct H as ([|x a] & b & E); [exists b; auto|discriminate].
  - rewrite orb_true_iff, PR, IH. split.
    + intros [(r & E)|(a & b & E)]; [exists [], r; auto|exists (c :: a), b; cbn; f_equal; auto].
    + intros ([|x a] & b & E); [left; exists b; auto|]. inversion E; subst. right; eauto.
Qed.

(* the selection keys are searched as substrings; consequently 'beauty', 'charge' ... select
   their quantum number, and since single letters are searched too, a key that contains
   the letter of another one selects that one as well *)
Theorem C58_selector_meaning : forall p q sel, selEq p q sel = true <->
  (selected "charge" sel -> pCharge p = pCharge q) /\ (selected "baryonNmb" sel -> pB p = pB q) /\
  (selected "I" sel -> pI p = pI q) /\ (selected "strangeness" sel -> pS p = pS q) /\
  (selected "charm" sel -> pCharm p = pCharm q) /\ (selected "beauty" sel -> pBeauty p = pBeauty q) /\
  (selected "G" sel -> pG p = pG q) /\ (selected "J" sel -> pJ p = pJ q) /\
  (selected "P" sel -> pP p = pP q) /\ (selected "C" sel -> pC p = pC q).
Proof.
  intros p q sel. unfold selEq, selected. cbv zeta. rewrite !andb_true_iff.
  assert (K : forall x a b, (negb x && negb (contains (lit "allQn") sel)) || (a =? b) = true <->
     (x = true \/ contains (lit "allQn") sel = true -> a = b)).
  { intros x a b. destruct (Z.eqb_spec a b), x, (contains (lit "allQn") sel); cbn; intuition congruence. }
  rewrite !K. tauto.
Qed.

Theorem C58_allQn_checks_everything : forall p q,
  selEq p q (lit "allQn") = true <->
  pCharge p = pCharge q /\ pB p = pB q /\ pI p = pI q /\ pS p = pS q /\ pCharm p = pCharm q /\
  pBeauty p = pBeauty q /\ pG p = pG q /\ pJ p = pJ q /\ pP p = pP q /\ pC p = pC q.
Proof.
  intros. rewrite C58_selector_meaning. unfold selected.
  assert (contains (lit "allQn") (lit "allQn") = true) by reflexivity. intuition.
Qed.

Definition onList (p : pprops) (l : list str) : Prop := In (name p) l \/ In (pName p) l.
Lemma listed_spec p l : listed p l = true <-> onList p l.
Proof.
  unfold listed, onList. rewrite existsb_exists. split.
  - intros (x & I & E). apply orb_true_iff in E as [E|E]; apply str_eqb_eq in E; subst; auto.
  - intros [H|H]; eexists; (split; [exact H|]); rewrite str_eqb_refl; rewrite ?orb_true_r; auto.
Qed.

(* exactly the table entries that pass all filters, in table order, each once *)
Theorem C58_matching_entries_exact : forall ps proto sel minMass f white black decay force p,
  In p (entriesMatching (addAll ps) proto sel minMass f white black decay force) <->
  entry (addAll ps) (name p) = Some p /\
  selEq p proto sel = true /\
  ((0 < minMass)%R -> (minMass <= pMass p + f * pWidth p)%R) /\
  (white <> [] -> onList p white) /\ ~ onList p black /\
  (if (0 <? Z.of_nat (length (dmDaughters decay))) && (0 <? Z.of_nat (length (pDecays p)))
   then exists m, In m (pDecays p) /\ decayEq m decay = true else force = false).
Proof.
  intros. unfold entriesMatching. rewrite filter_In.
  destruct (C20_table_in_name_order ps) as [S K].
  assert (A : In p (map snd (addAll ps)) <-> entry (addAll ps) (name p) = Some p).
  { unfold entry. rewrite m_find_in by exact S. rewrite in_map_iff. split.
    - intros ([k q] & E & I). cbn in E; subst. destruct (K _ _ I) as [-> _]. auto.
    - intros I. exists (name p, p); auto. }
  rewrite A. apply and_iff_compat_l. unfold entryMatches.
  destruct (selEq p proto sel); cbn [negb]; [|intuition discriminate].
  pose proof (C19_hasDecay_exact p decay) as HD.
  assert (M : (ltR 0 minMass && ltR (pMass p + f * pWidth p) minMass) = true <-> (0 < minMass /\ pMass p + f * pWidth p < minMass)%R).
  { unfold ltR. rewrite andb_true_iff. destruct (Rlt_dec 0 minMass), (Rlt_dec (pMass p + f * pWidth p) minMass); split; intros [? ?]; try discriminate; try contradiction; auto. }
  destruct (ltR 0 minMass && ltR (pMass p + f * pWidth p) minMass).
  { split; [discriminate|]. intros (_ & H & _). destruct (proj1 M eq_refl). exfalso. specialize (H H0). lra. }
  assert (M' : (0 < minMass)%R -> (minMass <= pMass p + f * pWidth p)%R).
  { intros H. destruct (Rle_lt_dec minMass (pMass p + f * pWidth p)) as [|L]; auto. discriminate (proj2 M (conj H L)). }
  assert (W : (match white with [] => true | _ => listed p white end) = true <-> (white <> [] -> onList p white)).
  { destruct white; [intuition congruence|]. rewrite listed_spec. intuition congruence. }
  destruct (match white with [] => true | _ => listed p white end); cbn [negb].
  2:{ split; [discriminate|]. intros (_ & _ & H & _). apply (proj2 W) in H; discriminate. }
  pose proof (listed_spec p black) as B. destruct (listed p black).
  { split; [discriminate|]. intros (_ & _ & _ & H & _). exfalso; apply H, B; auto. }
  assert (~ onList p black) by (intros H; apply B in H; discriminate).
  destruct ((0 <? Z.of_nat (length (dmDaughters decay))) && (0 <? Z.of_nat (length (pDecays p)))).
  - intuition.
  - destruct force; cbn; intuition.
Qed.

(* ---------------- C21 ---------------- *)
Definition noSpace (s : str) : Prop := forallb (fun c => negb (isSpace c)) s = true.
(* the form in which a finite double is printed: [-]digits[.digits][e...] *)
Definition numberText (s : str) : Prop := exists sg i f e, s = sg ++ i ++ f ++ e /\
  (sg = [] \/ sg = ["-"%char]) /\ i <> [] /\ forallb isDigit i = true /\
  (f = [] \/ exists f', f = "."%char :: f' /\ forallb isDigit f' = true) /\
  (e = [] \/ exists e', e = "e"%char :: e' /\ forallb numChar e' = true).
Definition integerText (s : str) : Prop := exists z, s = showInt z.
(* what is needed of the formatted output and input of one double: its text is a number
   and reads back as the same value (true for values with at most six significant digits) *)
Definition exactText (showD : R -> str) (parseD : str -> option R) (x : R) : Prop :=
  numberText (showD x) /\ parseD (showD x) = Some x.

Lemma numChar_not_space c : numChar c = true -> isSpace c = false.
Proof. destruct c as [[] [] [] [] [] [] [] []]; vm_compute; congruence. Qed.

Lemma digits_num d : forallb isDigit d = true -> forallb numChar d = true.
Proof.
  intros H. rewrite forallb_forall in *. intros c Hc. unfold numChar. rewrite (H c Hc); auto.
Qed.
Lemma numberText_num s : numberText s -> s <> [] /\ forallb numChar s = true.
Proof.
  intros (sg & i & f & e & -> & Hs & Hi & Di & Hf & He). split.
  - destruct Hs as [-> | ->]; cbn [app]; [|discriminate]. destruct i; [congruence|discriminate].
  - rewrite !forallb_app. rewrite (digits_num i Di).
    assert (forallb numChar sg = true) as -> by (destruct Hs as [-> | ->]; reflexivity).
    assert (forallb numChar f = true) as ->.
    { destruct Hf as [-> | (f' & -> & F)]; auto. cbn [forallb]. rewrite (digits_num f' F); reflexivity. }
    destruct He as [-> | (e' & -> & E)]; [reflexivity|exact E].
Qed.
Lemma readD_text showD parseD x r : exactText showD parseD x ->
  match r with [] => True | c :: _ => numChar c = false end ->
  readD parseD (showD x ++ r) = Some (x, r).
Proof.
  intros (T & P) Hr. destruct (numberText_num _ T) as [N F].
  unfold readD. destruct (showD x) as [|c s] eqn:E; [congruence|]. cbn [app].
  assert (isSpace c = false). { apply numChar_not_space. cbn [forallb] in F. apply andb_true_iff in F; tauto. }
  rewrite skipWs_nonspace by auto. change (c :: s ++ r) with ((c :: s) ++ r).
  rewrite span_end by auto. rewrite P. reflexivity.
Qed.
(* reading an integer from the text of a double: the integer part is taken, a fraction or
   an exponent is left in the stream *)
Lemma readInt_number s r : numberText s -> match r with [] => True | c :: _ => isDigit c = false end ->
  exists z rest, readInt (s ++ r) = Some (z, rest ++ r) /\
    (rest = [] \/ exists c x, rest = c :: x /\ (c = "."%char \/ c = "e"%char)).
Proof.
  intros (sg & i & f & e & -> & Hs & Hi & Di & Hf & He) Hr.
  assert (X : exists rest, rest = f ++ e /\ (rest = [] \/ exists c x, rest = c :: x /\ (c = "."%char \/ c = "e"%char))).
  { exists (f ++ e). split; auto. destruct Hf as [-> | (f' & -> & _)]; [|right; cbn; eauto].
    destruct He as [-> | (e' & -> & _)]; [auto|right; cbn; eauto]. }
  destruct X as (rest & Er & Hrest). rewrite <- Er.
  assert (SP : span isDigit (i ++ rest ++ r) = (i, rest ++ r)).
  { apply span_end; auto. destruct Hrest as [-> | (c & x & -> & [-> | ->])]; cbn; auto. }
  replace ((sg ++ i ++ rest) ++ r) with (sg ++ i ++ rest ++ r) by (rewrite <- !app_assoc; auto).
  unfold readInt. destruct Hs as [-> | ->]; cbn [app].
  - destruct i as [|c i]; [congruence|]. cbn [app] in *.
    assert (Hc : isDigit c = true) by (cbn [forallb] in Di; apply andb_true_iff in Di; tauto).
    destruct (digit_not_space c Hc) as (S1 & S2 & S3). rewrite skipWs_nonspace by auto. rewrite S2, S3.
    rewrite SP. eauto.
  - rewrite skipWs_nonspace by reflexivity. change (Ascii.eqb "-" "-") with true. cbv iota.
    rewrite SP. destruct i; [congruence|]. eauto.
Qed.
Lemma readInt_stuck c x : c = "."%char \/ c = "e"%char -> readInt (c :: x) = None.
Proof. intros [-> | ->]; reflexivity. Qed.
Lemma readD_tab parseD s : readD parseD (tab :: s) = readD parseD s.
Proof. unfold readD. rewrite skipWs_space by reflexivity. auto. Qed.
Lemma readInt_tab s : readInt (tab :: s) = readInt s.
Proof. apply readInt_ws; reflexivity. Qed.
Lemma readStr_tab s : readStr (tab :: s) = readStr s.
Proof. apply readStr_ws; reflexivity. Qed.
Lemma readInt_show_tab z s : readInt (showInt z ++ tab :: s) = Some (z, tab :: s).
Proof. apply readInt_show. reflexivity. Qed.

Lemma nwc_noSpace b q : noSpace b -> noSpace (nameWithCharge b q).
Proof.
  intros H. destruct b as [|c b]; [reflexivity|]. rewrite nwc_nonempty by discriminate.
  unfold noSpace in *. rewrite !forallb_app, H. cbn [andb].
  assert (forallb (fun c => negb (isSpace c)) (if 1 <? Z.abs q then castChar (Z.abs q) else []) = true) as ->.
  { destruct (1 <? Z.abs q); auto. unfold castChar.
    assert (D : Z.abs q >= 0) by lia. unfold showInt. destruct (Z.ltb_spec (Z.abs q) 0); [lia|].
    destruct (showNN_spec (Z.abs q)) as (_ & F & _); [lia|].
    destruct (showNN (Z.abs q)) as [|d [|]]; auto. cbn [forallb] in *. apply andb_true_iff in F as [F _].
    destruct (digit_not_space d F) as [-> _]. auto. }
  unfold signStr. destruct (q <? 0), (0 <? q); reflexivity.
Qed.

(* hypothesis on the record whose text is considered *)
Record printable (showD : R -> str) (parseD : str -> option R) (p : pprops) : Prop := {
  pr_norm : normalised p;
  pr_name : noSpace (pName p); pr_anti : noSpace (pAnti p);
  pr_m : exactText showD parseD (pMass p);
  pr_m2 : exactText showD parseD (pMass2 p);
  pr_w : exactText showD parseD (pWidth p) }.

Lemma nwc_ne b q : b <> [] -> nameWithCharge b q <> [].
Proof. intros H. rewrite nwc_nonempty by auto. destruct b; [congruence|discriminate]. Qed.

Lemma parse_names p r : pName p <> [] -> pAnti p <> [] -> noSpace (pName p) -> noSpace (pAnti p) ->
  readStr (name p ++ tab :: antiPartName p ++ tab :: r) = Some (name p, tab :: antiPartName p ++ tab :: r) /\
  readStr (tab :: antiPartName p ++ tab :: r) = Some (antiPartName p, tab :: r).
Proof.
  intros. split; [|rewrite readStr_tab];
    (apply readStr_word; [apply nwc_ne; auto|apply nwc_noSpace; auto|reflexivity]).
Qed.

(* the nine integers of a line, read from their texts *)
Lemma readInts b i s c be g j p r :
  (doP (b', s') <- readInt (showInt b ++ tab :: showInt i ++ tab :: showInt s ++ tab :: showInt c ++ tab :: showInt be ++ tab :: showInt g ++
      tab :: showInt j ++ tab :: showInt p ++ tab :: r); Some (b', s')) = Some (b, tab :: showInt i ++ tab :: showInt s ++ tab :: showInt c ++ tab :: showInt be ++ tab :: showInt g ++
      tab :: showInt j ++ tab :: showInt p ++ tab :: r).
Proof. rewrite readInt_show_tab. reflexivity. Qed.

Ltac stepI := rewrite ?readInt_tab; rewrite readInt_show_tab; cbn [bindP].

(* setting the fields of a record read from a line *)
Lemma apply_line parseD l this nm anti mass width b i st ch be g j pp c bare q a :
  parseLine parseD l = Some (nm, anti, mass, width, (b, i, st, ch, be), (g, j, pp, c)) ->
  chargeFromName nm = Some (bare, q) -> stripChargeFromName anti = Some a ->
  readLine parseD l this =
  Some (true, PP bare a q mass (mass * mass)%R width b (Z.abs i) st ch be (signum g) (Z.abs j) (signum pp) (signum c) (pDecays this)).
Proof.
  intros E N A. unfold readLine. rewrite E.
  destruct (C17_parsed_charge_is_storable nm bare q this N) as (B & _).
  unfold setName. rewrite N. cbn [bindP]. unfold setCharge. destruct (Z.ltb_spec (Z.abs q) 10); [|lia]. cbn [bindP].
  unfold setAntiPartName. rewrite A. cbn [bindP].
  cbv [setC setP setJ setG setBeauty setCharm setStrangeness setIsospin setBaryonNmb setWidth setMass
       pName pAnti pCharge pMass pMass2 pWidth pB pI pS pCharm pBeauty pG pJ pP pC pDecays]. reflexivity.
Qed.

(* What operator>> makes of a dumped line, in all cases: the number written for mass^2
   is taken as width and the text of the width as baryon number. If the width is not
   written as an integer the extraction of the next field fails and the record keeps its
   old content; otherwise every later field is shifted by one. *)
Theorem C21_dump_shifts_fields : forall showD parseD p q ok p',
  printable showD parseD p ->
  readLine parseD (dump showD p) q = Some (ok, p') ->
  (ok = false /\ p' = q) \/
  (ok = true /\ pMass p' = pMass p /\ pWidth p' = pMass2 p /\ pI p' = Z.abs (pB p) /\ pS p' = pI p /\
   pCharm p' = pS p /\ pBeauty p' = pCharm p /\ pG p' = signum (pBeauty p) /\ pJ p' = Z.abs (pG p) /\
   pP p' = signum (pJ p) /\ pC p' = signum (pP p)).
Proof.
  intros showD parseD p q ok p' [N n1 n2 m m2 w] H.
  set (tl := tab :: showInt (pB p) ++ tab :: showInt (pI p) ++ tab :: showInt (pS p) ++ tab ::
    showInt (pCharm p) ++ tab :: showInt (pBeauty p) ++ tab :: showInt (pG p) ++ tab :: showInt (pJ p) ++ tab ::
    showInt (pP p) ++ tab :: showInt (pC p)).
  destruct (parse_names p (showD (pMass p) ++ tab :: showD (pMass2 p) ++ tab :: showD (pWidth p) ++ tl)
     (proj1 (n_name p N)) (proj1 (n_anti p N)) n1 n2) as [R1 R2].
  destruct (readInt_number (showD (pWidth p)) tl (proj1 w) eq_refl) as (z & rest & RI & Hrest).
  destruct (parseLine parseD (dump showD p)) as [line|] eqn:PL.
  2:{ unfold readLine in H. rewrite PL in H. inversion H; auto. }
  right. pose proof PL as PL'. unfold parseLine, dump in PL. fold tl in PL.
  rewrite R1 in PL. cbn [bindP] in PL. rewrite R2 in PL. cbn [bindP] in PL.
  rewrite readD_tab, (readD_text showD parseD (pMass p)) in PL by (auto; reflexivity). cbn [bindP] in PL.
  rewrite readD_tab, (readD_text showD parseD (pMass2 p)) in PL by (auto; reflexivity). cbn [bindP] in PL.
  rewrite readInt_tab, RI in PL. cbn [bindP] in PL.
  destruct Hrest as [-> | (c & x & -> & Hc)].
  2:{ cbn [app] in PL. rewrite readInt_stuck in PL by auto. discriminate. }
  cbn [app] in PL. unfold tl in PL.
  do 8 (rewrite readInt_tab, readInt_show_tab in PL; cbn [bindP] in PL).
  inversion PL; subst line; clear PL.
  destruct (chargeFromName (name p)) as [[bare ch]|] eqn:CN.
  2:{ unfold readLine in H. rewrite PL' in H. unfold setName in H. rewrite CN in H. discriminate. }
  destruct (stripChargeFromName (antiPartName p)) as [an|] eqn:CA.
  2:{ unfold readLine in H. rewrite PL' in H. destruct (setName (name p) q); [|discriminate].
      cbn [bindP] in H. unfold setAntiPartName in H. rewrite CA in H. discriminate. }
  rewrite (apply_line _ _ _ _ _ _ _ _ _ _ _ _ _ _ _ _ _ _ _ PL' CN CA) in H.
  inversion H; subst. cbn [pMass pWidth pI pS pCharm pBeauty pG pJ pP pC].
  repeat (split; [reflexivity || (apply Z.abs_eq; apply N)|]). reflexivity.
Qed.

(* so a dumped line gives the particle back only if its fields coincide by accident *)
Theorem C21_dump_is_not_readable : forall showD parseD p q,
  printable showD parseD p ->
  pWidth p <> pMass2 p \/ pS p <> pI p \/ pCharm p <> pS p \/ pBeauty p <> pCharm p ->
  readLine parseD (dump showD p) q <> Some (true, p).
Proof.
  intros showD parseD p q Pr D E. destruct (C21_dump_shifts_fields _ _ _ _ _ _ Pr E) as [[X _]|(_ & _ & A & _ & B & C & F & _)]; [discriminate|].
  intuition congruence.
Qed.

(* and it is not even accepted if the width is printed with a fraction or exponent *)
Theorem C21_dump_rejected_for_fractional_width : forall showD parseD p q c x y,
  printable showD parseD p -> showD (pWidth p) = x ++ c :: y -> c = "."%char \/ c = "e"%char ->
  readLine parseD (dump showD p) q = Some (false, q).
Proof.
  intros showD parseD p q c x y [N n1 n2 m m2 w] Hx Hc.
  set (tl := tab :: showInt (pB p) ++ tab :: showInt (pI p) ++ tab :: showInt (pS p) ++ tab ::
    showInt (pCharm p) ++ tab :: showInt (pBeauty p) ++ tab :: showInt (pG p) ++ tab :: showInt (pJ p) ++ tab ::
    showInt (pP p) ++ tab :: showInt (pC p)).
  destruct (parse_names p (showD (pMass p) ++ tab :: showD (pMass2 p) ++ tab :: showD (pWidth p) ++ tl)
     (proj1 (n_name p N)) (proj1 (n_anti p N)) n1 n2) as [R1 R2].
  destruct w as [w wp]. pose proof w as w'. destruct w as (sg & i & f & e & Ew & Hs & Hi & Di & Hf & He).
  destruct (readInt_number (showD (pWidth p)) tl w' eq_refl) as (z & rest & RI & Hrest).
  assert (Hne : rest <> []).
  { intros ->. cbn [app] in RI.
    (* the whole text would be digits and a sign *)
    assert (FE : f = [] /\ e = []).
    { clear - RI Ew Hs Hi Di Hf He. rewrite Ew in RI. unfold readInt in RI.
      assert (SP : span isDigit (i ++ f ++ e ++ tl) = (i, f ++ e ++ tl)).
      { apply span_end; auto. destruct Hf as [-> | (f' & -> & _)]; cbn; auto. destruct He as [-> | (e' & -> & _)]; cbn; auto. }
      assert (Q : f ++ e ++ tl = tl).
      { destruct Hs as [-> | ->]; cbn [app] in RI; rewrite <- ?app_assoc in RI.
        - destruct i as [|d i]; [congruence|]. cbn [app] in *.
          assert (Hd : isDigit d = true) by (cbn [forallb] in Di; apply andb_true_iff in Di; tauto).
          destruct (digit_not_space d Hd) as (S1 & S2 & S3). rewrite skipWs_nonspace in RI by auto. rewrite S2, S3 in RI.
          rewrite SP in RI. congruence.
        - rewrite skipWs_nonspace in RI by reflexivity. change (Ascii.eqb "-" "-") with true in RI. cbv iota in RI.
          rewrite SP in RI. destruct i; [congruence|]. congruence. }
      apply (f_equal (@length _)) in Q. rewrite !app_length in Q. destruct f, e; cbn in Q; auto; lia. }
    destruct FE as [-> ->]. rewrite !app_nil_r in Ew. rewrite Ew in Hx.
    assert (In c (sg ++ i)) by (rewrite Hx; apply in_or_app; right; left; auto).
    apply in_app_or in H as [H|H].
    - destruct Hs as [-> | ->]; [destruct H|]. destruct H as [<- | []]. destruct Hc; discriminate.
    - rewrite forallb_forall in Di. specialize (Di _ H). destruct Hc as [-> | ->]; discriminate. }
  assert (PL : parseLine parseD (dump showD p) = None).
  { unfold parseLine, dump. fold tl.
    rewrite R1. cbn [bindP]. rewrite R2. cbn [bindP].
    rewrite readD_tab, (readD_text showD parseD (pMass p)) by (auto; reflexivity). cbn [bindP].
    rewrite readD_tab, (readD_text showD parseD (pMass2 p)) by (auto; reflexivity). cbn [bindP].
    rewrite readInt_tab, RI. cbn [bindP].
    destruct Hrest as [-> | (c' & x' & -> & Hc')]; [congruence|].
    cbn [app]. rewrite readInt_stuck by auto. reflexivity. }
  unfold readLine. rewrite PL. reflexivity.
Qed.

(* the format that operator>> expects: the same line without mass^2 *)
Definition dumpCorrected (showD : R -> str) (p : pprops) : str :=
  name p ++ tab :: antiPartName p ++ tab :: showD (pMass p) ++ tab ::
  showD (pWidth p) ++ tab :: showInt (pB p) ++ tab :: showInt (pI p) ++ tab :: showInt (pS p) ++ tab ::
  showInt (pCharm p) ++ tab :: showInt (pBeauty p) ++ tab :: showInt (pG p) ++ tab :: showInt (pJ p) ++ tab ::
  showInt (pP p) ++ tab :: showInt (pC p).

Lemma strip_nwc b q : b <> [] -> Z.abs q <= 9 -> ~ endsWith nonzeroDigit b ->
  stripChargeFromName (nameWithCharge b q) = Some b.
Proof.
  intros H1 H2 H3. unfold stripChargeFromName.
  rewrite (proj2 (C17_charge_round_trip_exact b q)) by (split; [auto|split; auto]). reflexivity.
Qed.

Theorem C21_line_without_mass2_round_trips : forall showD parseD p q,
  printable showD parseD p -> ~ endsWith nonzeroDigit (pName p) -> ~ endsWith nonzeroDigit (pAnti p) ->
  readLine parseD (dumpCorrected showD p) q = Some (true, setDecays (pDecays q) p).
Proof.
  intros showD parseD p q [N n1 n2 m m2 w] D1 D2.
  destruct (parse_names p (showD (pMass p) ++ tab :: showD (pWidth p) ++ tab :: showInt (pB p) ++ tab :: showInt (pI p) ++ tab :: showInt (pS p) ++ tab ::
    showInt (pCharm p) ++ tab :: showInt (pBeauty p) ++ tab :: showInt (pG p) ++ tab :: showInt (pJ p) ++ tab ::
    showInt (pP p) ++ tab :: showInt (pC p))
     (proj1 (n_name p N)) (proj1 (n_anti p N)) n1 n2) as [R1 R2].
  assert (PL : parseLine parseD (dumpCorrected showD p) =
    Some (name p, antiPartName p, pMass p, pWidth p, (pB p, pI p, pS p, pCharm p, pBeauty p), (pG p, pJ p, pP p, pC p))).
  { unfold parseLine, dumpCorrected. rewrite R1. cbn [bindP]. rewrite R2. cbn [bindP].
    rewrite readD_tab, (readD_text showD parseD (pMass p)) by (auto; reflexivity). cbn [bindP].
    rewrite readD_tab, (readD_text showD parseD (pWidth p)) by (auto; reflexivity). cbn [bindP].
    do 8 (rewrite readInt_tab, readInt_show_tab; cbn [bindP]).
    rewrite readInt_tab. rewrite <- (app_nil_r (showInt (pC p))), (readInt_show (pC p) [] I). reflexivity. }
  assert (CN : chargeFromName (name p) = Some (pName p, pCharge p)).
  { apply C17_charge_round_trip_exact. split; [apply N|]. split; [apply N|auto]. }
  assert (CA : stripChargeFromName (antiPartName p) = Some (pAnti p)).
  { apply strip_nwc; [apply N|rewrite Z.abs_opp; apply N|auto]. }
  rewrite (apply_line _ _ _ _ _ _ _ _ _ _ _ _ _ _ _ _ _ _ _ PL CN CA).
  rewrite !signum_id by apply N. rewrite !Z.abs_eq by apply N. rewrite <- (n_m2 p N). reflexivity.
Qed.

(* non-vacuity: whole-number masses *)
Example C21_ex : exists showD parseD, printable showD parseD kaon /\ integerText (showD (pWidth kaon)).
Proof.
  exists (fun x => showInt (Int_part x)), (fun s => doP (z, _) <- readInt s; Some (IZR z)).
  assert (T : forall z, 0 <= z -> exactText (fun x => showInt (Int_part x)) (fun s => doP (z, _) <- readInt s; Some (IZR z)) (IZR z)).
  { intros z Hz. assert (E : Int_part (IZR z) = z).
    { unfold Int_part. rewrite <- (tech_up (IZR z) (z + 1)); [lia| |]; rewrite plus_IZR; lra. }
    unfold exactText. rewrite E. split.
    - unfold showInt. destruct (Z.ltb_spec z 0); [lia|]. destruct (showNN_spec z Hz) as (A & B & _).
      exists [], (showNN z), [], []. rewrite !app_nil_r. cbn [app]. repeat (split; auto).
    - rewrite <- (app_nil_r (showInt z)), (readInt_show z [] I). reflexivity. }
  split; [|eexists; reflexivity].
  split; try reflexivity; [apply C18_ex|apply (T 2)|apply (T 4)|apply (T 0)]; lia.
Qed.

(* ---------------- C59: reading a table file ---------------- *)
(* A line that cannot be parsed (for example one written by dump) does not stop the
   reading: the loop adds an entry with an empty name and then asks for the
   antiparticle of that nameless record, which is undefined behaviour. *)
Theorem C59_malformed_line_is_undefined : forall parseD good bad rest t,
  Forall (fun l => l = [] \/ exists r, l = "#"%char :: r) good ->
  bad <> [] -> (forall r, bad <> "#"%char :: r) -> parseLine parseD bad = None ->
  readTable parseD (good ++ bad :: rest) t = None.
Proof.
  intros parseD good bad rest t G B1 B2 P. unfold readTable. cbn [readTableF].
  assert (E : extract parseD (good ++ bad :: rest) pDefault = Some (true, pDefault, rest)).
  { induction G as [|l good Hl G IH]; cbn [app extract].
    - destruct bad as [|c bad]; [congruence|]. destruct (Ascii.eqb_spec c "#") as [->|]; [exfalso; eapply B2; reflexivity|].
      unfold readLine. rewrite P. reflexivity.
    - destruct Hl as [-> | (r & ->)]; exact IH. }
  rewrite E. reflexivity.
Qed.

(* Comment lines and empty lines are skipped, and each good line adds the particle and,
   unless it is its own antiparticle, its antiparticle, under first-definition-wins. *)
Definition lineParticles (p : pprops) : list pprops :=
  if isItsOwnAntiPart p then [p] else [p; setDecays [] (antiFields p)].

Theorem C59_good_file_adds_pairs : forall parseD lines t ps,
  Forall2 (fun l p => l <> [] /\ (forall r, l <> "#"%char :: r) /\ normalised p /\
                      readLine parseD l pDefault = Some (true, p)) lines ps ->
  readTable parseD lines t =
  Some (fold_left (fun t p => fst (addEntry t p)) (flat_map lineParticles ps) t).
Proof.
  intros parseD lines t ps F. unfold readTable. revert t.
  induction F as [|l p lines ps (L1 & L2 & N & RL) F IH]; intros t; [reflexivity|].
  cbn [length]. remember (S (length lines)) as f eqn:Ef. cbn [readTableF extract].
  destruct l as [|c l]; [congruence|]. destruct (Ascii.eqb_spec c "#") as [->|]; [exfalso; eapply L2; reflexivity|].
  rewrite RL. cbn [bindP flat_map]. rewrite fold_left_app. unfold lineParticles at 2.
  destruct (isItsOwnAntiPart p) eqn:O; cbn [bindP fold_left]; [apply IH|].
  rewrite anti_other by auto. cbn [bindP]. apply IH.
Qed.
