(* C92: proofs about reading and writing text files of events. *)
From Coq Require Import String Ascii List ZArith NArith Bool Reals Lia.
From Verif Require Import PathModel StrModel DecModel ParticleModel EvtModel EvtSpec.
Import ListNotations.
Open Scope Z_scope.
Open Scope list_scope.

(* ---- GEANT IDs ---- *)
Lemma geant_fwd id n q : isGeant id n q -> particleNameFromGeantId id = Some n /\ checkParticleCharge n q = Some true /\ geantIdAndChargeFromParticleName n = Some (id, q).
Proof.
  intros (s & H & ->). cbn [geant In] in H. repeat (destruct H as [H|H]; [injection H as <- <- <-; vm_compute; auto|]). destruct H.
Qed.
Lemma find_in {A} (f : A -> bool) l x : find f l = Some x -> In x l /\ f x = true.
Proof. apply find_some. Qed.
Lemma geant_in (id : Z) (m : str) : In (m, id) nameGeantIdMap -> exists s q, In (id, s, q) geant /\ particleNameFromGeantId id = Some (lit s) /\ chargeFromName (lit s) <> None /\ option_map snd (chargeFromName (lit s)) = Some q /\ str_eqb (lit s) (lit "unknown") = false.
Proof.
  intros H. cbn [nameGeantIdMap In] in H.
  repeat (destruct H as [H|H]; [injection H as <- <-; eexists _, _; split; [cbn [geant In]; repeat (first [left; reflexivity|right])|vm_compute; repeat split; discriminate]|]). destruct H.
Qed.
Lemma geant_some id : (exists n q, isGeant id n q /\ particleNameFromGeantId id = Some n /\ forall q', checkParticleCharge n q' = Some (q' =? q)) \/ (particleNameFromGeantId id = Some (lit "unknown") /\ findId id = None).
Proof.
  destruct (findId id) as [m|] eqn:EI.
  - left. unfold findId in EI. destruct (find (fun e => snd e =? id) nameGeantIdMap) as [[m' i]|] eqn:E; [|discriminate]. apply find_in in E as [H E]. cbn [snd] in E. apply Z.eqb_eq in E as ->.
    destruct (geant_in id m' H) as (s & q & H1 & H2 & H3 & H4 & H5). exists (lit s), q. split; [exists s; auto|]. split; [exact H2|]. intros q'. unfold checkParticleCharge. rewrite H5.
    destruct (chargeFromName (lit s)) as [[b c]|]; [|contradiction]. injection H4 as ->. reflexivity.
  - right. split; [|reflexivity]. unfold particleNameFromGeantId. now rewrite EI.
Qed.
Lemma geant_unknown id : (forall n q, ~ isGeant id n q) -> particleNameFromGeantId id = Some (lit "unknown").
Proof. intros H. destruct (geant_some id) as [(n & q & G & _ & _)|[E _]]; [exfalso; now apply (H n q)|exact E]. Qed.
Lemma name_total id q : exists n c, particleNameFromGeantId id = Some n /\ checkParticleCharge n q = Some c /\ (c = true -> isGeant id n q).
Proof.
  destruct (geant_some id) as [(n & q' & G & A & Q)|[E _]].
  - exists n, (q =? q'). split; [exact A|]. split; [apply Q|]. intros H. apply Z.eqb_eq in H as ->. exact G.
  - exists (lit "unknown"), false. split; [exact E|]. split; [reflexivity|discriminate].
Qed.

(* ---- lines ---- *)
Lemma part_iff parseD l id q v : readPart parseD l = Some (id, q, v) <-> partLine parseD l id q v.
Proof.
  unfold readPart, partLine. split.
  - intros H. destruct (readInt l) as [[i r1]|]; [|discriminate]. cbn [bindP] in H. destruct (readInt r1) as [[c r2]|] eqn:E2; [|discriminate]. cbn [bindP] in H.
    destruct (readD parseD r2) as [[x r3]|] eqn:E3; [|discriminate]. cbn [bindP] in H. destruct (readD parseD r3) as [[y r4]|] eqn:E4; [|discriminate]. cbn [bindP] in H.
    destruct (readD parseD r4) as [[z r5]|] eqn:E5; [|discriminate]. cbn [bindP] in H. destruct (readD parseD r5) as [[E r6]|] eqn:E6; [|discriminate]. cbn [bindP] in H. injection H as <- <- <-.
    exists r1, r2, r3, r4, r5, r6, E. cbn [vX vY vZ]. repeat split; first [reflexivity|assumption].
  - intros (r1 & r2 & r3 & r4 & r5 & r6 & E & H1 & H2 & H3 & H4 & H5 & H6). rewrite H1. cbn [bindP]. rewrite H2. cbn [bindP]. rewrite H3. cbn [bindP]. rewrite H4. cbn [bindP]. rewrite H5. cbn [bindP]. rewrite H6. cbn [bindP]. now destruct v.
Qed.
Inductive good3 (parseD : str -> option R) : list str -> list str -> list (option vec) -> Prop :=
| g3n : good3 parseD [] [] []
| g3c l ps n dn w dm : goodLine parseD l n w -> good3 parseD ps dn dm -> good3 parseD (l :: ps) (n :: dn) (w :: dm).
Lemma good3_iff parseD ps dn dm : good3 parseD ps dn dm <-> length dn = length ps /\ length dm = length ps /\
  forall i l n w, nth_error ps i = Some l -> nth_error dn i = Some n -> nth_error dm i = Some w -> goodLine parseD l n w.
Proof.
  split.
  - intros H. induction H as [|l ps n dn w dm G H IH]; [split; [reflexivity|split; [reflexivity|intros [|i]; discriminate]]|]. destruct IH as (A & B & K). cbn [length]. split; [lia|]. split; [lia|].
    intros [|i] l0 n0 w0 E1 E2 E3; cbn in E1, E2, E3; [congruence|eauto].
  - revert dn dm. induction ps as [|l ps IH]; intros [|n dn] [|w dm] (A & B & K); cbn in A, B; try lia; [constructor|]. constructor.
    + now apply (K 0%nat).
    + apply IH. split; [lia|]. split; [lia|]. intros i l0 n0 w0 E1 E2 E3. now apply (K (Datatypes.S i)).
Qed.
Lemma putAt_end i v l : length l = i -> putAt i v l = l ++ [Some v].
Proof. intros <-. unfold putAt. now rewrite Nat.sub_diag. Qed.
Lemma putAt_len i v l : (length l <= i)%nat -> length (putAt i v l) = Datatypes.S i.
Proof. intros H. unfold putAt. rewrite !app_length, repeat_length. cbn [length]. lia. Qed.

Lemma rd_false parseD : forall todo i lines names moms ns ms s r, readDecay parseD todo i lines names moms false = Some (ns, ms, s, r) -> s = false.
Proof.
  induction todo as [|t IH]; intros i lines names moms ns ms s r H; cbn [readDecay] in H; [congruence|]. destruct lines as [|l ls]; [congruence|].
  destruct (readPart parseD l) as [[[id q] v]|]; [|now apply IH in H]. destruct (name_total id q) as (n & c & A & B & _). rewrite A in H. cbn [bindP] in H. rewrite B in H. cbn [bindP] in H.
  destruct c; now apply IH in H.
Qed.
Lemma rd_sound parseD : forall todo i lines names moms ok ns ms rest, length names = i -> length moms = i ->
  readDecay parseD todo i lines names moms ok = Some (ns, ms, true, rest) -> length ns = length ms ->
  ok = true /\ exists ps dn dm, lines = ps ++ rest /\ length ps = todo /\ ns = names ++ dn /\ ms = moms ++ dm /\ good3 parseD ps dn dm.
Proof.
  induction todo as [|t IH]; intros i lines names moms ok ns ms rest L1 L2 H L; cbn [readDecay] in H.
  - injection H as <- <- -> <-. split; [reflexivity|]. exists [], [], []. rewrite !app_nil_r. split; [reflexivity|]. split; [reflexivity|]. split; [reflexivity|]. split; [reflexivity|constructor].
  - destruct lines as [|l ls].
    + injection H as <- <- -> <-. rewrite app_length in L. cbn [length] in L. lia.
    + destruct (readPart parseD l) as [[[id q] v]|] eqn:EP; [|apply rd_false in H; discriminate]. destruct (name_total id q) as (n & c & A & B & K). rewrite A in H. cbn [bindP] in H. rewrite B in H. cbn [bindP] in H.
      rewrite putAt_end in H by exact L2. destruct c; [|apply rd_false in H; discriminate].
      apply IH in H; [|rewrite app_length; cbn; lia|rewrite app_length; cbn; lia|exact L]. destruct H as (-> & ps & dn & dm & E1 & E2 & E3 & E4 & G). split; [reflexivity|].
      exists (l :: ps), (n :: dn), (Some v :: dm). subst. rewrite <- !app_assoc. split; [reflexivity|]. split; [reflexivity|]. split; [reflexivity|]. split; [reflexivity|]. constructor; [|exact G].
      exists id, q, v. split; [now apply part_iff|]. split; [now apply K|reflexivity].
Qed.
Lemma rd_complete parseD ps dn dm : good3 parseD ps dn dm -> forall i rest names moms, length names = i -> length moms = i ->
  readDecay parseD (length ps) i (ps ++ rest) names moms true = Some (names ++ dn, moms ++ dm, true, rest).
Proof.
  intros G. induction G as [|l ps n dn w dm (id & q & v & HP & HG & ->) G IH]; intros i rest names moms L1 L2.
  - cbn. now rewrite !app_nil_r.
  - cbn [length app readDecay]. apply part_iff in HP. rewrite HP. destruct (geant_fwd _ _ _ HG) as (A & B & _). rewrite A. cbn [bindP]. rewrite B. cbn [bindP]. rewrite putAt_end by exact L2.
    rewrite IH by (rewrite app_length; cbn; lia). now rewrite <- !app_assoc.
Qed.
Lemma rd_short parseD : forall todo i lines names moms ok x, length names = i -> (length moms <= i)%nat -> (length lines < todo)%nat ->
  readDecay parseD todo i lines names moms ok = Some x -> (length (snd (fst (fst x))) < length (fst (fst (fst x))))%nat.
Proof.
  induction todo as [|t IH]; intros i lines names moms ok x L1 L2 L H; [lia|]. cbn [readDecay] in H. destruct lines as [|l ls].
  - injection H as <-. cbn [fst snd]. rewrite app_length. cbn [length]. lia.
  - cbn [length] in L. destruct (readPart parseD l) as [[[id q] v]|].
    + destruct (name_total id q) as (n & c & A & B & _). rewrite A in H. cbn [bindP] in H. rewrite B in H. cbn [bindP] in H.
      eapply IH in H; [exact H|rewrite app_length; cbn; lia|now rewrite putAt_len|lia].
    + eapply IH in H; [exact H|rewrite app_length; cbn; lia|lia|lia].
Qed.
Lemma rd_total parseD : forall todo i lines names moms ok, exists x, readDecay parseD todo i lines names moms ok = Some x.
Proof.
  induction todo as [|t IH]; intros i lines names moms ok; cbn [readDecay]; [eauto|]. destruct lines as [|l ls]; [eauto|]. destruct (readPart parseD l) as [[[id q] v]|]; [|apply IH].
  destruct (name_total id q) as (n & c & A & B & _). rewrite A. cbn [bindP]. rewrite B. cbn [bindP]. apply IH.
Qed.

(* ---- events ---- *)
Lemma ev_sound parseD lines ok pn dn e rest : readEvent parseD lines ok = Some (Ev true pn dn e rest) ->
  ok = true /\ exists blk, lines = blk ++ rest /\ goodEvent parseD (pn, dn) blk e.
Proof.
  intros H. unfold readEvent in H. destruct lines as [|l r]; [discriminate|]. destruct (readInt l) as [[n r0]|] eqn:EC; [|cbn in H; discriminate].
  cbv zeta in H. destruct (n <=? 0) eqn:E0; [discriminate|]. apply Z.leb_gt in E0. destruct r as [|b r2]; [discriminate|]. destruct (readPart parseD b) as [[[id q] v]|] eqn:EP; [|discriminate].
  destruct (name_total id q) as (nm & c & A & B & K). rewrite A in H. cbn [bindP] in H. rewrite B in H. cbn [bindP] in H.
  destruct (readDecay parseD (Z.to_nat (n - 1)) 0 r2 [] [] (if c then ok else false)) as [[[[dn' ms] s] r3]|] eqn:ED; [|discriminate]. cbn [bindP] in H.
  destruct ((0 <? length dn')%nat && (length dn' =? length ms)%nat) eqn:EL; [|discriminate]. injection H as -> <- <- <- <-. apply andb_prop in EL as [EL1 EL2]. apply Nat.ltb_lt in EL1. apply Nat.eqb_eq in EL2.
  apply rd_sound in ED; [|reflexivity|reflexivity|exact EL2]. destruct ED as (OK & ps & dn & dm & E1 & E2 & E3 & E4 & G). destruct c; [|discriminate]. split; [exact OK|]. cbn [app] in E3, E4. subst dn' ms r2.
  exists (l :: b :: ps). split; [reflexivity|]. apply good3_iff in G as (G1 & G2 & G3). exists l, b, ps, nm, (Some v). cbn [fst snd enProd enDecay].
  split; [reflexivity|]. split; [intros F; subst ps; cbn in G1; lia|]. split; [exists r0; rewrite EC; repeat f_equal; lia|]. split; [reflexivity|]. split; [reflexivity|]. split; [|auto].
  exists id, q, v. split; [now apply part_iff|]. split; [now apply K|reflexivity].
Qed.
Lemma ev_complete parseD names blk e rest : goodEvent parseD names blk e -> readEvent parseD (blk ++ rest) true = Some (Ev true (fst names) (snd names) e rest).
Proof.
  intros (c & b & ps & p & v & -> & NE & (r0 & EC) & EP & EV & (id & q & w & HP & HG & ->) & L1 & L2 & G). cbn [app readEvent]. rewrite EC.
  destruct (1 + Z.of_nat (length ps) <=? 0) eqn:E0; [apply Z.leb_le in E0; lia|]. apply part_iff in HP. rewrite HP. destruct (geant_fwd _ _ _ HG) as (A & B & _). rewrite A. cbn [bindP]. rewrite B. cbn [bindP].
  replace (Z.to_nat (1 + Z.of_nat (length ps) - 1)) with (length ps) by lia. rewrite (rd_complete parseD ps (snd names) (enDecay e)) by (first [apply good3_iff; auto|reflexivity]). cbn [bindP app].
  rewrite L1, L2, Nat.eqb_refl. destruct ps as [|x ps]; [contradiction|]. cbn [length Nat.ltb Nat.leb andb]. rewrite EP. destruct e as [ep ed]. cbn [enProd enDecay] in *. now rewrite EV.
Qed.
Lemma ev_break parseD lines ok : readEvent parseD lines ok = Some (Break true) -> ok = true /\ (lines = [] \/ exists c n, lines = [c] /\ countLine c n /\ 0 < n).
Proof.
  intros H. unfold readEvent in H. destruct lines as [|l r]; [injection H as ->; auto|]. destruct (readInt l) as [[n r0]|] eqn:EC; [|cbn in H; discriminate]. cbv zeta in H.
  destruct (n <=? 0) eqn:E0; [discriminate|]. apply Z.leb_gt in E0. destruct r as [|b r2].
  - injection H as ->. split; [reflexivity|]. right. exists l, n. split; [reflexivity|]. split; [now exists r0|lia].
  - destruct (readPart parseD b) as [[[id q] v]|]; [|discriminate]. destruct (name_total id q) as (nm & c & A & B & K). rewrite A in H. cbn [bindP] in H. rewrite B in H. cbn [bindP] in H.
    destruct (readDecay parseD (Z.to_nat (n - 1)) 0 r2 [] [] (if c then ok else false)) as [[[[dn' ms] s] r3]|]; [|discriminate]. cbn [bindP] in H. destruct (_ && _); discriminate.
Qed.
Lemma good_len parseD names blk e : goodEvent parseD names blk e -> (0 < length blk)%nat.
Proof. intros (c & b & ps & p & v & -> & _). cbn. lia. Qed.
Lemma fill_false parseD : forall fuel mx lines tree names s T N, fillLoop parseD fuel mx lines false tree names = Some (s, T, N) -> s = false.
Proof.
  induction fuel as [|f IH]; intros mx lines tree names s T N H; [discriminate|]. cbn [fillLoop] in H. destruct (readEvent parseD lines false) as [[s0|s0 pn dn e rest]|] eqn:E; [| |discriminate]; cbn [bindP] in H.
  - injection H as <- <- <-. destruct s0; [|reflexivity]. apply ev_break in E as [F _]. discriminate.
  - destruct s0; [apply ev_sound in E as [F _]; discriminate|]. match type of H with bindP ?x _ = _ => destruct x as [N1|]; [|discriminate] end. cbn [bindP] in H. destruct ((0 <? mx) && _); [congruence|]. now apply IH in H.
Qed.
Definition tailOk (tail : list str) : Prop := tail = [] \/ exists c n, tail = [c] /\ countLine c n /\ 0 < n.
Lemma fill_sound parseD mx : mx <= 0 -> forall fuel lines ok tree names T N, fillLoop parseD fuel mx lines ok tree names = Some (true, T, N) ->
  exists blocks es tail, lines = concat blocks ++ tail /\ T = tree ++ es /\ Forall2 (goodEvent parseD N) blocks es /\ tailOk tail /\ (tree <> [] \/ es = [] -> N = names).
Proof.
  intros M. induction fuel as [|f IH]; intros lines ok tree names T N H; [discriminate|]. cbn [fillLoop] in H. destruct (readEvent parseD lines ok) as [[s0|s0 pn dn e rest]|] eqn:E; [| |discriminate]; cbn [bindP] in H.
  - injection H as -> <- <-. apply ev_break in E as [_ E]. exists [], [], lines. rewrite app_nil_r. split; [reflexivity|]. split; [reflexivity|]. split; [constructor|]. split; [exact E|auto].
  - match type of H with bindP ?x _ = _ => destruct x as [N1|] eqn:EN; [|discriminate] end. cbn [bindP] in H. replace (0 <? mx) with false in H by (symmetry; apply Z.ltb_ge; lia). cbn [andb] in H.
    destruct s0; [|apply fill_false in H; discriminate]. apply ev_sound in E as (_ & blk & -> & G). apply IH in H as (bs & es & tail & -> & -> & F & TO & EQ). assert (N = N1) as -> by (apply EQ; left; now destruct tree).
    assert (N1 = (pn, dn) /\ (tree <> [] -> N1 = names)) as [EN1 EN2].
    { destruct (Nat.eqb_spec (length tree) 0) as [Z|NZ].
      - injection EN as <-. split; [reflexivity|]. intros K. destruct tree; [contradiction|discriminate].
      - destruct (list_eqb pn (fst names) && list_eqb dn (snd names)) eqn:EE; [|discriminate]. injection EN as <-. apply andb_prop in EE as [E1 E2]. apply list_eqb_eq in E1, E2. split; [|auto]. subst. now destruct names. }
    exists (blk :: bs), (e :: es), tail. cbn [concat]. rewrite <- !app_assoc. split; [reflexivity|]. split; [reflexivity|]. split; [constructor; [now rewrite EN1|exact F]|]. split; [exact TO|]. intros [K|K]; [now apply EN2|discriminate].
Qed.
Lemma ev_tail parseD tail : tailOk tail -> readEvent parseD tail true = Some (Break true).
Proof. intros [->|(c & n & -> & (r & EC) & P)]; [reflexivity|]. cbn [readEvent]. rewrite EC. destruct (n <=? 0) eqn:E; [apply Z.leb_le in E; lia|reflexivity]. Qed.
Lemma fill_next parseD N f mx blk e rest tree names : goodEvent parseD N blk e -> (tree <> [] -> names = N) -> mx <= 0 \/ Z.of_nat (length tree) + 1 < mx ->
  fillLoop parseD (Datatypes.S f) mx (blk ++ rest) true tree names = fillLoop parseD f mx rest true (tree ++ [e]) N.
Proof.
  intros G K M. cbn [fillLoop]. rewrite (ev_complete _ _ _ _ _ G). cbn [bindP].
  replace (if (length tree =? 0)%nat then Some (fst N, snd N) else if list_eqb (fst N) (fst names) && list_eqb (snd N) (snd names) then Some names else None) with (Some N).
  - cbn [bindP]. rewrite app_length. cbn [length]. destruct ((0 <? mx) && (mx <=? Z.of_nat (length tree + 1))) eqn:E; [|reflexivity]. apply andb_prop in E as [E1 E2]. apply Z.ltb_lt in E1. apply Z.leb_le in E2. lia.
  - destruct (Nat.eqb_spec (length tree) 0) as [Z|NZ]; [now destruct N|]. rewrite K by (intros ->; now cbn in NZ). now rewrite (proj2 (list_eqb_eq _ _) eq_refl), (proj2 (list_eqb_eq _ _) eq_refl).
Qed.
(* after any number of good events *)
Lemma fill_blocks parseD N mx : forall blocks es, Forall2 (goodEvent parseD N) blocks es -> forall fuel rest tree names, (tree <> [] -> names = N) ->
  mx <= 0 \/ Z.of_nat (length tree + length es) < mx -> (length (concat blocks ++ rest) < fuel)%nat ->
  exists f', (length rest < f')%nat /\ fillLoop parseD fuel mx (concat blocks ++ rest) true tree names = fillLoop parseD f' mx rest true (tree ++ es) (match es with [] => names | _ => N end).
Proof.
  intros blocks es F. induction F as [|blk e bs es G F IH]; intros fuel rest tree names K M L.
  - exists fuel. cbn [concat app] in *. split; [exact L|]. now rewrite app_nil_r.
  - destruct fuel as [|f]; [lia|]. cbn [concat] in *. rewrite <- app_assoc in *. rewrite (fill_next parseD N f mx blk e _ tree names G K) by (cbn [length] in M; lia).
    destruct (IH f rest (tree ++ [e]) N) as (f' & L' & E); [auto|rewrite app_length; cbn [length] in *; lia|rewrite app_length in L; pose proof (good_len _ _ _ _ G); lia|].
    exists f'. split; [exact L'|]. rewrite E, <- app_assoc. now destruct es.
Qed.

(* ---- lines of a text ---- *)
Lemma linesFrom_line l : ~ In nl l -> forall cur r, linesFrom cur (l ++ nl :: r) = (cur ++ l) :: linesFrom [] r.
Proof.
  induction l as [|c l IH]; intros N cur r; cbn [app linesFrom].
  - cbn [Ascii.eqb]. rewrite app_nil_r. reflexivity.
  - destruct (Ascii.eqb_spec c "010") as [->|NE]; [exfalso; apply N; now left|]. rewrite IH by (intros F; apply N; now right). now rewrite <- app_assoc.
Qed.
Lemma linesFrom_last l : ~ In nl l -> forall cur, linesFrom cur l = match cur ++ l with [] => [] | x => [x] end.
Proof.
  induction l as [|c l IH]; intros N cur; cbn [linesFrom]; [rewrite app_nil_r; now destruct cur|]. destruct (Ascii.eqb_spec c "010") as [->|NE]; [exfalso; apply N; now left|].
  rewrite IH by (intros F; apply N; now right). now rewrite <- app_assoc.
Qed.
Lemma lines_of text lines : hasLines text lines -> linesFrom [] text = lines.
Proof.
  assert (forall ls r, Forall (fun l => ~ In nl l) ls -> linesFrom [] (flat_map (fun l => l ++ [nl]) ls ++ r) = ls ++ linesFrom [] r) as K.
  { induction ls as [|l ls IH]; intros r F; [reflexivity|]. cbn [flat_map]. rewrite <- !app_assoc. cbn [app]. inversion F; subst. rewrite linesFrom_line by assumption. cbn [app]. now rewrite IH. }
  intros [F [->|(ls & l & -> & NE & ->)]].
  - rewrite <- (app_nil_r (flat_map _ lines)), K by exact F. cbn. apply app_nil_r.
  - apply Forall_app in F as [F1 F2]. inversion F2; subst. rewrite K by exact F1. f_equal. rewrite linesFrom_last by assumption. cbn [app]. now destruct l.
Qed.
Lemma lines_ex text : hasLines text (linesFrom [] text).
Proof.
  assert (forall s cur, ~ In nl cur -> Forall (fun l => ~ In nl l) (linesFrom cur s) /\ (cur ++ s = flat_map (fun l => l ++ [nl]) (linesFrom cur s) \/ exists ls l, linesFrom cur s = ls ++ [l] /\ l <> [] /\ cur ++ s = flat_map (fun l => l ++ [nl]) ls ++ l)) as K.
  { induction s as [|c s IH]; intros cur N; cbn [linesFrom].
    - rewrite app_nil_r. destruct cur as [|x cur]; [split; [constructor|now left]|]. split; [constructor; [exact N|constructor]|]. right. exists [], (x :: cur). split; [reflexivity|]. split; [discriminate|reflexivity].
    - destruct (Ascii.eqb_spec c "010") as [->|NE].
      + destruct (IH [] ltac:(intros [])) as [A B]. split; [constructor; assumption|]. cbn [app] in B. destruct B as [B|(ls & l & B1 & B2 & B3)].
        * left. cbn [flat_map]. rewrite <- app_assoc. now rewrite <- B.
        * right. exists (cur :: ls), l. rewrite B1. split; [reflexivity|]. split; [exact B2|]. cbn [flat_map]. rewrite <- !app_assoc. now rewrite <- B3.
      + destruct (IH (cur ++ [c])) as [A B]; [rewrite in_app_iff; intros [F|[F|[]]]; [now apply N|unfold nl in F; congruence]|]. rewrite <- app_assoc in B. now split. }
  destruct (K text [] ltac:(intros [])) as [A B]. now split.
Qed.
