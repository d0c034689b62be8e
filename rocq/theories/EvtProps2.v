(* C92: writing text files of events and reading them back. *)
From Coq Require Import String Ascii List ZArith NArith Bool Reals Lia.
From Verif Require Import PathModel StrModel DecModel ParticleModel EvtModel EvtSpec EvtProofs EvtProps.
Import ListNotations.
Open Scope Z_scope.
Open Scope list_scope.

Definition sp : ascii := " "%char.
Definition lineOf (showD : R -> str) (id q : Z) (v : vec) (E : R) : str :=
  showInt id ++ [sp] ++ showInt q ++ [sp] ++ showD (vX v) ++ [sp] ++ showD (vY v) ++ [sp] ++ showD (vZ v) ++ [sp] ++ showD E.
Lemma readD_show showD parseD rd x r : prints showD parseD rd -> (r = [] \/ exists s, r = sp :: s) -> readD parseD (showD x ++ r) = Some (rd x, r).
Proof.
  intros P Hr. destruct (P x) as (NE & F & RD). unfold readD. destruct (showD x) as [|c w] eqn:E; [contradiction|]. cbn [app]. inversion F as [|? ? F1 F2]; subst.
  assert (isSpace c = false) as Sc. { destruct (isSpace c) eqn:S; [|reflexivity]. exfalso. revert F1 S. clear. destruct c as [[] [] [] [] [] [] [] []]; vm_compute; discriminate. }
  rewrite skipWs_nonspace by exact Sc. change (c :: w ++ r) with ((c :: w) ++ r).
  rewrite span_end; [| |].
  - rewrite RD. reflexivity.
  - apply forallb_forall. rewrite Forall_forall in F. exact F.
  - destruct Hr as [->|(s & ->)]; [exact I|reflexivity].
Qed.
Lemma readD_sp parseD s : readD parseD (sp :: s) = readD parseD s.
Proof. unfold readD. now rewrite skipWs_space by reflexivity. Qed.
Lemma lineOf_part showD parseD rd id q v E : prints showD parseD rd -> partLine parseD (lineOf showD id q v E) id q (rdVec rd v).
Proof.
  intros P. unfold lineOf. exists ([sp] ++ showInt q ++ [sp] ++ showD (vX v) ++ [sp] ++ showD (vY v) ++ [sp] ++ showD (vZ v) ++ [sp] ++ showD E),
    ([sp] ++ showD (vX v) ++ [sp] ++ showD (vY v) ++ [sp] ++ showD (vZ v) ++ [sp] ++ showD E), ([sp] ++ showD (vY v) ++ [sp] ++ showD (vZ v) ++ [sp] ++ showD E), ([sp] ++ showD (vZ v) ++ [sp] ++ showD E), ([sp] ++ showD E), [], (rd E).
  cbn [app rdVec vX vY vZ]. split; [now apply readInt_show|]. split; [rewrite readInt_ws by reflexivity; now apply readInt_show|].
  split; [rewrite readD_sp; apply readD_show with (1 := P); eauto|]. split; [rewrite readD_sp; apply readD_show with (1 := P); eauto|]. split; [rewrite readD_sp; apply readD_show with (1 := P); eauto|].
  rewrite readD_sp. rewrite <- (app_nil_r (showD E)). apply readD_show with (1 := P). now left.
Qed.
Lemma showInt_nl z : ~ In nl (showInt z).
Proof.
  assert (forall n, 0 <= n -> ~ In nl (showNN n)) as K.
  { intros n Hn F. destruct (showNN_spec n Hn) as (_ & D & _). rewrite forallb_forall in D. apply D in F. discriminate. }
  unfold showInt. destruct (Z.ltb_spec z 0) as [L|L]; [|now apply K]. intros [F|F]; [discriminate|]. now apply (K (- z)) in F; [|lia].
Qed.
Lemma showD_nl showD parseD rd x : prints showD parseD rd -> ~ In nl (showD x).
Proof. intros P F. destruct (P x) as (_ & A & _). rewrite Forall_forall in A. apply A in F. discriminate. Qed.
Lemma lineOf_nl showD parseD rd id q v E : prints showD parseD rd -> ~ In nl (lineOf showD id q v E).
Proof.
  intros P. unfold lineOf. pose proof (fun x => showD_nl showD parseD rd x P) as K. pose proof showInt_nl as KI. rewrite !in_app_iff. cbn [In]. intros F.
  assert (sp <> nl) as NE by discriminate. repeat (destruct F as [F|F]; [first [exact (K _ F)|exact (KI _ F)|destruct F as [F|[]]; now apply NE]|]). exact (K _ F).
Qed.
Lemma partText_line pdt showD n b q v : chargeFromName n = Some (b, q) -> exists id E, geantIdAndChargeFromParticleName n = Some (id, q) /\ partText pdt showD n v = Some (lineOf showD id q v E ++ [nl]).
Proof.
  intros H. unfold partText, getParticleMass, stripChargeFromName, geantIdAndChargeFromParticleName. rewrite H. cbn [bindP].
  destruct (isInTable pdt n); cbn [bindP]; cbv zeta; (eexists _, (sqrt (_ * _ + _)); split; [reflexivity|]); unfold lineOf, sp, nl; rewrite <- !app_assoc; reflexivity.
Qed.
Definition nameOk (n : str) : Prop := exists id q, isGeant id n q.
Lemma nameOk_line pdt showD parseD rd n v : prints showD parseD rd -> nameOk n -> exists l, partText pdt showD n v = Some (l ++ [nl]) /\ ~ In nl l /\ goodLine parseD l n (Some (rdVec rd v)).
Proof.
  intros P (id & q & G). destruct (geant_fwd _ _ _ G) as (_ & _ & B). unfold geantIdAndChargeFromParticleName in B. destruct (chargeFromName n) as [[b c]|] eqn:E; [|discriminate]. cbn [bindP] in B.
  destruct (partText_line pdt showD n b c v E) as (id' & En & A1 & A2). unfold geantIdAndChargeFromParticleName in A1. rewrite E in A1. cbn [bindP] in A1. rewrite A1 in B. injection B as -> ->.
  exists (lineOf showD id q v En). split; [exact A2|]. split; [now apply (lineOf_nl showD parseD rd)|]. exists id, q, (rdVec rd v). split; [now apply lineOf_part|]. now split.
Qed.
Lemma decay_text pdt showD parseD rd : prints showD parseD rd -> forall dn moms, Forall nameOk dn -> length moms = length dn -> ~ In None moms ->
  exists ps, decayText pdt showD dn moms = Some (flat_map (fun l => l ++ [nl]) ps) /\ Forall (fun l => ~ In nl l) ps /\ good3 parseD ps dn (map (option_map (rdVec rd)) moms).
Proof.
  intros P. induction dn as [|n dn IH]; intros [|m moms] F L N; cbn in L; try lia.
  - exists []. repeat split; constructor.
  - inversion F; subst. destruct m as [v|]; [|exfalso; apply N; now left]. destruct (nameOk_line pdt showD parseD rd n v P H1) as (l & A & B & C). destruct (IH moms H2) as (ps & A' & B' & C'); [lia|intros K; apply N; now right|].
    exists (l :: ps). cbn [decayText]. rewrite A. cbn [bindP]. rewrite A'. cbn [bindP flat_map]. split; [reflexivity|]. split; [now constructor|]. cbn [map option_map]. now constructor.
Qed.
(* beam only *)
Definition beamOnly (e : evEntry) : evEntry := EvEntry (firstn 1 (enProd e)) (enDecay e).
Lemma event_text pdt showD parseD rd p pn dn e : prints showD parseD rd -> nameOk p -> Forall nameOk dn -> dn <> [] -> fits (p :: pn, dn) e ->
  exists blk, eventText pdt showD (p :: pn) dn e = Some (flat_map (fun l => l ++ [nl]) blk) /\ Forall (fun l => ~ In nl l) blk /\ goodEvent parseD ([p], dn) blk (rdEntry rd (beamOnly e)).
Proof.
  intros P Hp Hd NE (L1 & L2 & N1 & N2). cbn [fst snd] in L1, L2. destruct e as [ep ed]. cbn [enProd enDecay] in *. destruct ep as [|v ep]; [discriminate|]. destruct v as [v|]; [|exfalso; apply N1; now left].
  destruct (nameOk_line pdt showD parseD rd p v P Hp) as (b & A & B & C). destruct (decay_text pdt showD parseD rd P dn ed Hd L2 N2) as (ps & A' & B' & C').
  pose proof (proj1 (good3_iff _ _ _ _) C') as (G1 & G2 & G3). exists (showInt (1 + Z.of_nat (length dn)) :: b :: ps). split; [|split].
  - unfold eventText. cbn [enProd enDecay]. rewrite L1, L2, !Nat.eqb_refl. cbn [andb negb]. destruct dn as [|n dn]; [contradiction|]. rewrite A. cbn [bindP]. rewrite A'. cbn [bindP]. cbn [flat_map]. rewrite <- !app_assoc. reflexivity.
  - constructor; [apply showInt_nl|]. now constructor.
  - exists (showInt (1 + Z.of_nat (length dn))), b, ps, p, (Some (rdVec rd v)). split; [reflexivity|]. split; [intros ->; destruct dn; [contradiction|discriminate]|].
    split; [exists []; rewrite <- G1, <- (app_nil_r (showInt _)); apply readInt_show; exact I|]. split; [reflexivity|]. split; [reflexivity|]. split; [exact C|]. cbn [snd enDecay rdEntry beamOnly]. auto.
Qed.
Lemma events_text pdt showD parseD rd p pn dn : prints showD parseD rd -> nameOk p -> Forall nameOk dn -> dn <> [] -> forall tree, Forall (fits (p :: pn, dn)) tree ->
  exists blocks, eventTexts pdt showD (p :: pn) dn tree = Some (flat_map (fun l => l ++ [nl]) (concat blocks)) /\ Forall (fun l => ~ In nl l) (concat blocks)
    /\ Forall2 (goodEvent parseD ([p], dn)) blocks (map (fun e => rdEntry rd (beamOnly e)) tree).
Proof.
  intros P Hp Hd NE. induction tree as [|e tree IH]; intros F; [exists []; repeat split; constructor|]. inversion F; subst. destruct (event_text pdt showD parseD rd p pn dn e P Hp Hd NE H1) as (blk & A & B & C).
  destruct (IH H2) as (bs & A' & B' & C'). exists (blk :: bs). cbn [eventTexts]. rewrite A. cbn [bindP]. rewrite A'. cbn [bindP concat map]. rewrite flat_map_app. split; [reflexivity|]. split; [apply Forall_app; auto|now constructor].
Qed.

(* A tree with more than one production particle: written and read back with the beam alone *)
Theorem C92_target_refuted pdt showD parseD rd p pn dn tree : prints showD parseD rd -> nameOk p -> Forall nameOk dn -> dn <> [] -> tree <> [] -> Forall (fits (p :: pn, dn)) tree ->
  exists text, writeEvtFromTree pdt showD tree (p :: pn) dn (-1) = Some text
    /\ fillTreeFromEvt parseD text (-1) = Some (true, map (fun e => rdEntry rd (beamOnly e)) tree, ([p], dn)).
Proof.
  intros P Hp Hd NE NT F. destruct (events_text pdt showD parseD rd p pn dn P Hp Hd NE tree F) as (bs & A & B & C). exists (flat_map (fun l => l ++ [nl]) (concat bs)). split; [exact A|].
  assert (hasLines (flat_map (fun l => l ++ [nl]) (concat bs)) (concat bs)) as HL by (split; [exact B|now left]). apply (C92_read parseD _ _ (-1) _ _ HL); [lia|]. exists bs, []. rewrite app_nil_r. split; [reflexivity|]. split; [exact C|]. split; [now left|].
  intros ->. inversion C as [E|]; subst. destruct tree; [contradiction|discriminate].
Qed.
(* A tree with a beam and known particles is read back as it was written: the names, and the momenta as their text gives them *)
Theorem C92_roundtrip pdt showD parseD rd names tree : prints showD parseD rd -> length (fst names) = 1%nat -> snd names <> [] -> Forall nameOk (fst names ++ snd names) -> tree <> [] -> Forall (fits names) tree ->
  exists text, writeEvtFromTree pdt showD tree (fst names) (snd names) (-1) = Some text /\ fillTreeFromEvt parseD text (-1) = Some (true, map (rdEntry rd) tree, names).
Proof.
  intros P L NE FN NT F. destruct names as [pn dn]. cbn [fst snd] in *. destruct pn as [|p [|]]; try discriminate. cbn [app] in FN. inversion FN; subst.
  destruct (C92_target_refuted pdt showD parseD rd p [] dn tree P H1 H2 NE NT F) as (text & A & B). exists text. split; [exact A|]. rewrite B. do 3 f_equal. apply map_ext_in. intros e He. rewrite Forall_forall in F. destruct (F e He) as (L1 & _). cbn [fst length] in L1.
  unfold beamOnly. destruct e as [ep ed]. cbn [enProd enDecay] in *. destruct ep as [|v [|]]; try discriminate. reflexivity.
Qed.
(* What was read can be written, and is read back the same *)
Theorem C92_rewrite pdt showD parseD rd text tree names : prints showD parseD rd -> fillTreeFromEvt parseD text (-1) = Some (true, tree, names) -> tree <> [] ->
  exists text', writeEvtFromTree pdt showD tree (fst names) (snd names) (-1) = Some text' /\ fillTreeFromEvt parseD text' (-1) = Some (true, map (rdEntry rd) tree, names).
Proof.
  intros P H NT. apply (C92_read parseD text _ (-1) tree names (lines_ex text)) in H as (bs & tail & _ & F & _ & _); [|lia].
  assert (forall blk e, goodEvent parseD names blk e -> length (fst names) = 1%nat /\ snd names <> [] /\ Forall nameOk (fst names ++ snd names) /\ fits names e) as K.
  { intros blk e (c & b & ps & p & v & -> & NE & _ & EP & EV & (id & q & w & _ & HG & ->) & L1 & L2 & G). rewrite EP. split; [reflexivity|]. split; [intros E; rewrite E in L1; destruct ps; [contradiction|discriminate]|]. split.
    - constructor; [now exists id, q|]. apply Forall_forall. intros n Hn. apply In_nth_error in Hn as [i Hi]. assert (i < length ps)%nat as Li by (rewrite <- L1; apply nth_error_Some; congruence).
      destruct (nth_error ps i) as [l|] eqn:El; [|apply nth_error_None in El; lia]. destruct (nth_error (enDecay e) i) as [x|] eqn:Ex; [|apply nth_error_None in Ex; lia]. destruct (G i l n x El Hi Ex) as (id' & q' & w' & _ & HG' & _). now exists id', q'.
    - split; [rewrite EP, EV; reflexivity|]. split; [lia|]. rewrite EV. split; [intros [X|[]]; discriminate|]. intros Hn. apply In_nth_error in Hn as [i Hi]. assert (i < length ps)%nat as Li by (rewrite <- L2; apply nth_error_Some; congruence).
      destruct (nth_error ps i) as [l|] eqn:El; [|apply nth_error_None in El; lia]. destruct (nth_error (snd names) i) as [x|] eqn:Ex; [|apply nth_error_None in Ex; lia]. destruct (G i l x None El Ex Hi) as (id' & q' & w' & _ & _ & X). discriminate. }
  destruct tree as [|e0 tree]; [contradiction|]. inversion F as [|blk ? ? ? G F']; subst. destruct (K _ _ G) as (K1 & K2 & K3 & _).
  apply C92_roundtrip; auto. clear - F K. induction F as [|b e bs es G F IH]; constructor; [now apply K in G|exact IH].
Qed.
(* A particle without GEANT ID is written without complaint, and the file is read with failure and the name unknown *)
Theorem C92_unknown_refuted pdt showD parseD rd p n b q v w : prints showD parseD rd -> nameOk p -> chargeFromName n = Some (b, q) -> (forall id c, ~ isGeant id n c) -> findName n = None -> findName b = None ->
  exists text, writeEvtFromTree pdt showD [EvEntry [Some v] [Some w]] [p] [n] (-1) = Some text
    /\ fillTreeFromEvt parseD text (-1) = Some (false, [EvEntry [Some (rdVec rd v)] [Some (rdVec rd w)]], ([p], [lit "unknown"])).
Proof.
  intros P Hp EC NG N1 N2. destruct (nameOk_line pdt showD parseD rd p v P Hp) as (l & A & B & (id & c & x & HP & HG & Ex)). injection Ex as <-.
  destruct (partText_line pdt showD n b q w EC) as (id' & E & A1 & A2). unfold geantIdAndChargeFromParticleName in A1. rewrite EC in A1. cbn [bindP] in A1. rewrite N1, N2 in A1. injection A1 as <-. set (l2 := lineOf showD 0 q w E) in *.
  exists (flat_map (fun l => l ++ [nl]) [showInt 2; l; l2]). split.
  - unfold writeEvtFromTree, upToMax, eventTexts, eventText. cbn [Z.ltb Z.compare length enProd enDecay Nat.eqb andb negb]. rewrite A. cbn [bindP decayText]. rewrite A2. cbn [bindP flat_map]. change (1 + Z.of_nat 1) with 2. rewrite <- !app_assoc. reflexivity.
  - unfold fillTreeFromEvt. rewrite (lines_of _ [showInt 2; l; l2]).
    + pose proof (lineOf_part showD parseD rd 0 q w E P) as HP2. apply part_iff in HP, HP2. cbn [length fillLoop readEvent]. rewrite <- (app_nil_r (showInt 2)), readInt_show by exact I. cbn [Z.leb Z.compare]. rewrite HP. destruct (geant_fwd _ _ _ HG) as (C1 & C2 & _). rewrite C1. cbn [bindP]. rewrite C2. cbn [bindP].
      change (Z.to_nat (2 - 1)) with 1%nat. cbn [readDecay]. unfold l2. rewrite HP2. change (particleNameFromGeantId 0) with (Some (lit "unknown")). cbn [bindP]. change (checkParticleCharge (lit "unknown") q) with (Some false). cbn [bindP readDecay app length Nat.ltb Nat.leb Nat.eqb andb putAt repeat Nat.sub]. reflexivity.
    + split; [|now left]. constructor; [apply showInt_nl|]. constructor; [exact B|]. constructor; [now apply (lineOf_nl showD parseD rd)|constructor].
Qed.
