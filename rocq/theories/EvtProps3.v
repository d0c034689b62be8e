(* C92: amplitudes of a tree, opening several files, examples. *)
From Coq Require Import String Ascii List ZArith NArith Bool Reals Lia.
From Verif Require Import PathModel StrModel DecModel ParticleModel EvtModel EvtSpec EvtProofs EvtProps EvtProps2.
Import ListNotations.
Open Scope Z_scope.
Open Scope list_scope.

Lemma process_gen {A} (f : evEntry -> option A) l : forall b vals, fold_left (fun s e => match f e with Some a => (fst s, snd s ++ [a]) | None => (false, snd s) end) l (b, vals)
  = (b && forallb (fun e => match f e with Some _ => true | None => false end) l, vals ++ flat_map (fun e => match f e with Some a => [a] | None => [] end) l).
Proof.
  induction l as [|e l IH]; intros b vals; cbn [fold_left forallb flat_map]; [now rewrite andb_true_r, app_nil_r|]. destruct (f e) as [a|]; cbn [fst snd]; rewrite IH; cbn [andb app]; [now rewrite <- app_assoc|]. now rewrite andb_false_r.
Qed.
(* processTree appends the amplitudes of the first events in their order; it succeeds exactly if each of these events has one,
   and then there is one amplitude for each event *)
Theorem C92_process {A} (f : evEntry -> option A) tree mx vals ok out : processTree true f tree mx vals = (ok, out) ->
  exists new, out = vals ++ new /\ (ok = true <-> forall e, In e (upToMax mx tree) -> f e <> None) /\ (ok = true -> map Some new = map f (upToMax mx tree))
    /\ (mx <= 0 -> upToMax mx tree = tree) /\ (0 < mx -> upToMax mx tree = firstn (Z.to_nat mx) tree).
Proof.
  intros H. unfold processTree in H. rewrite process_gen in H. cbn [andb] in H. injection H as <- <-. eexists. split; [reflexivity|]. split; [|split; [|split]].
  - rewrite forallb_forall. split; intros K e He; specialize (K e He); destruct (f e); congruence.
  - generalize (upToMax mx tree). intros l H. induction l as [|e l IH]; [reflexivity|]. cbn [forallb] in H. apply andb_prop in H as [H1 H2]. cbn [flat_map map]. destruct (f e); [|discriminate]. cbn [app map]. f_equal. now apply IH.
  - intros L. unfold upToMax. destruct (Z.ltb_spec 0 mx); [lia|reflexivity].
  - intros L. unfold upToMax. destruct (Z.ltb_spec 0 mx); [reflexivity|lia].
Qed.
(* an event that cannot be read has no amplitude: the next ones move up *)
Theorem C92_process_refuted {A} (f : evEntry -> option A) e1 e2 e3 a1 a3 : f e1 = Some a1 -> f e2 = None -> f e3 = Some a3 -> processTree true f [e1; e2; e3] (-1) [] = (false, [a1; a3]).
Proof. intros H1 H2 H3. unfold processTree, upToMax. cbn. now rewrite H1, H2, H3. Qed.

(* One text file is opened as its tree and its names *)
Theorem C92_open_one parseD text tree P D : fillTreeFromEvt parseD text (-1) = Some (true, tree, (P, D)) -> openRootEvtFiles parseD NoRoot [Some text] = Some (true, [tree], Some P, Some D).
Proof. intros H. unfold openRootEvtFiles, openEvt. rewrite H. reflexivity. Qed.
(* As soon as the particles are known, from a root file or from the first text file, every further text file with particles is
   reported as inconsistent, even if its particles are the same *)
Theorem C92_open_two_refuted parseD t1 t2 ok tree1 tree2 p P D P2 D2 rest : fillTreeFromEvt parseD t2 (-1) = Some (ok, tree2, (P2, D2)) ->
  (forall ok1, fillTreeFromEvt parseD t1 (-1) = Some (ok1, tree1, (p :: P, D)) -> exists ts q d, openRootEvtFiles parseD NoRoot (Some t1 :: Some t2 :: rest) = Some (false, ts, q, d))
  /\ exists ts q d, openRootEvtFiles parseD (RootNames (Some (p :: P)) (Some D)) (Some t2 :: rest) = Some (false, ts, q, d).
Proof.
  intros H2. assert (namesConsistent P2 (p :: P) = false) as NC.
  { unfold namesConsistent. destruct P2 as [|x P2]; [reflexivity|]. destruct (length (x :: P2) =? length (p :: P))%nat; [|reflexivity]. cbn [negb namesLoop]. now destruct (negb _). }
  split.
  - intros ok1 H1. unfold openRootEvtFiles. cbn [openEvt]. rewrite H1. cbn [bindP]. rewrite H2. cbn [bindP]. rewrite NC. cbn [negb]. eauto.
  - unfold openRootEvtFiles. cbn [openEvt]. rewrite H2. cbn [bindP]. rewrite NC. cbn [negb]. eauto.
Qed.

(* ---- examples ---- *)
(* numbers rounded up to integers *)
Definition exShow (x : R) : str := showInt (up x).
Definition exParse (s : str) : option R := match readInt s with Some (z, _) => Some (IZR z) | None => None end.
Example C92_ex_prints : prints exShow exParse (fun x => IZR (up x)).
Proof.
  intros x. unfold exShow, exParse. split; [|split].
  - unfold showInt. destruct (Z.ltb_spec (up x) 0); [discriminate|]. now apply showNN_spec.
  - assert (forall n, 0 <= n -> Forall (fun c => numChar c = true) (showNN n)) as K.
    { intros n Hn. destruct (showNN_spec n Hn) as (_ & D & _). apply Forall_forall. intros c Hc. rewrite forallb_forall in D. unfold numChar. now rewrite (D c Hc). }
    unfold showInt. destruct (Z.ltb_spec (up x) 0) as [L|L]; [constructor; [reflexivity|apply K; lia]|now apply K].
  - rewrite <- (app_nil_r (showInt _)), readInt_show by exact I. reflexivity.
Qed.
Definition exText : str := lit "3" ++ [nl] ++ lit "9 -1 0 0 190 190" ++ [nl] ++ lit "9 -1 1 0 100 100" ++ [nl] ++ lit "8 1 -1 0 90 90 comment" ++ [nl]
  ++ lit " 3 " ++ [nl] ++ lit "9 -1 0 0 191 191" ++ [nl] ++ lit "9 -1 2 0 100 100" ++ [nl] ++ lit "8 1 -2 0 91 91".
Definition exVec (x z : Z) : option vec := Some (Vec (IZR x) 0 (IZR z)).
Definition exTree : list evEntry := [EvEntry [exVec 0 190] [exVec 1 100; exVec (-1) 90]; EvEntry [exVec 0 191] [exVec 2 100; exVec (-2) 91]].
Definition exNames : list str * list str := ([lit "pi-"], [lit "pi-"; lit "pi+"]).
Example C92_ex_read : fillTreeFromEvt exParse exText (-1) = Some (true, exTree, exNames).
Proof. reflexivity. Qed.
Example C92_ex_max : fillTreeFromEvt exParse exText 1 = Some (true, [EvEntry [exVec 0 190] [exVec 1 100; exVec (-1) 90]], exNames).
Proof. reflexivity. Qed.
Example C92_ex_events : exists blocks, linesFrom [] exText = concat blocks ++ [] /\ Forall2 (goodEvent exParse exNames) blocks exTree /\ hasLines exText (linesFrom [] exText).
Proof.
  pose proof C92_ex_read as H. apply (C92_read exParse exText _ (-1) _ _ (lines_ex exText)) in H as (bs & tail & E & F & T & _); [|lia]. exists bs. split; [|split; [exact F|apply lines_ex]].
  destruct T as [->|(c & n & -> & _)]; [exact E|]. exfalso. apply (f_equal (@length str)) in E. rewrite app_length in E. cbn [length] in E. change (length (linesFrom [] exText)) with 8%nat in E.
  unfold exTree in F. inversion F as [|b1 ? bs1 ? G1 F1]; subst. inversion F1 as [|b2 ? bs2 ? G2 F2]; subst. inversion F2; subst. cbn [concat] in E. rewrite app_nil_r, app_length in E.
  destruct G1 as (? & ? & ps1 & ? & ? & -> & _ & _ & _ & _ & _ & L1 & _). destruct G2 as (? & ? & ps2 & ? & ? & -> & _ & _ & _ & _ & _ & L2 & _). cbn [exNames snd length] in *. lia.
Qed.
(* the ways the program ends: too few lines, an empty line, other particles *)
Example C92_ex_ends : fillTreeFromEvt exParse (exText ++ [nl] ++ lit "3" ++ [nl] ++ lit "9 -1 0 0 1 1" ++ [nl]) (-1) = None /\ fillTreeFromEvt exParse (exText ++ [nl; nl]) (-1) = None
  /\ fillTreeFromEvt exParse (exText ++ [nl] ++ lit "2" ++ [nl] ++ lit "9 -1 0 0 1 1" ++ [nl] ++ lit "9 -1 0 0 1 1") (-1) = None.
Proof. repeat split; reflexivity. Qed.
Example C92_ex_cut_refuted : fillTreeFromEvt exParse (exText ++ [nl] ++ lit "3") (-1) = Some (true, exTree, exNames).
Proof. reflexivity. Qed.
Example C92_ex_roundtrip : Forall nameOk (fst exNames ++ snd exNames) /\ Forall (fits exNames) exTree /\ fits ([lit "pi-"; lit "p+"], [lit "pi+"]) (EvEntry [exVec 0 190; exVec 0 0] [exVec 1 100]).
Proof.
  split; [|split].
  - repeat apply Forall_cons; [exists 9, (-1)|exists 9, (-1)|exists 8, 1|constructor]; (eexists; split; [cbn [geant In]; repeat (first [left; reflexivity|right])|reflexivity]).
  - repeat constructor; cbn; intros H; repeat (destruct H as [H|H]; [discriminate|]); destruct H.
  - repeat constructor; cbn; intros H; repeat (destruct H as [H|H]; [discriminate|]); destruct H.
Qed.
Example C92_ex_unknown_refuted : chargeFromName (lit "K*(892)0") = Some (lit "K*(892)", 0) /\ (forall id c, ~ isGeant id (lit "K*(892)0") c) /\ findName (lit "K*(892)0") = None /\ findName (lit "K*(892)") = None.
Proof.
  split; [reflexivity|]. split; [|split; reflexivity]. intros id c (s & H & E). cbn [geant In] in H. repeat (destruct H as [H|H]; [injection H as <- <- <-; vm_compute in E; discriminate|]). destruct H.
Qed.
Example C92_ex_open_two_refuted : exists ts q d, openRootEvtFiles exParse NoRoot [Some exText; Some exText] = Some (false, ts, q, d).
Proof. eexists _, _, _. reflexivity. Qed.
Example C92_ex_process : processTree true (fun e => Some (length (enDecay e))) exTree 1 [7%nat] = (true, [7%nat; 2%nat]) /\ processTree true (fun e => match enDecay e with [_; Some v] => Some v | _ => None end) (exTree ++ [EvEntry [] []]) (-1) [] = (false, [Vec (-1) 0 90; Vec (-2) 0 91]).
Proof. split; reflexivity. Qed.
Example C92_ex_geant : isGeant 9 (lit "pi-") (-1) /\ forall n q, ~ isGeant 4 n q.
Proof.
  split; [eexists; split; [cbn [geant In]; repeat (first [left; reflexivity|right])|reflexivity]|]. intros n q (s & H & _). cbn [geant In] in H. repeat (destruct H as [H|H]; [discriminate|]). destruct H.
Qed.
