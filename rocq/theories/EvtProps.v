(* C92: reading text files of events, and the names of their particles. *)
From Coq Require Import String Ascii List ZArith NArith Bool Reals Lia.
From Verif Require Import PathModel StrModel DecModel ParticleModel EvtModel EvtSpec EvtProofs.
Import ListNotations.
Open Scope Z_scope.
Open Scope list_scope.

(* Particle and GEANT ID belong together in both directions, the charge is that of the particle, other IDs are unknown *)
Theorem C92_geant : (forall id n q, isGeant id n q -> particleNameFromGeantId id = Some n /\ geantIdAndChargeFromParticleName n = Some (id, q))
  /\ (forall id, (forall n q, ~ isGeant id n q) -> particleNameFromGeantId id = Some (lit "unknown")).
Proof.
  split.
  - intros id n q H. destruct (geant_fwd id n q H) as (A & _ & B). auto.
  - exact geant_unknown.
Qed.

(* Reading succeeds exactly if the text consists of complete events of the same known particles with the right charges, and
   perhaps the first line of another one; the tree has the momenta of exactly these events, in this order *)
Theorem C92_read parseD text lines mx tree names : hasLines text lines -> mx <= 0 ->
  (fillTreeFromEvt parseD text mx = Some (true, tree, names) <->
   exists blocks tail, lines = concat blocks ++ tail /\ Forall2 (goodEvent parseD names) blocks tree
     /\ (tail = [] \/ exists c n, tail = [c] /\ countLine c n /\ 0 < n) /\ (blocks = [] -> names = ([], []))).
Proof.
  intros HL M. unfold fillTreeFromEvt. rewrite (lines_of _ _ HL). split.
  - intros H. apply (fill_sound parseD mx M) in H as (bs & es & tail & -> & E & F & TO & K). cbn [app] in E. subst tree. exists bs, tail. split; [reflexivity|]. split; [exact F|]. split; [exact TO|].
    intros ->. inversion F; subst. now apply K; right.
  - intros (bs & tail & -> & F & TO & K). destruct (fill_blocks parseD names mx bs tree F (Datatypes.S (length (concat bs ++ tail))) tail [] ([], [])) as (f & L & E); [intros N; contradiction|auto|lia|].
    rewrite E. destruct f as [|f]; [lia|]. cbn [fillLoop]. rewrite (ev_tail _ _ TO). cbn [bindP app]. destruct tree as [|e es]; [inversion F; subst; now rewrite K|reflexivity].
Qed.
(* with a maximum number of events exactly this many are read, whatever follows *)
Theorem C92_max parseD text lines mx tree names blocks rest : hasLines text lines -> lines = concat blocks ++ rest -> Forall2 (goodEvent parseD names) blocks tree ->
  0 < mx -> Z.of_nat (length tree) = mx -> fillTreeFromEvt parseD text mx = Some (true, tree, names).
Proof.
  intros HL -> F M L. unfold fillTreeFromEvt. rewrite (lines_of _ _ HL). destruct (exists_last (l := tree)) as (es & e & ->); [intros ->; cbn in L; lia|].
  apply Forall2_app_inv_r in F as (bs & b1 & F1 & F2 & ->). inversion F2 as [|blk ? l1 ? G F3]; subst. inversion F3; subst.
  rewrite concat_app. cbn [concat]. rewrite app_nil_r, <- app_assoc.
  destruct (fill_blocks parseD names (Z.of_nat (length es + 1)) bs es F1 (Datatypes.S (length (concat bs ++ blk ++ rest))) (blk ++ rest) [] ([], [])) as (f & Lf & E); [intros N; contradiction|right; cbn [length]; lia|lia|].
  replace (length (es ++ [e])) with (length es + 1)%nat by (rewrite app_length; reflexivity). rewrite E. destruct f as [|f]; [lia|]. cbn [fillLoop app]. rewrite (ev_complete _ _ _ _ _ G). cbn [bindP].
  replace (if (length es =? 0)%nat then Some (fst names, snd names) else if list_eqb (fst names) (fst match es with [] => ([], []) | _ :: _ => names end) && list_eqb (snd names) (snd match es with [] => ([], []) | _ :: _ => names end) then Some match es with [] => ([], []) | _ :: _ => names end else None) with (Some names).
  - cbn [bindP]. rewrite app_length. cbn [length]. replace ((0 <? Z.of_nat (length es + 1)) && (Z.of_nat (length es + 1) <=? Z.of_nat (length es + 1))) with true; [reflexivity|]. symmetry. apply andb_true_intro. split; [apply Z.ltb_lt; lia|apply Z.leb_le; lia].
  - destruct es as [|x es]; [now destruct names|]. cbn [length Nat.eqb]. now rewrite (proj2 (list_eqb_eq _ _) eq_refl), (proj2 (list_eqb_eq _ _) eq_refl).
Qed.
(* the program ends if, after good events, an event has fewer lines than particles, a line does not start with a positive number
   of particles, e.g. is empty, or the particles are others *)
Theorem C92_ends parseD text lines mx tree names blocks rest : hasLines text lines -> lines = concat blocks ++ rest -> Forall2 (goodEvent parseD names) blocks tree -> mx <= 0 ->
  (exists c b ps n, rest = c :: b :: ps /\ countLine c n /\ Z.of_nat (length ps) < n - 1) \/ (exists l ls, rest = l :: ls /\ ((forall n, ~ countLine l n) \/ exists n, countLine l n /\ n <= 0))
  \/ (exists names' blk e r, rest = blk ++ r /\ tree <> [] /\ goodEvent parseD names' blk e /\ names' <> names) ->
  fillTreeFromEvt parseD text mx = None.
Proof.
  intros HL -> F M C. unfold fillTreeFromEvt. rewrite (lines_of _ _ HL). destruct (fill_blocks parseD names mx blocks tree F (Datatypes.S (length (concat blocks ++ rest))) rest [] ([], [])) as (f & L & E); [intros N; contradiction|auto|lia|].
  rewrite E. destruct f as [|f]; [lia|]. cbn [fillLoop]. destruct C as [(c & b & ps & n & -> & (r & EC) & LT)|[(l & ls & -> & C)|(N' & blk & e & r & -> & NE & G & ND)]].
  - unfold readEvent. rewrite EC. cbv zeta. destruct (n <=? 0) eqn:E0; [reflexivity|]. apply Z.leb_gt in E0. destruct (readPart parseD b) as [[[id q] v]|]; [|reflexivity].
    destruct (name_total id q) as (nm & k & A & B & _). rewrite A. cbn [bindP]. rewrite B. cbn [bindP].
    destruct (rd_total parseD (Z.to_nat (n - 1)) 0 ps [] [] (if k then true else false)) as ([[[dn ms] s] r3] & ED). rewrite ED. cbn [bindP].
    apply rd_short in ED; [|reflexivity|cbn; lia|lia]. cbn [fst snd] in ED. destruct (length dn =? length ms)%nat eqn:EL; [apply Nat.eqb_eq in EL; lia|]. now rewrite andb_false_r.
  - unfold readEvent. destruct (readInt l) as [[n r]|] eqn:EC; [|reflexivity]. cbv zeta. destruct C as [C|(n' & (r' & EC') & C)]; [exfalso; apply (C n); now exists r|]. rewrite EC in EC'. injection EC' as -> ->. now rewrite (proj2 (Z.leb_le _ _) C).
  - rewrite (ev_complete _ _ _ _ _ G). cbn [bindP app]. destruct tree as [|x t]; [contradiction|]. cbn [length Nat.eqb]. destruct (list_eqb (fst N') (fst names) && list_eqb (snd N') (snd names)) eqn:EE; [|reflexivity].
    apply andb_prop in EE as [E1 E2]. apply list_eqb_eq in E1, E2. exfalso. apply ND. destruct N', names. cbn in *. congruence.
Qed.
(* a file that ends after the first line of an event is read without complaint *)
Theorem C92_cut_refuted parseD names blocks tree c n : Forall2 (goodEvent parseD names) blocks tree -> tree <> [] -> countLine c n -> 0 < n -> Forall (fun l => ~ In nl l) (concat blocks ++ [c]) ->
  exists text, hasLines text (concat blocks ++ [c]) /\ fillTreeFromEvt parseD text (-1) = Some (true, tree, names).
Proof.
  intros F NE HC P NN. exists (flat_map (fun l => l ++ [nl]) (concat blocks ++ [c])). assert (hasLines (flat_map (fun l => l ++ [nl]) (concat blocks ++ [c])) (concat blocks ++ [c])) as HL by (split; [exact NN|now left]).
  split; [exact HL|]. apply (C92_read parseD _ _ (-1) tree names HL); [lia|]. exists blocks, [c]. split; [reflexivity|]. split; [exact F|]. split; [right; eauto|]. intros ->. inversion F; subst. contradiction.
Qed.
