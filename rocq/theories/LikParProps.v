(* C36: fit parameters and production amplitudes correspond one-to-one.
   C41 (first half): the counter of fixed parameters after init. *)
From Coq Require Import String Ascii List ZArith Reals Bool Lia Lra.
From Coquelicot Require Import Complex.
From Verif Require Import ArrayModel SumAccProofs PathModel StrModel DecModel CGBoxModel FitResultModel FitNameProps LikParModel LikParProofs.
Import ListNotations.
Open Scope list_scope. Open Scope nat_scope.

(* C36: the loop nest visits every (rank, reflectivity, wave) once *)
Theorem C36_loop_visits_every_amplitude_once : forall sh, NoDup (loopWaves sh)
  /\ forall r e w, In (r, e, w) (loopWaves sh) <-> r < shRank sh /\ e < 2 /\ w < shWaves sh e.
Proof. intros sh. split; [apply loopWaves_NoDup|]. intros; apply loopWaves_In. Qed.

(* C36: one parameter per free real part (wave index >= rank index), one per free imaginary
   part (wave index > rank index) and one for the flat wave *)
Theorem C36_number_of_parameters : forall sh,
  nmbPars sh = Z.of_nat (length (filter (fun t => rk t <=? wv t) (loopWaves sh)) + length (filter (fun t => rk t <? wv t) (loopWaves sh)) + 1).
Proof. intros sh. rewrite nmbPars_comps, comps_length. reflexivity. Qed.

Lemma comps_next l : forall j t, nth_error (comps l) j = Some (t, true) -> rk t < wv t -> nth_error (comps l) (S j) = Some (t, false).
Proof.
  induction l as [|u l IH]; intros j t E H; [destruct j; discriminate|].
  change (comps (u :: l)) with (compOf u ++ comps l) in *. unfold compOf in *.
  destruct (Nat.ltb_spec (wv u) (rk u)); [now apply IH|]. destruct (Nat.eqb_spec (wv u) (rk u)).
  - destruct j as [|j]; cbn in E; [inversion E; subst; lia|]. cbn [app]. change (nth_error ((u, true) :: comps l) (S (S j))) with (nth_error (comps l) (S j)). now apply IH.
  - destruct j as [|[|j]]; cbn in E; [now inversion E; subst|discriminate|]. now apply IH.
Qed.
Lemma comps_index l t b : In (t, b) (comps l) -> exists j, nth_error (comps l) j = Some (t, b) /\ j < length (comps l).
Proof. intros H. apply In_nth_error in H as [j E]. exists j. split; [exact E|]. apply nth_error_Some. congruence. Qed.

(* C36: after init the parameters are laid out one-to-one: every parameter index below the
   last belongs to exactly one real or imaginary part, the rank conditions hold, the
   parameter carries name, rank and threshold of its wave, and the last one is the flat wave *)
Theorem C36_parameters_one_to_one : forall sh names thr mass, exists d,
  buildParDataStruct sh names thr mass = Some d /\ Z.of_nat (length (pdPars d)) = nmbPars sh
  /\ (forall t, In t (loopWaves sh) ->
        (wv t < rk t -> pdMap d t = (-1, -1)%Z)
        /\ (wv t = rk t -> (0 <= fst (pdMap d t) < nmbPars sh - 1)%Z /\ snd (pdMap d t) = (-1)%Z)
        /\ (rk t < wv t -> (0 <= fst (pdMap d t))%Z /\ snd (pdMap d t) = (fst (pdMap d t) + 1)%Z /\ (snd (pdMap d t) < nmbPars sh - 1)%Z))
  /\ (forall p, (0 <= p < nmbPars sh - 1)%Z ->
        exists! c : idx * bool, In (fst c) (loopWaves sh) /\ (if snd c then fst else snd) (pdMap d (fst c)) = p)
  /\ (forall t (b : bool) p, In t (loopWaves sh) -> (if b then fst else snd) (pdMap d t) = Z.of_nat p ->
        exists q, nth_error (pdPars d) p = Some q /\ fpWave q = names (rf t) (wv t) /\ fpRank q = rk t
          /\ fpThr q = thr (rf t) (wv t) /\ fpReal q = b
          /\ (fpFixed q = true <-> thr (rf t) (wv t) <> 0%R /\ (mass <= thr (rf t) (wv t))%R))
  /\ nth_error (pdPars d) (Z.to_nat (nmbPars sh - 1)) = Some (FP (lit "flat"%string) 0 0%R false true).
Proof.
  intros sh names thr mass. destruct (build_spec names thr mass sh) as (d & E & [G1 G2] & Hp & _). exists d. split; [exact E|].
  rewrite nmbPars_comps. set (L := loopWaves sh) in *. set (N := length (comps L)) in *.
  assert (Hin : forall t b, In t L -> (if b : bool then rk t <= wv t else rk t < wv t) -> exists j, nth_error (comps L) j = Some (t, b) /\ j < N /\ (if b then fst else snd) (pdMap d t) = Z.of_nat j).
  { intros t b Ht Hb. destruct (comps_index L t b) as (j & Ej & Hj); [now apply comps_In|]. exists j. split; [exact Ej|]. split; [exact Hj|]. now apply (G1 j t b). }
  assert (Hout : forall t b, In t L -> ~ (if b : bool then rk t <= wv t else rk t < wv t) -> (if b then fst else snd) (pdMap d t) = (-1)%Z).
  { intros t b Ht Hb. apply (G2 t b Ht). intros Hi. apply comps_In in Hi. tauto. }
  split; [rewrite Hp, app_length, map_length; reflexivity|]. split; [|split; [|split]].
  - intros t Ht. split; [|split].
    + intros H. pose proof (Hout t true Ht ltac:(cbn iota; lia)) as A1. pose proof (Hout t false Ht ltac:(cbn iota; lia)) as A2. cbn in A1, A2. destruct (pdMap d t); cbn in *; congruence.
    + intros H. destruct (Hin t true Ht ltac:(cbn iota; lia)) as (j & Ej & Hj & Em). pose proof (Hout t false Ht ltac:(cbn iota; lia)) as A2. cbn in Em, A2. lia.
    + intros H. destruct (Hin t true Ht ltac:(cbn iota; lia)) as (j & Ej & Hj & Em). pose proof (comps_next L j t Ej H) as Ej2. pose proof (G1 _ _ _ Ej2) as A2. cbn in Em, A2.
      assert (S j < N) by (apply nth_error_Some; congruence). lia.
  - intros p Hpp. assert (Hlt : Z.to_nat p < N) by lia. apply nth_error_Some in Hlt. destruct (nth_error (comps L) (Z.to_nat p)) as [[t b]|] eqn:Ep; [|exfalso; now apply Hlt]. clear Hlt.
    exists (t, b). split.
    + cbn [fst snd]. split; [apply nth_error_In in Ep; now apply comps_In in Ep|]. rewrite (G1 _ _ _ Ep). lia.
    + intros [t' b'] [Ht' Em']. cbn [fst snd] in *.
      destruct (in_dec comp_eq_dec (t', b') (comps L)) as [Hi|Hi].
      * apply comps_index in Hi as (j & Ej & _). rewrite (G1 _ _ _ Ej) in Em'. assert (j = Z.to_nat p) by lia. subst j. congruence.
      * rewrite (G2 t' b' Ht' Hi) in Em'. lia.
  - intros t b p Ht Em. destruct (in_dec comp_eq_dec (t, b) (comps L)) as [Hi|Hi].
    + apply comps_index in Hi as (j & Ej & Hj). rewrite (G1 _ _ _ Ej) in Em. assert (j = p) by lia. subst j.
      exists (parOf names thr mass (t, b)). split.
      * rewrite Hp, nth_error_app1 by (rewrite map_length; exact Hj). now rewrite nth_error_map, Ej.
      * unfold parOf; cbn [fpWave fpRank fpThr fpReal fpFixed fst snd]. split; [reflexivity|]. split; [reflexivity|]. split; [reflexivity|]. split; [reflexivity|].
        unfold isFixed. destruct (Req_EM_T (thr (rf t) (wv t)) 0), (Rle_dec mass (thr (rf t) (wv t))); intuition congruence.
    + rewrite (G2 t b Ht Hi) in Em. lia.
  - rewrite Hp, nth_error_app2 by (rewrite map_length; fold N; lia). rewrite map_length. fold N. replace (Z.to_nat (Z.of_nat (N + 1) - 1) - N) with 0 by lia. reflexivity.
Qed.

(* the parameter p of an array *)
Definition parAt (par : list R) (p : Z) (x : R) : Prop := (0 <= p)%Z /\ nth_error par (Z.to_nat p) = Some x.

(* C36: production amplitudes built from a parameter array: zero below the rank index, real
   at it, complex above, with the values the parameter map says *)
Theorem C36_amplitudes_from_parameters : forall sh names thr mass d par,
  buildParDataStruct sh names thr mass = Some d -> Z.of_nat (length par) = nmbPars sh ->
  exists amps flat, copyFromParArray sh par = Some (amps, flat)
    /\ parAt par (nmbPars sh - 1) flat
    /\ forall t, In t (loopWaves sh) ->
        (wv t < rk t -> amps t = RtoC 0)
        /\ (wv t = rk t -> Im (amps t) = 0%R /\ parAt par (fst (pdMap d t)) (Re (amps t)))
        /\ (rk t < wv t -> parAt par (fst (pdMap d t)) (Re (amps t)) /\ parAt par (snd (pdMap d t)) (Im (amps t))).
Proof.
  intros sh names thr mass d par Hd Hl. destruct (build_spec names thr mass sh) as (d' & E & [G1 G2] & _ & _). assert (d' = d) by congruence. subst d'.
  destruct (from_spec sh par ltac:(lia)) as (amps & flat & Ec & F0 & F1 & F2 & _). exists amps, flat. split; [exact Ec|].
  rewrite nmbPars_comps in *. set (L := loopWaves sh) in *. split; [split; [lia|]; replace (Z.to_nat (Z.of_nat (length (comps L) + 1) - 1)) with (length (comps L)) by lia; exact F0|].
  intros t Ht.
  assert (Hin : forall b, (if b : bool then rk t <= wv t else rk t < wv t) -> parAt par ((if b then fst else snd) (pdMap d t)) (part b (amps t))).
  { intros b Hb. destruct (comps_index L t b) as (j & Ej & Hj); [now apply comps_In|]. rewrite (G1 j t b Ej). split; [lia|]. rewrite Nat2Z.id. now apply F1. }
  assert (Hout : forall b, ~ (if b : bool then rk t <= wv t else rk t < wv t) -> part b (amps t) = 0%R).
  { intros b Hb. apply (F2 t b Ht). intros Hi. apply comps_In in Hi. tauto. }
  split; [|split]; intros H.
  - pose proof (Hout true ltac:(cbn iota; lia)). pose proof (Hout false ltac:(cbn iota; lia)). cbn in *. destruct (amps t); unfold Re, Im in *; cbn in *. now subst.
  - split; [apply (Hout false); cbn iota; lia|apply (Hin true); cbn iota; lia].
  - split; [apply (Hin true); cbn iota; lia|apply (Hin false); cbn iota; lia].
Qed.

(* C36: an array shorter than the number of parameters is read past its end *)
Theorem C36_short_array : forall sh par, (Z.of_nat (length par) < nmbPars sh)%Z -> copyFromParArray sh par = None.
Proof.
  intros sh par Hl. rewrite nmbPars_comps in Hl. unfold copyFromParArray.
  assert (G : forall l s s', foldO (fromStep par) l s = Some s' -> snd s' = snd s + length (comps l)).
  { clear. induction l as [|t l IH]; intros [out i] s' H; cbn [foldO] in H; [inversion H; subst; cbn; lia|].
    change (comps (t :: l)) with (compOf t ++ comps l). rewrite app_length. unfold fromStep in H at 1. unfold compOf.
    destruct (wv t <? rk t); [|destruct (wv t =? rk t)]; cbn [length snd].
    - cbn [bnd] in H. apply IH in H. cbn in *. lia.
    - destruct (rd par i); cbn [bnd] in H; [|discriminate]. apply IH in H. cbn in *. lia.
    - destruct (rd par i); cbn [bnd] in H; [|discriminate]. destruct (rd par (i + 1)); cbn [bnd] in H; [|discriminate]. apply IH in H. cbn in *. lia. }
  destruct (foldO _ _ _) as [s'|] eqn:E; [|reflexivity]. apply G in E. cbn [bnd snd plus] in *. rewrite E. unfold rd.
  destruct (nth_error par _) eqn:En; [|reflexivity]. assert (length (comps (loopWaves sh)) < length par) by (apply nth_error_Some; congruence). lia.
Qed.

(* C36: parameters -> amplitudes -> parameters is the identity, whatever the target array held *)
Theorem C36_round_trip_parameters : forall sh names thr mass d par out,
  buildParDataStruct sh names thr mass = Some d -> Z.of_nat (length par) = nmbPars sh -> length out = length par ->
  exists amps flat, copyFromParArray sh par = Some (amps, flat)
    /\ copyToParArray (fun t => Re (amps t)) (fun t => Im (amps t)) sh (pdMap d) flat out = Some par.
Proof.
  intros sh names thr mass d par out Hd Hl Ho. destruct (build_spec names thr mass sh) as (d' & E & G & _ & _). assert (d' = d) by congruence. subst d'.
  destruct (from_spec sh par ltac:(lia)) as (amps & flat & Ec & F0 & F1 & _). exists amps, flat. split; [exact Ec|].
  rewrite to_spec by (auto; lia). f_equal. rewrite nmbPars_comps in Hl. apply nth_error_ext. intros q.
  set (N := length (comps (loopWaves sh))) in *. destruct (Nat.lt_ge_cases q N) as [H|H].
  - rewrite nth_error_app1 by (rewrite map_length; exact H). rewrite nth_error_map. destruct (nth_error (comps (loopWaves sh)) q) as [[t b]|] eqn:Eq; [|apply nth_error_None in Eq; unfold N in H; lia].
    cbn [option_map fst snd]. rewrite (F1 q t b Eq). unfold partA, part. now destruct b.
  - rewrite nth_error_app2 by (rewrite map_length; exact H). rewrite map_length. fold N. destruct (Nat.eq_dec q N) as [->|Hn].
    + rewrite Nat.sub_diag. now rewrite F0.
    + transitivity (@None R); [|symmetry]; apply nth_error_None; cbn [length]; lia.
Qed.

(* C36: amplitudes that obey the rank conditions -> parameters -> amplitudes is the identity *)
Theorem C36_round_trip_amplitudes : forall sh names thr mass d amps flat out,
  buildParDataStruct sh names thr mass = Some d -> Z.of_nat (length out) = nmbPars sh ->
  (forall t, In t (loopWaves sh) -> (wv t < rk t -> amps t = RtoC 0) /\ (wv t = rk t -> Im (amps t) = 0%R)) ->
  exists par, copyToParArray (fun t => Re (amps t)) (fun t => Im (amps t)) sh (pdMap d) flat out = Some par
    /\ Z.of_nat (length par) = nmbPars sh
    /\ exists amps', copyFromParArray sh par = Some (amps', flat) /\ forall t, In t (loopWaves sh) -> amps' t = amps t.
Proof.
  intros sh names thr mass d amps flat out Hd Ho Hr. destruct (build_spec names thr mass sh) as (d' & E & G & _ & _). assert (d' = d) by congruence. subst d'.
  rewrite to_spec by (auto; lia). eexists. split; [reflexivity|]. set (N := length (comps (loopWaves sh))).
  assert (Hlen : length (map (fun c => partA (fun t => Re (amps t)) (fun t => Im (amps t)) (snd c) (fst c)) (comps (loopWaves sh)) ++ [flat]) = N + 1) by (rewrite app_length, map_length; reflexivity).
  rewrite nmbPars_comps. rewrite Hlen. split; [reflexivity|].
  match goal with |- context [copyFromParArray sh ?p] => set (par := p) in * end.
  destruct (from_spec sh par) as (amps' & flat' & Ec & F0 & F1 & F2 & _); [rewrite nmbPars_comps; lia|].
  assert (flat' = flat). { unfold par in F0. rewrite nth_error_app2 in F0 by (rewrite map_length; reflexivity). rewrite map_length, Nat.sub_diag in F0. cbn in F0. congruence. }
  subst flat'. exists amps'. split; [exact Ec|]. intros t Ht.
  assert (P : forall b, part b (amps' t) = part b (amps t)).
  { intros b. destruct (in_dec comp_eq_dec (t, b) (comps (loopWaves sh))) as [Hi|Hi].
    - apply comps_index in Hi as (j & Ej & Hj). pose proof (F1 _ _ _ Ej) as A1. unfold par in A1. rewrite nth_error_app1 in A1 by (rewrite map_length; exact Hj).
      rewrite nth_error_map, Ej in A1. cbn [option_map fst snd] in A1. unfold partA in A1. unfold part at 2. destruct b; congruence.
    - rewrite (F2 t b Ht Hi). destruct (Hr t Ht) as [R1 R2]. rewrite comps_In in Hi. destruct (Nat.lt_trichotomy (wv t) (rk t)) as [H|[H|H]].
      + rewrite (R1 H). now destruct b.
      + destruct b; [exfalso; apply Hi; split; [assumption|lia]|]. cbn. now rewrite (R2 H).
      + exfalso. apply Hi. split; [assumption|]. destruct b; lia. }
  pose proof (P true). pose proof (P false). destruct (amps' t), (amps t); unfold part, Re, Im in *; cbn in *; congruence.
Qed.

(* ---- names ---- *)
Lemma parName_amp p : fpWave p <> lit "flat"%string -> parName p = ampName (Z.of_nat (fpRank p)) (fpWave p) ++ (if fpReal p then lit "_RE"%string else lit "_IM"%string).
Proof.
  intros H. unfold parName, ampName. destruct (str_eqb (fpWave p) (lit "flat"%string)) eqn:E; [apply str_eqb_eq in E; contradiction|].
  now rewrite <- !app_assoc.
Qed.
Lemma app_inj3 {A} (a b : list A) x y : length x = length y -> a ++ x = b ++ y -> a = b /\ x = y.
Proof.
  intros Hl H. assert (Hab : length a = length b) by (apply (f_equal (@length A)) in H; rewrite !app_length in H; lia).
  revert b Hab H. induction a as [|h a IH]; intros [|h' b] Hab H; cbn in *; try lia; [now split|]. injection H as <- H. destruct (IH b ltac:(lia) H) as [-> ->]. now split.
Qed.
(* C36: if the waves have different names and none is called "flat", all parameters have
   different names *)
Theorem C36_parameter_names_unique : forall sh names thr mass d,
  (forall e w e' w', e < 2 -> e' < 2 -> w < shWaves sh e -> w' < shWaves sh e' -> names e w = names e' w' -> e = e' /\ w = w') ->
  (forall e w, e < 2 -> w < shWaves sh e -> names e w <> lit "flat"%string) ->
  buildParDataStruct sh names thr mass = Some d -> NoDup (map parName (pdPars d)).
Proof.
  intros sh names thr mass d Hinj Hflat Hd. destruct (build_spec names thr mass sh) as (d' & E & _ & Hp & _). assert (d' = d) by congruence. subst d'.
  rewrite Hp, map_app, map_map. cbn [map].
  assert (Hs : length (lit "_RE"%string) = length (lit "_IM"%string)) by reflexivity.
  assert (NA : forall p, fpWave p <> lit "flat"%string -> forall q, fpWave q <> lit "flat"%string -> parName p = parName q -> fpRank p = fpRank q /\ fpWave p = fpWave q /\ fpReal p = fpReal q).
  { intros p Hw q Hw' Eq. rewrite !parName_amp in Eq by assumption. apply app_inj3 in Eq as [E1 E2]; [|now destruct (fpReal p), (fpReal q)].
    destruct (C31_names_unique (Z.of_nat (fpRank p)) (fpWave p) (Z.of_nat (fpRank q)) (fpWave q) ltac:(lia) ltac:(lia) E1) as [U1 U2].
    split; [lia|]. split; [assumption|]. destruct (fpReal p), (fpReal q); auto; discriminate. }
  assert (G : NoDup (map (fun c => parName (parOf names thr mass c)) (comps (loopWaves sh)))).
  { pose proof (comps_NoDup _ (loopWaves_NoDup sh)) as ND. assert (HI : forall c, In c (comps (loopWaves sh)) -> In (fst c) (loopWaves sh)) by (intros [t b] Hc; now apply comps_In in Hc).
    clear Hp. induction (comps (loopWaves sh)) as [|c l IH]; [constructor|]. cbn [map]. inversion ND; subst. constructor; [|apply IH; auto; intros; apply HI; now right].
    intros Hc. apply in_map_iff in Hc as (c' & Ec & Hc'). pose proof (HI c (or_introl eq_refl)) as Hi1. pose proof (HI c' (or_intror Hc')) as Hi2.
    destruct c as [[[r e] w] b], c' as [[[r' e'] w'] b']. cbn [fst] in *. apply loopWaves_In in Hi1, Hi2.
    apply NA in Ec as (A1 & A2 & A3); [|unfold parOf, rf, wv; cbn [fpWave fst snd]; apply Hflat; tauto|unfold parOf, rf, wv; cbn [fpWave fst snd]; apply Hflat; tauto].
    unfold parOf, rf, wv, rk in *; cbn [fpWave fpRank fpReal fst snd] in *.
    destruct (Hinj e' w' e w) as [-> ->]; try tauto. subst. contradiction. }
  apply NoDup_Add with (a := parName (FP (lit "flat"%string) 0 0%R false true)) (l := map (fun c => parName (parOf names thr mass c)) (comps (loopWaves sh))).
  - rewrite <- (app_nil_r (map (fun c => parName (parOf names thr mass c)) (comps (loopWaves sh)))) at 1. apply Add_app.
  - split; [exact G|]. intros Hi. apply in_map_iff in Hi as ([[[r e] w] b] & Ec & Hc). apply comps_In in Hc as [Hc _]. apply loopWaves_In in Hc.
    rewrite parName_amp in Ec by (unfold parOf, rf, wv; cbn [fpWave fst snd]; apply Hflat; tauto).
    change (parName (FP (lit "flat"%string) 0 0%R false true)) with (flatName ++ lit "_RE"%string) in Ec.
    apply app_inj3 in Ec as [Ec _]; [|unfold parOf; cbn [fpReal snd]; now destruct b]. now apply ampName_not_flat in Ec; [|lia].
Qed.
(* a wave that is called "flat" clashes: its parameters of different ranks have one name *)
Example C36_wave_called_flat : parName (FP (lit "flat"%string) 0 0%R false true) = parName (FP (lit "flat"%string) 1 0%R false true).
Proof. reflexivity. Qed.

(* ---- C36: the arrays handed to fitResult ---- *)
Lemma ampFold names par (amps : idx -> C) (m : parMap) l : forall out i,
  (forall j t (b : bool), nth_error (comps l) j = Some (t, b) -> nth_error par (i + j) = Some (part b (amps t)) /\ (if b then fst else snd) (m t) = Z.of_nat (i + j)) ->
  (forall t (b : bool), In t l -> ~ (if b then rk t <= wv t else rk t < wv t) -> part b (amps t) = 0%R /\ (if b then fst else snd) (m t) = (-1)%Z) ->
  foldO (ampStep names par) l (out, i) =
  Some (out ++ map (fun t => (amps t, m t, ampName (Z.of_nat (rk t)) (names (rf t) (wv t)))) (filter (fun t => rk t <=? wv t) l), i + length (comps l)).
Proof.
  induction l as [|t l IH]; intros out i H1 H2; cbn [foldO filter map comps flat_map length]; [now rewrite app_nil_r, Nat.add_0_r|].
  change (flat_map compOf l) with (comps l). change (comps (t :: l)) with (compOf t ++ comps l) in H1. rewrite app_length.
  pose proof (H2 t true (or_introl eq_refl)) as A1. pose proof (H2 t false (or_introl eq_refl)) as A2. cbn iota in A1, A2.
  unfold ampStep at 1. unfold compOf in *. destruct (Nat.ltb_spec (wv t) (rk t)); [|destruct (Nat.eqb_spec (wv t) (rk t))].
  - cbn [bnd length app plus] in *. rewrite IH; [|exact H1|intros; apply H2; auto; now right]. destruct (Nat.leb_spec (rk t) (wv t)); [lia|reflexivity].
  - destruct (H1 0 t true eq_refl) as [P1 P2]. rewrite Nat.add_0_r in *. unfold rd. rewrite P1. cbn [bnd]. fold (@rd R). destruct (Nat.leb_spec (rk t) (wv t)); [|lia].
    rewrite IH; [|intros j u b Ej; replace (i + 1 + j) with (i + S j) by lia; now apply H1|intros; apply H2; auto; now right].
    cbn [map]. rewrite <- app_assoc. cbn [app length]. destruct A2 as [A2 A3]; [lia|]. f_equal. f_equal; [|lia]. f_equal. f_equal. f_equal. f_equal.
    + destruct (amps t); unfold part, Re, Im in *; cbn in *; congruence.
    + destruct (m t); cbn in *; congruence.
  - destruct (H1 0 t true eq_refl) as [P1 P2]. destruct (H1 1 t false eq_refl) as [P3 P4]. rewrite Nat.add_0_r in *. unfold rd. rewrite P1. cbn [bnd]. rewrite P3. cbn [bnd]. fold (@rd R). destruct (Nat.leb_spec (rk t) (wv t)); [|lia].
    rewrite IH; [|intros j u b Ej; replace (i + 2 + j) with (i + S (S j)) by lia; now apply H1|intros; apply H2; auto; now right].
    cbn [map]. rewrite <- app_assoc. cbn [app length]. f_equal. f_equal; [|lia]. f_equal. f_equal. f_equal. f_equal.
    + destruct (amps t); unfold part, Re, Im in *; cbn in *; congruence.
    + destruct (m t); cbn in *; congruence.
Qed.
(* C36: buildProdAmpArrays lists exactly the non-zero amplitudes in loop order, with the
   value copyFromParArray gives, the indices of the parameter map and the documented name;
   the flat wave comes last *)
Theorem C36_production_amplitude_arrays : forall sh names thr mass d par (withFlat : bool),
  buildParDataStruct sh names thr mass = Some d -> Z.of_nat (length par) = nmbPars sh ->
  exists amps flat, copyFromParArray sh par = Some (amps, flat) /\
    buildProdAmpArrays sh names par withFlat =
    Some (map (fun t => (amps t, pdMap d t, ampName (Z.of_nat (rk t)) (names (rf t) (wv t)))) (filter (fun t => rk t <=? wv t) (loopWaves sh))
          ++ if withFlat then [(RtoC flat, (nmbPars sh - 1, -1)%Z, flatName)] else []).
Proof.
  intros sh names thr mass d par withFlat Hd Hl. destruct (build_spec names thr mass sh) as (d' & E & [G1 G2] & _ & _). assert (d' = d) by congruence. subst d'.
  destruct (from_spec sh par ltac:(lia)) as (amps & flat & Ec & F0 & F1 & F2 & _). exists amps, flat. split; [exact Ec|].
  unfold buildProdAmpArrays. rewrite (ampFold names par amps (pdMap d)).
  - cbn [bnd plus app]. destruct withFlat; [|now rewrite app_nil_r]. unfold rd. rewrite F0. cbn [bnd]. repeat f_equal. rewrite nmbPars_comps. lia.
  - intros j t b Ej. cbn [plus]. split; [now apply F1|now apply G1].
  - intros t b Ht Hb. assert (Hi : ~ In (t, b) (comps (loopWaves sh))) by (rewrite comps_In; tauto). split; [now apply F2|now apply G2].
Qed.

(* C41: right after init the counter of fixed parameters is right *)
Theorem C41_counter_after_init : forall sh names thr mass d, buildParDataStruct sh names thr mass = Some d ->
  pdFixed d = length (filter fpFixed (pdPars d)).
Proof.
  intros sh names thr mass d Hd. destruct (build_spec names thr mass sh) as (d' & E & _ & Hp & Hf). assert (d' = d) by congruence. subst d'.
  rewrite Hf, Hp, filter_app. cbn [filter fpFixed]. rewrite app_nil_r. unfold nFix.
  clear Hp Hf. induction (comps (loopWaves sh)) as [|c l IH]; [reflexivity|]. cbn [filter map]. change (fpFixed (parOf names thr mass c)) with (isFixed thr mass (fst c)). destruct (isFixed thr mass (fst c)); cbn [length]; lia.
Qed.

(* example: rank 2, two waves with negative and one with positive reflectivity *)
Definition sh21 := Shape 2 (fun e => if e =? 0 then 2 else 1).
Definition nm21 (e w : nat) : str := if e =? 0 then (if w =? 0 then lit "a"%string else lit "b"%string) else lit "c"%string.
Example C36_ex : nmbPars sh21 = 6%Z /\ loopWaves sh21 = [(0,0,0); (0,0,1); (0,1,0); (1,0,0); (1,0,1); (1,1,0)].
Proof. split; reflexivity. Qed.
Example C36_ex_map : exists d, buildParDataStruct sh21 nm21 (fun _ _ => 0%R) 1%R = Some d /\
  map (pdMap d) (loopWaves sh21) = [(0, -1); (1, 2); (3, -1); (-1, -1); (4, -1); (-1, -1)]%Z.
Proof. eexists. split; reflexivity. Qed.
