(* C28 (spin-density matrix), C29 (intensities), C32 (selection of production amplitudes) *)
From Coq Require Import String Ascii List ZArith Bool Reals Lia Lra Permutation Sorted.
From Coquelicot Require Import Complex.
From Verif Require Import PathModel StrModel DecModel ParticleModel ParticleProps RegexModel RegexProps FitResultModel FitNameProps
  AmpIntProofs AmpIntProps AmpIntProps2.
Import ListNotations.
Open Scope list_scope.
Open Scope nat_scope.

Definition plain (w : str) : Prop := forallb (fun c => negb (forgotten c)) w = true.
Definition substring (w n : str) : Prop := exists a b, n = a ++ w ++ b.

Lemma filterP_total {A} (f : A -> option bool) (g : A -> bool) l : (forall x, In x l -> f x = Some (g x)) -> filterP f l = Some (filter g l).
Proof.
  induction l as [|x l IH]; intros H; cbn [filterP filter]; [reflexivity|].
  rewrite (H x) by now left. rewrite IH by (intros y Hy; apply H; now right). now destruct (g x).
Qed.

Definition nameHas (fr : fitResult) (w : str) (k : nat) : bool :=
  match nth_error (frAmpNames fr) k with Some n => contains w n | None => false end.
Lemma indices_filter fr i w : waveNameAt fr i = Some w -> plain w -> length (frAmps fr) <= length (frAmpNames fr) ->
  prodAmpIndicesForWave fr i = Some (filter (nameHas fr w) (seq 0 (length (frAmps fr)))).
Proof.
  intros Hw Hp Hl. unfold prodAmpIndicesForWave. rewrite Hw. unfold prodAmpIndicesMatchingPattern.
  apply filterP_total. intros k Hk. apply in_seq in Hk. unfold prodAmpNameAt, nameHas.
  destruct (nth_error (frAmpNames fr) k) as [n|] eqn:E; [|apply nth_error_None in E; lia].
  now apply C33_escaped_pattern_matches_literally.
Qed.
Lemma filter_sorted f n : forall a, StronglySorted lt (filter f (seq a n)).
Proof.
  induction n as [|n IH]; intros a; cbn [seq filter]; [constructor|].
  destruct (f a); [|apply IH]. constructor; [apply IH|]. apply Forall_forall. intros x Hx. apply filter_In in Hx. destruct Hx as [Hx _].
  apply in_seq in Hx. lia.
Qed.

(* C32: the production amplitudes of a wave are looked up by substring: exactly those
   whose name contains the wave name are returned, in increasing order *)
Theorem C32_selection_is_by_substring : forall fr i w, waveNameAt fr i = Some w -> plain w -> length (frAmps fr) <= length (frAmpNames fr) ->
  exists l, prodAmpIndicesForWave fr i = Some l /\ StronglySorted lt l /\
    forall k, In k l <-> k < length (frAmps fr) /\ exists n, nth_error (frAmpNames fr) k = Some n /\ substring w n.
Proof.
  intros fr i w Hw Hp Hl. eexists. split; [now apply indices_filter with (w := w)|]. split; [apply filter_sorted|].
  intros k. rewrite filter_In, in_seq. unfold nameHas. split.
  - intros [H1 H2]. split; [lia|]. destruct (nth_error (frAmpNames fr) k) as [n|]; [|discriminate]. exists n. split; [reflexivity|]. now apply contains_spec.
  - intros (H1 & n & E & H2). rewrite E. split; [lia|]. now apply contains_spec.
Qed.
(* in particular all production amplitudes of the wave are found *)
Theorem C32_own_amplitudes_found : forall fr i w r k l, waveNameAt fr i = Some w -> plain w -> length (frAmps fr) <= length (frAmpNames fr) ->
  prodAmpIndicesForWave fr i = Some l -> k < length (frAmps fr) -> nth_error (frAmpNames fr) k = Some (ampName r w) -> In k l.
Proof.
  intros fr i w r k l Hw Hp Hl Hi Hk Hn. destruct (C32_selection_is_by_substring fr i w Hw Hp Hl) as (l' & E & _ & H).
  rewrite Hi in E. injection E as ->. apply H. split; [exact Hk|]. exists (ampName r w). split; [exact Hn|].
  exists (lit "V" ++ showNN r ++ lit "_"), []. unfold ampName. now rewrite <- !app_assoc, app_nil_r.
Qed.

(* ---------------- regular fit results ---------------- *)
(* rank -1 is the flat wave *)
Definition keyName (k : Z * str) : str := if (fst k =? -1)%Z then flatName else ampName (fst k) (snd k).

(* the production amplitudes are those of the keys (rank, wave), each once, with ranks
   below the rank of the fit; no wave name is a substring of the production-amplitude name
   of another wave; the wave names are free of characters that the escaping forgets and
   have a reflectivity *)
Record regular (fr : fitResult) (ks : list (Z * str)) : Prop := {
  rg_names : frAmpNames fr = map keyName ks;
  rg_len : length (frAmps fr) = length ks;
  rg_nodup : NoDup ks;
  rg_rank : forall r w, In (r, w) ks -> (-1 <= r < frRank fr)%Z /\ (r = -1 -> w = lit "flat")%Z;
  rg_plain : forall w, In w (frWaveNames fr) -> plain w;
  rg_refl : forall w, In w (frWaveNames fr) -> getReflectivity w <> None;
  rg_subst : forall w k, In w (frWaveNames fr) -> In k ks -> substring w (keyName k) -> snd k = w;
  rg_norm : (0 <= frNormNmbEvents fr)%Z }.

Definition key_dec (a b : Z * str) : {a = b} + {a <> b}.
Proof. decide equality; [apply (list_eq_dec ascii_dec)|apply Z.eq_dec]. Defined.

(* the production amplitude of wave w with rank r; 0 if there is none *)
Fixpoint ampOf (ks : list (Z * str)) (amps : list C) (k : Z * str) : C :=
  match ks, amps with
  | k' :: ks', a :: amps' => if key_dec k' k then a else ampOf ks' amps' k
  | _, _ => RtoC 0
  end.
Definition V (fr : fitResult) (ks : list (Z * str)) (w : str) (r : Z) : C := ampOf ks (frAmps fr) (r, w).
(* the ranks -1 (flat), 0, ..., R - 1 *)
Definition ranks (fr : fitResult) : list Z := map (fun k => Z.of_nat k - 1)%Z (seq 0 (S (Z.to_nat (frRank fr)))).
Definition option_eq_dec_Z (a b : option Z) : {a = b} + {a <> b}.
Proof. decide equality. apply Z.eq_dec. Defined.
(* the spin-density matrix element of waves a and b: N sum_r V_ar conj(V_br) for equal
   reflectivities, else 0 *)
Definition rhoSpec (fr : fitResult) (ks : list (Z * str)) (a b : str) : C :=
  if option_eq_dec_Z (getReflectivity a) (getReflectivity b)
  then (RtoC (IZR (frNormNmbEvents fr)) * csumA (fun r => V fr ks a r * Cconj (V fr ks b r)) (ranks fr))%C
  else RtoC 0.

(* ---- sums ---- *)
Lemma csumA_perm {A} (f : A -> C) l k : Permutation l k -> csumA f l = csumA f k.
Proof.
  induction 1 as [|x l k _ IH|x y l|l k m _ IH1 _ IH2]; unfold csumA in *; cbn [fold_right].
  - reflexivity.
  - now rewrite IH.
  - ring.
  - now rewrite IH1.
Qed.
Lemma csumA_zero {A} (f : A -> C) l : (forall x, In x l -> f x = RtoC 0) -> csumA f l = RtoC 0.
Proof.
  induction l as [|x l IH]; intros H; [reflexivity|]. unfold csumA in *. cbn [fold_right]. rewrite (H x) by now left.
  rewrite IH by (intros y Hy; apply H; now right). ring.
Qed.
Lemma csumA_part {A} (dec : forall x y : A, {x = y} + {x <> y}) (f : A -> C) l big : NoDup l -> NoDup big -> incl l big ->
  (forall x, In x big -> ~ In x l -> f x = RtoC 0) -> csumA f l = csumA f big.
Proof.
  intros Hl Hb Hi Hz.
  set (rest := filter (fun x => if in_dec dec x l then false else true) big).
  assert (P : Permutation (l ++ rest) big).
  { apply NoDup_Permutation; [|exact Hb|].
    - induction l as [|x l IH] using rev_ind.
      + cbn. now apply NoDup_filter.
      + clear IH. assert (D : forall a b : list A, NoDup a -> NoDup b -> (forall y, In y a -> ~ In y b) -> NoDup (a ++ b)).
        { induction a as [|u a IHa]; intros b Ha Hb' Hd; cbn; [exact Hb'|]. inversion Ha; subst. constructor.
          - rewrite in_app_iff. intros [K|K]; [contradiction|]. apply (Hd u); [now left|exact K].
          - apply IHa; auto. intros y Hy. apply Hd. now right. }
        apply D; [exact Hl|now apply NoDup_filter|]. intros y Hy K. unfold rest in K. apply filter_In in K. destruct K as [_ K].
        destruct (in_dec dec y (l ++ [x])); [discriminate|contradiction].
    - intros x. rewrite in_app_iff. unfold rest. rewrite filter_In. split.
      + intros [H|[H _]]; auto.
      + intros H. destruct (in_dec dec x l); [now left|right; split; auto]. }
  rewrite <- (csumA_perm f _ _ P), csumA_app. rewrite (csumA_zero f rest).
  - ring.
  - intros x Hx. unfold rest in Hx. apply filter_In in Hx. destruct Hx as [Hx K]. apply Hz; auto. destruct (in_dec dec x l); [discriminate|auto].
Qed.
Lemma fold_left_csum (l : list C) : forall a, fold_left Cplus l a = (a + csumA (fun x => x) l)%C.
Proof. induction l as [|x l IH]; intros a; unfold csumA in *; cbn [fold_left fold_right]; [ring|rewrite IH; ring]. Qed.

Lemma ranks_nodup fr : NoDup (ranks fr).
Proof. unfold ranks. apply FinFun.Injective_map_NoDup; [intros x y H; lia|apply seq_NoDup]. Qed.
Lemma ranks_in fr r : (-1 <= r < frRank fr)%Z -> In r (ranks fr).
Proof. intros H. unfold ranks. apply in_map_iff. exists (Z.to_nat (r + 1)). split; [lia|]. apply in_seq. lia. Qed.

Lemma ampOf_in ks amps i k a : NoDup ks -> nth_error ks i = Some k -> nth_error amps i = Some a -> ampOf ks amps k = a.
Proof.
  revert amps i. induction ks as [|k0 ks IH]; intros amps i Hn Hk Ha; [destruct i; discriminate|].
  inversion Hn as [|? ? H1 H2]; subst. destruct i as [|i]; cbn in *.
  - injection Hk as ->. destruct amps; [discriminate|]. injection Ha as ->. destruct (key_dec k k); [reflexivity|congruence].
  - destruct amps as [|a0 amps]; [discriminate|]. destruct (key_dec k0 k) as [->|_]; [|now apply IH with (i := i)].
    exfalso. apply H1. now apply nth_error_In with (n := i).
Qed.
Lemma ampOf_out ks amps k : ~ In k ks -> ampOf ks amps k = RtoC 0.
Proof.
  revert amps. induction ks as [|k0 ks IH]; intros [|a amps] H; cbn; auto.
  destruct (key_dec k0 k) as [->|_]; [exfalso; apply H; now left|]. apply IH. intros K. apply H. now right.
Qed.

Lemma keyName_wave r w : (-1 <= r)%Z -> (r = -1 -> w = lit "flat")%Z -> waveNameForProdAmp (keyName (r, w)) = w /\ rankOfProdAmp (keyName (r, w)) = Some r.
Proof.
  intros H Hf. unfold keyName. cbn [fst snd]. destruct (Z.eqb_spec r (-1)) as [->|].
  - rewrite Hf by reflexivity. now vm_compute.
  - apply C31_round_trip. lia.
Qed.
Lemma keyName_inj fr ks k k' : regular fr ks -> In k ks -> In k' ks -> keyName k = keyName k' -> k = k'.
Proof.
  intros R H H' E. destruct k as [r w], k' as [r' w'].
  destruct (rg_rank _ _ R r w H) as [A B]. destruct (rg_rank _ _ R r' w' H') as [A' B'].
  destruct (keyName_wave r w) as [E1 E2]; [lia|auto|]. destruct (keyName_wave r' w') as [E3 E4]; [lia|auto|].
  rewrite E in E1, E2. congruence.
Qed.
Lemma substring_own r w : (-1 <= r)%Z -> (r = -1 -> w = lit "flat")%Z -> substring w (keyName (r, w)).
Proof.
  intros H Hf. unfold keyName. cbn [fst snd]. destruct (Z.eqb_spec r (-1)) as [->|].
  - rewrite Hf by reflexivity. exists (lit "V_"), []. reflexivity.
  - exists (lit "V" ++ showNN r ++ lit "_"), []. unfold ampName. now rewrite <- !app_assoc, app_nil_r.
Qed.

Section Regular.
  Variable fr : fitResult.
  Variable ks : list (Z * str).
  Hypothesis Hreg : regular fr ks.

  Definition isWave (w : str) (i : nat) : bool := match nth_error ks i with Some k => str_eqb (snd k) w | None => false end.

  Lemma name_at i : i < length ks -> exists r w, nth_error ks i = Some (r, w) /\ nth_error (frAmpNames fr) i = Some (keyName (r, w)) /\
    (-1 <= r < frRank fr)%Z /\ (r = -1 -> w = lit "flat")%Z.
  Proof.
    intros H. destruct (nth_error ks i) as [[r w]|] eqn:E; [|apply nth_error_None in E; lia]. exists r, w. split; [reflexivity|].
    split; [rewrite (rg_names _ _ Hreg); now rewrite nth_error_map, E|]. apply (rg_rank _ _ Hreg). now apply nth_error_In with (n := i).
  Qed.
  Lemma rank_at i r w : nth_error ks i = Some (r, w) -> rankAt fr i = Some r.
  Proof.
    intros H. assert (L : i < length ks) by (apply nth_error_Some; congruence).
    destruct (name_at i L) as (r' & w' & E1 & E2 & E3 & E4). rewrite H in E1. injection E1 as <- <-.
    unfold rankAt, prodAmpNameAt. rewrite E2. apply keyName_wave; [lia|auto].
  Qed.
  Lemma indices_wave i w : waveNameAt fr i = Some w -> prodAmpIndicesForWave fr i = Some (filter (isWave w) (seq 0 (length ks))).
  Proof.
    intros Hw. assert (Hin : In w (frWaveNames fr)) by now apply nth_error_In with (n := i).
    rewrite (indices_filter fr i w Hw).
    - f_equal. rewrite (rg_len _ _ Hreg). apply filter_ext_in. intros k Hk. apply in_seq in Hk.
      destruct (name_at k) as (r & w' & E1 & E2 & E3 & E4); [lia|]. unfold nameHas, isWave. rewrite E1, E2. cbn [snd].
      destruct (contains w (keyName (r, w'))) eqn:C1.
      + apply contains_spec in C1. symmetry. apply str_eqb_eq. apply (rg_subst _ _ Hreg w (r, w')); auto. now apply nth_error_In with (n := k).
      + symmetry. apply str_eqb_neq. intros ->. assert (contains w (keyName (r, w)) = true); [|congruence].
        apply contains_spec. apply substring_own; [lia|auto].
    - now apply (rg_plain _ _ Hreg).
    - rewrite (rg_len _ _ Hreg), (rg_names _ _ Hreg), map_length. lia.
  Qed.

  Lemma first_rank w r l : (forall x, In x l -> exists r', nth_error ks x = Some (r', w)) ->
    (exists y, firstWithRank fr r l = Some (Some y) /\ In y l /\ nth_error ks y = Some (r, w)) \/
    (firstWithRank fr r l = Some None /\ forall y, In y l -> nth_error ks y <> Some (r, w)).
  Proof.
    induction l as [|x l IH]; intros H; cbn [firstWithRank]; [right; split; [reflexivity|intros y []]|].
    destruct (H x) as [r' Hr']; [now left|]. rewrite (rank_at x r' w Hr'). cbn [bindP]. destruct (Z.eqb_spec r r') as [<-|Hne].
    - left. exists x. split; [reflexivity|]. split; [now left|exact Hr'].
    - destruct IH as [(y & E & Hy & Hk)|[E Hy]]; [intros y Hy; apply H; now right| |].
      + left. exists y. split; [exact E|]. split; [now right|exact Hk].
      + right. split; [exact E|]. intros y [<-|K]; [congruence|now apply Hy].
  Qed.
  Lemma isWave_in w x : In x (filter (isWave w) (seq 0 (length ks))) <-> exists r, nth_error ks x = Some (r, w).
  Proof.
    rewrite filter_In, in_seq. unfold isWave. split.
    - intros [_ H]. destruct (nth_error ks x) as [[r w']|]; [|discriminate]. cbn in H. apply str_eqb_eq in H. subst. now exists r.
    - intros [r E]. rewrite E. cbn. rewrite str_eqb_refl. split; [|reflexivity].
      assert (x < length ks) by (apply nth_error_Some; congruence). lia.
  Qed.
  Lemma amp_at x r w : nth_error ks x = Some (r, w) -> prodAmpAt fr x = Some (V fr ks w r).
  Proof.
    intros H. assert (L : x < length (frAmps fr)) by (rewrite (rg_len _ _ Hreg); apply nth_error_Some; congruence).
    unfold prodAmpAt. destruct (nth_error (frAmps fr) x) as [a|] eqn:E; [|apply nth_error_None in E; lia].
    f_equal. symmetry. unfold V. apply ampOf_in with (i := x); [apply (rg_nodup _ _ Hreg)|auto|auto].
  Qed.

  Definition rankOf (x : nat) : Z := match nth_error ks x with Some k => fst k | None => 0%Z end.

  (* C28: the element is N sum_r V_Ar conj(V_Br) for equal reflectivities, else 0 *)
  Theorem C28_closed_form : forall a b wa wb, waveNameAt fr a = Some wa -> waveNameAt fr b = Some wb ->
    spinDensityMatrixElem fr a b = Some (rhoSpec fr ks wa wb).
  Proof.
    intros a b wa wb Ha Hb.
    assert (Ia : In wa (frWaveNames fr)) by now apply nth_error_In with (n := a).
    assert (Ib : In wb (frWaveNames fr)) by now apply nth_error_In with (n := b).
    pose proof (rg_refl _ _ Hreg wa Ia) as Ra. pose proof (rg_refl _ _ Hreg wb Ib) as Rb.
    unfold rhoSpec, spinDensityMatrixElem. rewrite Ha, Hb. cbn [bindP].
    destruct (getReflectivity wa) as [ra|] eqn:Era; [|congruence]. destruct (getReflectivity wb) as [rb|] eqn:Erb; [|congruence].
    cbn [bindP]. destruct (Z.eqb_spec ra rb) as [<-|Hne]; cbn [negb].
    2: { destruct (option_eq_dec_Z (Some ra) (Some rb)) as [E|_]; [congruence|reflexivity]. }
    destruct (option_eq_dec_Z (Some ra) (Some ra)) as [_|E]; [|congruence].
    unfold prodAmpIndexPairsForWaves. rewrite Ha, Hb. cbn [bindP]. rewrite Era, Erb. cbn [bindP]. rewrite Z.eqb_refl. cbn [negb].
    rewrite (indices_wave a wa Ha), (indices_wave b wb Hb). cbn [bindP].
    set (ia := filter (isWave wa) (seq 0 (length ks))). set (ib := filter (isWave wb) (seq 0 (length ks))).
    assert (Hib : forall x, In x ib -> exists r', nth_error ks x = Some (r', wb)) by (intros x Hx; now apply isWave_in).
    set (partner := fun x => match firstWithRank fr (rankOf x) ib with Some y => y | None => None end).
    rewrite (mapP_map _ (fun x => (x, partner x))).
    2: { intros x Hx. apply isWave_in in Hx. destruct Hx as [r Hr]. rewrite (rank_at x r wa Hr). cbn [bindP]. unfold partner, rankOf. rewrite Hr. cbn [fst].
         destruct (first_rank wb r ib Hib) as [(y & E & _ & _)|[E _]]; rewrite E; reflexivity. }
    cbn [bindP]. set (ps := flat_map (fun p : nat * option nat => match snd p with Some y => [(fst p, y)] | None => [] end) (map (fun x => (x, partner x)) ia)).
    assert (Hps : forall p, In p ps -> exists r, nth_error ks (fst p) = Some (r, wa) /\ nth_error ks (snd p) = Some (r, wb)).
    { intros p Hp. unfold ps in Hp. apply in_flat_map in Hp. destruct Hp as (q & Hq & Hp). apply in_map_iff in Hq. destruct Hq as (x & <- & Hx).
      cbn [fst snd] in Hp. apply isWave_in in Hx. destruct Hx as [r Hr]. unfold partner, rankOf in Hp. rewrite Hr in Hp. cbn [fst] in Hp.
      destruct (first_rank wb r ib Hib) as [(y & E & _ & Hy)|[E _]]; rewrite E in Hp; [|destruct Hp].
      destruct Hp as [<-|[]]. exists r. auto. }
    assert (Sum : csumA (fun p => V fr ks wa (rankOf (fst p)) * Cconj (V fr ks wb (rankOf (snd p))))%C ps =
                  csumA (fun r => V fr ks wa r * Cconj (V fr ks wb r))%C (ranks fr)).
    { transitivity (csumA (fun x => V fr ks wa (rankOf x) * Cconj (V fr ks wb (rankOf x)))%C ia).
      - unfold ps. clear Hps. rewrite flat_map_concat_map, map_map, <- flat_map_concat_map.
        rewrite <- csumA_flat. apply csumA_ext. intros x Hx. apply isWave_in in Hx. destruct Hx as [r Hr]. cbn [fst snd].
        assert (Rx : rankOf x = r) by (unfold rankOf; now rewrite Hr). unfold partner. rewrite Rx.
        destruct (first_rank wb r ib Hib) as [(y & E & _ & Hy)|[E Hy]]; rewrite E; unfold csumA; cbn [fold_right fst snd].
        + rewrite Rx. unfold rankOf. rewrite Hy. cbn [fst]. ring.
        + assert (Z0 : V fr ks wb r = RtoC 0).
          { unfold V. apply ampOf_out. intros K. apply In_nth_error in K. destruct K as [y Hk]. apply (Hy y); [|exact Hk].
            unfold ib. apply isWave_in. now exists r. }
          rewrite Z0, Cconj_0. ring.
      - rewrite <- (csumA_map (fun r => V fr ks wa r * Cconj (V fr ks wb r))%C rankOf ia).
        apply (csumA_part Z.eq_dec).
        + assert (NDia : NoDup ia) by (apply NoDup_filter, seq_NoDup).
          assert (Inj : forall x y, In x ia -> In y ia -> rankOf x = rankOf y -> x = y).
          { intros x y Hx Hy E. apply isWave_in in Hx, Hy. destruct Hx as [r Hr], Hy as [r' Hr']. unfold rankOf in E. rewrite Hr, Hr' in E. cbn in E. subst r'.
            apply (proj1 (NoDup_nth_error ks)); [apply (rg_nodup _ _ Hreg)|apply nth_error_Some; congruence|congruence]. }
          clear -NDia Inj. induction ia as [|x l IH]; cbn; constructor.
          * intros K. apply in_map_iff in K. destruct K as (y & E & Hy). inversion NDia; subst. apply Inj in E; [|now right|now left]. congruence.
          * inversion NDia; subst. apply IH; auto. intros u v Hu Hv. apply Inj; now right.
        + apply ranks_nodup.
        + intros r Hr. apply in_map_iff in Hr. destruct Hr as (x & <- & Hx). apply isWave_in in Hx. destruct Hx as [r Hr].
          unfold rankOf. rewrite Hr. cbn. apply ranks_in. apply (rg_rank _ _ Hreg r wa). now apply nth_error_In with (n := x).
        + intros r _ Hr. assert (Z0 : V fr ks wa r = RtoC 0).
          { unfold V. apply ampOf_out. intros K. apply In_nth_error in K. destruct K as [y Hk]. apply Hr. apply in_map_iff. exists y.
            unfold rankOf. rewrite Hk. split; [reflexivity|]. apply isWave_in. now exists r. }
          rewrite Z0. ring. }
    rewrite <- Sum. clear Sum.
    destruct ps as [|p0 ps0] eqn:Eps; [unfold csumA; cbn [fold_right]; f_equal; ring|]. rewrite <- Eps in *.
    rewrite (mapP_map _ (fun p => V fr ks wa (rankOf (fst p)) * Cconj (V fr ks wb (rankOf (snd p))))%C).
    2: { intros p Hp. destruct (Hps p Hp) as (r & E1 & E2). rewrite (amp_at _ _ _ E1), (amp_at _ _ _ E2). cbn [bindP]. unfold rankOf. now rewrite E1, E2. }
    cbn [bindP]. rewrite fold_left_csum, csumA_map. f_equal. ring.
  Qed.

  Lemma wave_lt a : a < length (frWaveNames fr) -> exists w, waveNameAt fr a = Some w.
  Proof. intros H. unfold waveNameAt. destruct (nth_error (frWaveNames fr) a) eqn:E; [eauto|]. apply nth_error_None in E. lia. Qed.

  Theorem C28_always_defined : forall a b, a < length (frWaveNames fr) -> b < length (frWaveNames fr) -> spinDensityMatrixElem fr a b <> None.
  Proof. intros a b Ha Hb. destruct (wave_lt a Ha) as [wa Ea]. destruct (wave_lt b Hb) as [wb Eb]. rewrite (C28_closed_form a b wa wb Ea Eb). discriminate. Qed.

  (* elements between waves of different reflectivity vanish *)
  Theorem C28_block_diagonal : forall a b wa wb, waveNameAt fr a = Some wa -> waveNameAt fr b = Some wb ->
    getReflectivity wa <> getReflectivity wb -> spinDensityMatrixElem fr a b = Some (RtoC 0).
  Proof.
    intros a b wa wb Ea Eb H. rewrite (C28_closed_form a b wa wb Ea Eb). unfold rhoSpec.
    destruct (option_eq_dec_Z (getReflectivity wa) (getReflectivity wb)); [contradiction|reflexivity].
  Qed.

  Lemma rho_conj wa wb : rhoSpec fr ks wb wa = Cconj (rhoSpec fr ks wa wb).
  Proof.
    unfold rhoSpec. destruct (option_eq_dec_Z (getReflectivity wa) (getReflectivity wb)) as [E|E];
    destruct (option_eq_dec_Z (getReflectivity wb) (getReflectivity wa)) as [F|F]; try congruence.
    - rewrite Cconj_mult, Cconj_R, csumA_conj. f_equal. apply csumA_ext. intros r _. rewrite Cconj_mult, Cconj_conj. ring.
    - now rewrite Cconj_0.
  Qed.
  (* C28: Hermitian *)
  Theorem C28_hermitian : forall a b x y, spinDensityMatrixElem fr a b = Some x -> spinDensityMatrixElem fr b a = Some y -> y = Cconj x.
  Proof.
    intros a b x y Hx Hy.
    destruct (waveNameAt fr a) as [wa|] eqn:Ea; [|unfold spinDensityMatrixElem in Hx; rewrite Ea in Hx; discriminate].
    destruct (waveNameAt fr b) as [wb|] eqn:Eb; [|unfold spinDensityMatrixElem in Hx; rewrite Ea, Eb in Hx; discriminate].
    rewrite (C28_closed_form a b wa wb Ea Eb) in Hx. rewrite (C28_closed_form b a wb wa Eb Ea) in Hy.
    injection Hx as <-. injection Hy as <-. apply rho_conj.
  Qed.

  (* vectors of the outer products: one for every reflectivity and rank *)
  Definition nameAt (i : nat) : str := nth i (frWaveNames fr) [].
  Definition vec (e r : Z) (i : nat) : C := if option_eq_dec_Z (getReflectivity (nameAt i)) (Some e) then V fr ks (nameAt i) r else RtoC 0.
  Definition vecs : list (R * (nat -> C)) :=
    flat_map (fun e => map (fun r => (IZR (frNormNmbEvents fr), vec e r)) (ranks fr)) [-1; 0; 1]%Z.
  Definition rhoAt (i j : nat) : C := rhoSpec fr ks (nameAt i) (nameAt j).

  Lemma refl_range w e : getReflectivity w = Some e -> e = (-1)%Z \/ e = 0%Z \/ e = 1%Z.
  Proof.
    intros H. apply C54_reflectivity_of_names in H. destruct H as (b & _ & H).
    destruct H as [|? ? ? ? ? ? ? ? ? ? Hs|? ? ? ? ? ? Hs]; auto; destruct Hs; auto.
  Qed.
  Lemma rhoAt_vecs i j : i < length (frWaveNames fr) -> j < length (frWaveNames fr) ->
    rhoAt i j = csumA (fun e => (RtoC (fst e) * (snd e i * Cconj (snd e j)))%C) vecs.
  Proof.
    intros Hi Hj. unfold vecs. rewrite <- csumA_flat.
    assert (Ri : getReflectivity (nameAt i) <> None) by (apply (rg_refl _ _ Hreg); now apply nth_In).
    assert (Rj : getReflectivity (nameAt j) <> None) by (apply (rg_refl _ _ Hreg); now apply nth_In).
    destruct (getReflectivity (nameAt i)) as [ei|] eqn:Ei; [|congruence]. destruct (getReflectivity (nameAt j)) as [ej|] eqn:Ej; [|congruence].
    assert (G : forall e, csumA (fun p : R * (nat -> C) => (RtoC (fst p) * (snd p i * Cconj (snd p j)))%C)
                 (map (fun r => (IZR (frNormNmbEvents fr), vec e r)) (ranks fr)) =
               if Z.eq_dec e ei then if Z.eq_dec e ej then (RtoC (IZR (frNormNmbEvents fr)) * csumA (fun r => V fr ks (nameAt i) r * Cconj (V fr ks (nameAt j) r)) (ranks fr))%C else RtoC 0 else RtoC 0).
    { intros e. rewrite csumA_map. cbn [fst snd]. rewrite csumA_mult_l. unfold vec. rewrite Ei, Ej.
      destruct (option_eq_dec_Z (Some ei) (Some e)) as [A|A]; destruct (Z.eq_dec e ei) as [A'|A']; try congruence.
      - destruct (option_eq_dec_Z (Some ej) (Some e)) as [B|B]; destruct (Z.eq_dec e ej) as [B'|B']; try congruence.
        rewrite csumA_zero; [ring|]. intros r _. rewrite Cconj_0. ring.
      - rewrite csumA_zero; [ring|]. intros r _. ring. }
    unfold csumA at 1. cbn [fold_right]. rewrite !G. unfold rhoAt, rhoSpec. rewrite Ei, Ej.
    destruct (refl_range _ _ Ei) as [->|[->| ->]]; destruct (refl_range _ _ Ej) as [->|[->| ->]];
      repeat match goal with |- context [Z.eq_dec ?x ?y] => destruct (Z.eq_dec x y); try discriminate; try lia end;
      match goal with |- context [option_eq_dec_Z ?x ?y] => destruct (option_eq_dec_Z x y); try discriminate; try congruence end; ring.
  Qed.
  Lemma vecs_pos : Forall (fun e => (0 <= fst e)%R) vecs.
  Proof.
    apply Forall_forall. intros p Hp. unfold vecs in Hp. apply in_flat_map in Hp. destruct Hp as (e & _ & Hp). apply in_map_iff in Hp.
    destruct Hp as (r & <- & _). cbn. apply IZR_le, (rg_norm _ _ Hreg).
  Qed.
  Lemma elem_rhoAt a b : a < length (frWaveNames fr) -> b < length (frWaveNames fr) -> spinDensityMatrixElem fr a b = Some (rhoAt a b).
  Proof.
    intros Ha Hb. apply C28_closed_form; unfold waveNameAt, nameAt; now apply nth_error_nth'.
  Qed.

  (* C28: positive semi-definite *)
  Theorem C28_positive_semidefinite : forall M v,
    (forall i j, i < length (frWaveNames fr) -> j < length (frWaveNames fr) -> spinDensityMatrixElem fr i j = Some (M i j)) ->
    Im (quadForm (length (frWaveNames fr)) M v) = 0%R /\ (0 <= Re (quadForm (length (frWaveNames fr)) M v))%R.
  Proof.
    intros M v HM. rewrite (quad_ext _ M (fun i j => csumA (fun e => (RtoC (fst e) * (snd e i * Cconj (snd e j)))%C) vecs)).
    - apply quad_psd. apply vecs_pos.
    - intros i j Hi Hj. rewrite <- rhoAt_vecs by auto. specialize (HM i j Hi Hj). rewrite elem_rhoAt in HM by auto. congruence.
  Qed.
  (* the diagonal is real and not negative *)
  Theorem C28_diagonal_real : forall a x, spinDensityMatrixElem fr a a = Some x -> Im x = 0%R /\ (0 <= Re x)%R.
  Proof.
    intros a x Hx. destruct (waveNameAt fr a) as [wa|] eqn:Ea; [|unfold spinDensityMatrixElem in Hx; rewrite Ea in Hx; discriminate].
    rewrite (C28_closed_form a a wa wa Ea Ea) in Hx. injection Hx as <-. unfold rhoSpec.
    destruct (option_eq_dec_Z _ _) as [_|E]; [|congruence].
    destruct (csumA_re (fun r => V fr ks wa r * Cconj (V fr ks wa r))%C (ranks fr)) as [I1 I2]; [intros r _; apply Cmult_conj_pos|].
    destruct (RtoC_mult_re (IZR (frNormNmbEvents fr)) (csumA (fun r => V fr ks wa r * Cconj (V fr ks wa r))%C (ranks fr))) as [E1 E2]. rewrite E1, E2, I1.
    split; [ring|]. apply Rmult_le_pos; [apply IZR_le, (rg_norm _ _ Hreg)|exact I2].
  Qed.
End Regular.
