(* Lemmas for C89. *)
From Coq Require Import String Ascii List ZArith Bool Reals Lia Lra Psatz.
From Coquelicot Require Import Complex.
From Verif Require Import PathModel StrModel ParticleModel ParticleProps FitResultModel FitStoreProps AmpIntModel AmpIntProofs AmpIntProps2 FitSdmProps FitIntProps IntensProps WeightModel WeightSpec.
Import ListNotations.
Open Scope list_scope.
Open Scope nat_scope.

Tactic Notation "bind" hyp(H) ident(x) ident(E) := match type of H with bindP ?o _ = Some _ => destruct o as [x|] eqn:E; cbn [bindP] in H; [|discriminate H] end.

Lemma mapO_length {A B} (f : A -> option B) l : forall r, mapO f l = Some r -> length r = length l.
Proof. induction l as [|x l IH]; intros r H; cbn [mapO] in H; [injection H as <-; reflexivity|]. bind H y E. bind H t F. injection H as <-. cbn [length]. now rewrite (IH t eq_refl). Qed.
Lemma mapO_nth {A B} (f : A -> option B) l : forall r i x, mapO f l = Some r -> nth_error l i = Some x -> exists y, f x = Some y /\ nth_error r i = Some y.
Proof.
  induction l as [|x l IH]; intros r i z H N; [destruct i; discriminate|]. cbn [mapO] in H. bind H y E. bind H t F. injection H as <-.
  destruct i as [|i]; cbn in N; [injection N as <-; exists y; auto|]. now apply (IH t i z eq_refl).
Qed.
Lemma mapO_nth_r {A B} (f : A -> option B) l r i y : mapO f l = Some r -> nth_error r i = Some y -> exists x, nth_error l i = Some x /\ f x = Some y.
Proof.
  intros H N. destruct (nth_error l i) as [x|] eqn:E.
  - destruct (mapO_nth _ _ _ _ _ H E) as (z & F & G). exists x. split; [reflexivity|congruence].
  - exfalso. apply nth_error_None in E. rewrite <- (mapO_length _ _ _ H) in E. apply nth_error_None in E. congruence.
Qed.
Lemma nth_error_seq0 n i : i < n -> nth_error (seq 0 n) i = Some i.
Proof. intros L. rewrite (nth_error_nth' _ 0) by now rewrite seq_length. now rewrite seq_nth. Qed.

(* ---- amplitude files ---- *)
Lemma trees_le files : forall waves trees n t' n', openRootAmpFiles files waves trees n = (t', n') -> length t' <= length waves + length trees.
Proof.
  induction waves as [|w r IH]; intros trees n t' n' H; cbn [openRootAmpFiles] in H; [injection H as <- <-; cbn; lia|].
  cbn [length]. destruct (str_eqb w (lit "flat")); [apply IH in H; rewrite app_length in H; cbn in H; lia|].
  destruct (files w) as [t|]; [|apply IH in H; lia].
  destruct (length t =? 0); [apply IH in H; lia|]. destruct (n =? 0); [apply IH in H; rewrite app_length in H; cbn in H; lia|].
  destruct (length t =? n); apply IH in H; [rewrite app_length in H; cbn in H|]; lia.
Qed.
Lemma trees_all files : forall waves trees n t' n', openRootAmpFiles files waves trees n = (t', n') -> length t' = length waves + length trees ->
  (n = 0 \/ n' = n) /\ (forall i, i < length trees -> nth_error t' i = nth_error trees i)
  /\ forall k w, nth_error waves k = Some w ->
     if flatWave w then nth_error t' (length trees + k) = Some None
     else exists t, files w = Some t /\ nth_error t' (length trees + k) = Some (Some t) /\ length t = n' /\ n' <> 0.
Proof.
  induction waves as [|w r IH]; intros trees n t' n' H L; cbn [openRootAmpFiles] in H.
  - injection H as <- <-. split; [auto|]. split; [auto|]. intros [|k]; discriminate.
  - cbn [length] in L. fold (flatWave w) in H.
    assert (forall x m, openRootAmpFiles files r (trees ++ [x]) m = (t', n') ->
      (if flatWave w then x = None else exists t, files w = Some t /\ x = Some t /\ length t = m /\ m <> 0) -> (n = 0 \/ m = n) ->
      (n = 0 \/ n' = n) /\ (forall i, i < length trees -> nth_error t' i = nth_error trees i)
      /\ forall k v, nth_error (w :: r) k = Some v ->
     if flatWave v then nth_error t' (length trees + k) = Some None
     else exists t, files v = Some t /\ nth_error t' (length trees + k) = Some (Some t) /\ length t = n' /\ n' <> 0) as K.
    { intros x m G P Q. apply IH in G; [|rewrite app_length; cbn; lia]. destruct G as (A & B & D). rewrite app_length in B, D. cbn [length] in B, D.
      split; [destruct Q as [Q|Q]; [auto|subst m; destruct A as [A|A]; auto]|]. split.
      - intros i Li. rewrite B by lia. now rewrite nth_error_app1.
      - intros [|k] v N; cbn in N.
        + injection N as <-. rewrite Nat.add_0_r. rewrite B by lia. rewrite nth_error_app2, Nat.sub_diag by lia. cbn.
          destruct (flatWave w); [now subst|]. destruct P as (t & P1 & -> & P2 & P3). exists t. split; [assumption|]. split; [reflexivity|].
          destruct A as [A|A]; [lia|]. subst. auto.
        + specialize (D k v N). now replace (length trees + S k) with (length trees + 1 + k) by lia. }
    destruct (flatWave w) eqn:FW; [now apply (K None n H); auto|].
    destruct (files w) as [t|] eqn:FI; [|apply trees_le in H; lia].
    destruct (Nat.eqb_spec (length t) 0); [apply trees_le in H; lia|].
    destruct (Nat.eqb_spec n 0); [apply (K (Some t) (length t) H); [exists t; auto|auto]|].
    destruct (Nat.eqb_spec (length t) n); [|apply trees_le in H; lia].
    apply (K (Some t) n H); [exists t; auto|auto].
Qed.

(* ---- the fit result that is used ---- *)
Definition before (center : R) (i : nat) (m v : R) (k : nat) (m' v' : R) : Prop :=
  (Rabs (center - m) < Rabs (center - m'))%R \/ (Rabs (center - m) = Rabs (center - m') /\ ((v < v')%R \/ (v = v' /\ i <= k))).
Lemma pick_fold center (l : list (R * R)) : forall done ib mb lb s, done <> [] -> nth_error done ib = Some (mb, lb) ->
  (forall k m v, nth_error done k = Some (m, v) -> before center ib mb lb k m v) ->
  s = fold_left (pickStep center) (combine (seq (length done) (length l)) l) ((ib, mb), lb) ->
  exists i m v, s = ((i, m), v) /\ nth_error (done ++ l) i = Some (m, v) /\ forall k m' v', nth_error (done ++ l) k = Some (m', v') -> before center i m v k m' v'.
Proof.
  induction l as [|[m v] l IH]; intros done ib mb lb s NE N B E; cbn in E.
  - subst s. exists ib, mb, lb. rewrite app_nil_r. auto.
  - replace (done ++ (m, v) :: l) with ((done ++ [(m, v)]) ++ l) by now rewrite <- app_assoc.
    assert (length (done ++ [(m, v)]) = S (length done)) as LD by (rewrite app_length; cbn; lia).
    assert (done ++ [(m, v)] <> []) as ND by (destruct done; discriminate).
    assert (nth_error (done ++ [(m, v)]) (length done) = Some (m, v)) as NL by (rewrite nth_error_app2, Nat.sub_diag by lia; reflexivity).
    assert (ib < length done) as IL by (apply nth_error_Some; congruence).
    assert (nth_error (done ++ [(m, v)]) ib = Some (mb, lb)) as NB by (rewrite nth_error_app1 by lia; exact N).
    assert (forall k m' v', nth_error (done ++ [(m, v)]) k = Some (m', v') -> nth_error done k = Some (m', v') /\ k < length done \/ (k = length done /\ m' = m /\ v' = v)) as SP.
    { intros k m' v' K. destruct (lt_dec k (length done)) as [Lk|Lk]; [left; rewrite nth_error_app1 in K by lia; auto|]. right.
      rewrite nth_error_app2 in K by lia. destruct (k - length done) as [|q] eqn:Q; cbn in K; [injection K as <- <-; split; [lia|auto]|]. destruct q; discriminate. }
    destruct (Nat.eqb_spec (length done) 0) as [Z|_]; [destruct done; [contradiction|discriminate Z]|].
    destruct (Rlt_dec (Rabs (center - m)) (Rabs (center - mb))) as [Q1|Q1].
    { eapply (IH (done ++ [(m, v)]) (length done) m v s ND NL); [|rewrite LD; exact E]. intros k m' v' K. destruct (SP k m' v' K) as [[K1 K2]|(K1 & -> & ->)].
      - left. destruct (B k m' v' K1) as [H|[H _]]; lra.
      - right. split; [reflexivity|]. right. split; [reflexivity|lia]. }
    destruct (Req_EM_T (Rabs (center - m)) (Rabs (center - mb))) as [Q2|Q2].
    + destruct (Rlt_dec v lb) as [Q3|Q3].
      * eapply (IH (done ++ [(m, v)]) (length done) m v s ND NL); [|rewrite LD; exact E]. intros k m' v' K. destruct (SP k m' v' K) as [[K1 K2]|(K1 & -> & ->)].
        -- destruct (B k m' v' K1) as [H|[H [H'|[H' H'']]]]; [left; lra|right; split; [lra|left; lra]|right; split; [lra|left; lra]].
        -- right. split; [reflexivity|]. right. split; [reflexivity|lia].
      * eapply (IH (done ++ [(m, v)]) ib mb lb s ND NB); [|rewrite LD; exact E]. intros k m' v' K. destruct (SP k m' v' K) as [[K1 K2]|(K1 & -> & ->)]; [now apply B|].
        right. split; [now symmetry|]. destruct (Rle_lt_or_eq_dec lb v) as [H|H]; [lra|left; lra|right; split; [lra|lia]].
    + eapply (IH (done ++ [(m, v)]) ib mb lb s ND NB); [|rewrite LD; exact E]. intros k m' v' K. destruct (SP k m' v' K) as [[K1 K2]|(K1 & -> & ->)]; [now apply B|].
      left. lra.
Qed.
Lemma pick_best center width l j : pickResult center width l = Some j -> best center width l j.
Proof.
  unfold pickResult. destruct l as [|[m v] l]; [cbn; destruct (Rlt_dec 0 (center - width / 2)); [discriminate|]; destruct (Rlt_dec (center + width / 2) 0); discriminate|].
  cbn [length seq combine fold_left].
  replace (pickStep center (0, 0%R, 0%R) (0, (m, v))) with ((0, m), v) by reflexivity.
  assert (forall k x y, nth_error [(m, v)] k = Some (x, y) -> before center 0 m v k x y) as B1.
  { intros [|[|k]] x y; cbn; try discriminate. intros [= <- <-]. right. split; [reflexivity|]. right. split; [reflexivity|lia]. }
  destruct (pick_fold center l [(m, v)] 0 m v _ ltac:(discriminate) eq_refl B1 eq_refl) as (i & m' & v' & E & N & B). cbn [length] in E.
  cbn [app] in N, B. rewrite E. destruct (Rlt_dec m' (center - width / 2)); [discriminate|]. destruct (Rlt_dec (center + width / 2) m'); [discriminate|]. intros [= <-].
  exists m', v'. split; [exact N|]. split; [lra|exact B].
Qed.
Lemma best_picked center width l j : best center width l j -> pickResult center width l = Some j.
Proof.
  intros (m0 & v0 & N0 & RG & B0). unfold pickResult. destruct l as [|[m v] l]; [destruct j; discriminate|].
  cbn [length seq combine fold_left].
  replace (pickStep center (0, 0%R, 0%R) (0, (m, v))) with ((0, m), v) by reflexivity.
  assert (forall k x y, nth_error [(m, v)] k = Some (x, y) -> before center 0 m v k x y) as B1.
  { intros [|[|k]] x y; cbn; try discriminate. intros [= <- <-]. right. split; [reflexivity|]. right. split; [reflexivity|lia]. }
  destruct (pick_fold center l [(m, v)] 0 m v _ ltac:(discriminate) eq_refl B1 eq_refl) as (i & m' & v' & E & N & B). cbn [length] in E.
  cbn [app] in N, B. rewrite E.
  assert (i = j) as <-. { pose proof (B0 i m' v' N) as P. pose proof (B j m0 v0 N0) as Q. unfold before in *. destruct P as [P|[P [P'|[P' P'']]]], Q as [Q|[Q [Q'|[Q' Q'']]]]; try lra; lia. }
  assert (m' = m0) as -> by congruence.
  destruct (Rlt_dec m0 (center - width / 2)); [lra|]. destruct (Rlt_dec (center + width / 2) m0); [lra|]. reflexivity.
Qed.

(* ---- sums ---- *)
Section Event.
  Variables (mat : aim) (waves : list str) (decs : list C) (maxRank : Z).
  Definition wv (a : pamp) : str := nth (paWave a) waves [].
  Definition nq (w : str) : R := match waveIndex mat w with Some k => match element mat k k with Some x => (Re x * IZR (nmbEvents mat))%R | None => 0%R end | None => 0%R end.
  Definition zOf (x : pamp * C) : C :=
    let '(a, p) := x in
    if flatWave (wv a) then (p / RtoC (sqrt (IZR (nmbEvents mat))))%C else (nth (paWave a) decs (RtoC 0) * p / RtoC (sqrt (nq (wv a))))%C.
  Definition good (a : pamp) : Prop :=
    nth_error waves (paWave a) = Some (wv a) /\ nth_error decs (paWave a) = Some (nth (paWave a) decs (RtoC 0)) /\
    (if flatWave (wv a) then (0 < IZR (nmbEvents mat))%R
     else (exists k x, waveIndex mat (wv a) = Some k /\ element mat k k = Some x /\ nq (wv a) = (Re x * IZR (nmbEvents mat))%R) /\ (0 < nq (wv a))%R
          /\ ((paRefl a = 1 \/ paRefl a = -1)%Z -> (0 <= paRank a < maxRank)%Z)).
  Definition inRefl (r : Z) (k : nat) (a : pamp) : bool := negb (flatWave (wv a)) && (paRefl a =? r)%Z && (paRank a =? Z.of_nat k)%Z.
  Lemma addProdAmp_val s x s' : addProdAmp mat waves decs maxRank s x = Some s' ->
    good (fst x) /\ (forall k, sPos s' k = (sPos s k + if inRefl 1 k (fst x) then zOf x else RtoC 0)%C)
    /\ (forall k, sNeg s' k = (sNeg s k + if inRefl (-1) k (fst x) then zOf x else RtoC 0)%C)
    /\ sFlat s' = (if flatWave (wv (fst x)) then zOf x else sFlat s) /\ sProd s' = sProd s ++ [cnorm2 (zOf x)].
  Proof.
    destruct x as [a p]. unfold addProdAmp. intros H. bind H w E1. bind H d E2.
    assert (wv a = w) as W by (unfold wv; now apply nth_error_nth). assert (nth (paWave a) decs (RtoC 0) = d) as D by now apply nth_error_nth.
    unfold good, inRefl, zOf. cbn [fst]. rewrite W, D. fold (flatWave w) in H. destruct (flatWave w) eqn:FW.
    - destruct (Rle_dec (IZR (nmbEvents mat)) 0); [discriminate|]. injection H as <-. cbn [sPos sNeg sFlat sProd negb andb].
      split; [split; [assumption|split; [assumption|lra]]|]. split; [intros k; ring|]. split; [intros k; ring|]. auto.
    - bind H k E3. bind H el E4. cbv zeta in H. destruct (Rle_dec (Re el * IZR (nmbEvents mat)) 0); [discriminate|].
      assert (nq w = (Re el * IZR (nmbEvents mat))%R) as Q by (unfold nq; now rewrite E3, E4). rewrite Q. cbn [negb andb].
      assert (forall r k0, (if (paRank a =? Z.of_nat k0)%Z then r else RtoC 0) = (if k0 =? Z.to_nat (paRank a) then r else RtoC 0) \/ (paRank a < 0)%Z) as RK.
      { intros r k0. destruct (Z_lt_le_dec (paRank a) 0); [auto|]. left. destruct (Z.eqb_spec (paRank a) (Z.of_nat k0)) as [Y|Y], (Nat.eqb_spec k0 (Z.to_nat (paRank a))) as [X|X]; try reflexivity; lia. }
      destruct (Z.eqb_spec (paRefl a) 1) as [R1|R1].
      + destruct ((0 <=? paRank a)%Z && (paRank a <? maxRank)%Z) eqn:OK; [|discriminate]. injection H as <-. apply andb_prop in OK. destruct OK as [O1 O2]. apply Z.leb_le in O1. apply Z.ltb_lt in O2.
        cbn [sPos sNeg sFlat sProd]. split; [split; [assumption|]; split; [assumption|]; split; [exists k, el; auto|]; split; [lra|]; auto|].
        split; [intros k0; unfold addAt; cbn [andb]; destruct (RK (d * p / RtoC (sqrt (Re el * IZR (nmbEvents mat))))%C k0) as [Y|Y]; [|lia]; rewrite Y; destruct (k0 =? Z.to_nat (paRank a)); [reflexivity|ring]|].
        split; [intros k0; rewrite R1; cbn; ring|]. auto.
      + destruct (Z.eqb_spec (paRefl a) (-1)) as [R2|R2].
        * destruct ((0 <=? paRank a)%Z && (paRank a <? maxRank)%Z) eqn:OK; [|discriminate]. injection H as <-. apply andb_prop in OK. destruct OK as [O1 O2]. apply Z.leb_le in O1. apply Z.ltb_lt in O2.
          cbn [sPos sNeg sFlat sProd]. split; [split; [assumption|]; split; [assumption|]; split; [exists k, el; auto|]; split; [lra|]; auto|].
          split; [intros k0; cbn [andb]; ring|].
          split; [intros k0; unfold addAt; cbn [andb]; destruct (RK (d * p / RtoC (sqrt (Re el * IZR (nmbEvents mat))))%C k0) as [Y|Y]; [|lia]; rewrite Y; destruct (k0 =? Z.to_nat (paRank a)); [reflexivity|ring]|]. auto.
        * injection H as <-. cbn [sPos sNeg sFlat sProd]. split; [split; [assumption|]; split; [assumption|]; split; [exists k, el; auto|]; split; [lra|]; intros [?|?]; contradiction|].
          split; [intros k0; cbn [andb]; ring|]. split; [intros k0; cbn [andb]; ring|]. auto.
  Qed.
  Lemma addProdAmps_val l : forall s s', addProdAmps mat waves decs maxRank s l = Some s' ->
    (forall x, In x l -> good (fst x)) /\ (forall k, sPos s' k = (sPos s k + csumA (fun x => if inRefl 1 k (fst x) then zOf x else RtoC 0) l)%C)
    /\ (forall k, sNeg s' k = (sNeg s k + csumA (fun x => if inRefl (-1) k (fst x) then zOf x else RtoC 0) l)%C)
    /\ sFlat s' = fold_left (fun f x => if flatWave (wv (fst x)) then zOf x else f) l (sFlat s) /\ sProd s' = sProd s ++ map (fun x => cnorm2 (zOf x)) l.
  Proof.
    induction l as [|x l IH]; intros s s' H; cbn [addProdAmps] in H.
    - injection H as <-. split; [intros x []|]. split; [intros k; unfold csumA; cbn; ring|]. split; [intros k; unfold csumA; cbn; ring|]. cbn. now rewrite app_nil_r.
    - bind H s1 E. destruct (addProdAmp_val _ _ _ E) as (A1 & A2 & A3 & A4 & A5). destruct (IH _ _ H) as (B1 & B2 & B3 & B4 & B5).
      split; [intros y [<-|Hy]; auto|]. split; [intros k; rewrite B2, A2, csumA_cons; ring|]. split; [intros k; rewrite B3, A3, csumA_cons; ring|].
      cbn [fold_left map]. rewrite B4, B5, A4, A5, <- app_assoc. auto.
  Qed.
  (* the flat amplitude when there is at most one *)
  Lemma flat_fold (l : list (pamp * C)) : forall f, (forall i j x y, nth_error l i = Some x -> nth_error l j = Some y -> flatWave (wv (fst x)) = true -> flatWave (wv (fst y)) = true -> i = j) ->
    fold_left (fun f x => if flatWave (wv (fst x)) then zOf x else f) l f = (if existsb (fun x => flatWave (wv (fst x))) l then csumA (fun x => if flatWave (wv (fst x)) then zOf x else RtoC 0) l else f).
  Proof.
    induction l as [|x l IH]; intros f H; [reflexivity|]. cbn [fold_left existsb]. rewrite csumA_cons. rewrite IH.
    2:{ intros i j y z Y Z F G. specialize (H (S i) (S j) y z Y Z F G). lia. }
    destruct (flatWave (wv (fst x))) eqn:FX; cbn [orb].
    - replace (existsb (fun y => flatWave (wv (fst y))) l) with false.
      + rewrite csumA_zero; [ring|]. intros y Hy. destruct (flatWave (wv (fst y))) eqn:FY; [|reflexivity]. apply In_nth_error in Hy. destruct Hy as [j Hj]. specialize (H 0 (S j) x y eq_refl Hj FX FY). discriminate.
      + symmetry. destruct (existsb (fun y => flatWave (wv (fst y))) l) eqn:EX; [|reflexivity]. apply existsb_exists in EX. destruct EX as (y & Hy & FY). apply In_nth_error in Hy. destruct Hy as [j Hj]. specialize (H 0 (S j) x y eq_refl Hj FX FY). discriminate.
    - destruct (existsb (fun y => flatWave (wv (fst y))) l); [ring|reflexivity].
  Qed.
End Event.

Lemma cnorm2_cnorm z : RtoC (cnorm2 z) = (z * Cconj z)%C.
Proof. destruct z as [a b]. unfold cnorm2, RtoC, Cmult, Cconj, Re, Im. cbn. f_equal; ring. Qed.
Lemma cnorm2_pos z : (0 <= cnorm2 z)%R. Proof. unfold cnorm2. nra. Qed.
Lemma rankSum_val f n : RtoC (rankSum f n) = csumA (fun k => f k * Cconj (f k))%C (seq 0 (Z.to_nat n)).
Proof.
  unfold rankSum. generalize (seq 0 (Z.to_nat n)). intros l. rewrite <- (Cplus_0_l (csumA _ l)). generalize 0%R.
  induction l as [|k l IH]; intros a; cbn [fold_left]; [unfold csumA; cbn; ring|]. rewrite IH, csumA_cons, RtoC_plus, cnorm2_cnorm. ring.
Qed.
Lemma rankSum_pos f n : (0 <= rankSum f n)%R.
Proof.
  unfold rankSum. assert (forall l a, (0 <= a)%R -> (0 <= fold_left (fun s r => (s + cnorm2 (f r))%R) l a)%R) as K.
  { induction l as [|k l IH]; intros a H; cbn [fold_left]; [exact H|]. apply IH. pose proof (cnorm2_pos (f k)). lra. }
  apply K. lra.
Qed.
Lemma split_gen (b : nat -> bool) (key : nat -> Z) (z : nat -> C) l E : NoDup E -> (forall i, In i l -> b i = true -> In (key i) E) ->
  csumA (fun e => let P := csumA (fun i => if b i && (key i =? e)%Z then z i else RtoC 0) l in P * Cconj P)%C E
  = csumA (fun i => csumA (fun j => if b i && b j && (key i =? key j)%Z then z i * Cconj (z j) else RtoC 0)%C l) l.
Proof.
  intros N H. cbv zeta.
  transitivity (csumA (fun e => csumA (fun i => csumA (fun j => if b i && (key i =? e)%Z then (if b j && (key j =? e)%Z then z i * Cconj (z j) else RtoC 0) else RtoC 0)%C l) l) E).
  - apply csumA_ext. intros e _. rewrite csumA_conj, csum_scal_r. apply csumA_ext. intros i _. rewrite csum_scal. apply csumA_ext. intros j _.
    destruct (b i && (key i =? e)%Z); [|ring]. destruct (b j && (key j =? e)%Z); [reflexivity|]. rewrite Cconj_zero. ring.
  - rewrite csumA_swap. apply csumA_ext. intros i Hi. rewrite csumA_swap. apply csumA_ext. intros j Hj.
    destruct (b i) eqn:BI; cbn [andb]; [|apply csumA_zero; reflexivity].
    rewrite <- (csum_pick E (key i) (if b j && (key i =? key j)%Z then z i * Cconj (z j) else RtoC 0)%C N (H i Hi BI)). apply csumA_ext. intros e _.
    destruct (Z.eqb_spec (key i) e) as [<-|]; [|reflexivity]. now rewrite (Z.eqb_sym (key j)).
Qed.
Lemma combine_nth_map {A B} (l : list A) (k : list B) a b : length l = length k -> combine l k = map (fun i => (nth i l a, nth i k b)) (seq 0 (length l)).
Proof.
  revert k. induction l as [|x l IH]; intros [|y k] H; cbn in H; try discriminate; [reflexivity|]. cbn [combine length seq map nth]. f_equal.
  rewrite <- seq_shift, map_map. rewrite (IH k) by lia. apply map_ext. reflexivity.
Qed.
Lemma csumA_map2 {A B} (f : B -> C) (g : A -> B) l : csumA f (map g l) = csumA (fun x => f (g x)) l.
Proof. unfold csumA. induction l as [|x l IH]; cbn; [reflexivity|now rewrite IH]. Qed.
Lemma sign_range (o : option ascii) r : match o with Some c => if Ascii.eqb c "-" then Some (-1)%Z else if Ascii.eqb c "+" then Some 1%Z else None | None => None end = Some r -> (r = 1 \/ r = -1)%Z.
Proof. destruct o as [c|]; [|discriminate]. destruct (Ascii.eqb c "-"); [intros [= <-]; auto|]. destruct (Ascii.eqb c "+"); [intros [= <-]; auto|discriminate]. Qed.
Lemma refl_range n r : getReflectivity n = Some r -> (r = 0 \/ r = 1 \/ r = -1)%Z.
Proof.
  unfold getReflectivity. intros H. bind H p E. cbv zeta in H. destruct (str_eqb (skipn p n) (lit "flat")); [injection H as <-; auto|].
  destruct (nth_error n p) as [c|]; [|discriminate]. destruct (Ascii.eqb c "[").
  - bind H q F. destruct (findFrom "," n (p + 1)) as [f1|]; [|discriminate]. destruct (findFrom "," n (f1 + 1)) as [s1|]; [|discriminate].
    destruct (q <? s1); [discriminate|]. destruct (q - s1 <? 3); [discriminate|]. right. eapply sign_range. exact H.
  - right. eapply sign_range. exact H.
Qed.

(* ---- one sample ---- *)
Definition noAmp : pamp := PA 0 [] 0 0 (RtoC 0).
Section Sample.
  Variables (mat : aim) (waves : list str) (decs : list C) (maxRank : Z) (l : list pamp) (amps : list C).
  Definition aAt (i : nat) : pamp := nth i l noAmp.
  Definition zAt (i : nat) : C := zOf mat waves decs (aAt i, nth i amps (RtoC 0)).
  Definition wAt (i : nat) : str := wv waves (aAt i).
  Lemma csum_pairs (f : pamp * C -> C) : length l = length amps -> csumA f (combine l amps) = csumA (fun i => f (aAt i, nth i amps (RtoC 0))) (seq 0 (length l)).
  Proof. intros L. rewrite (combine_nth_map l amps noAmp (RtoC 0) L), csumA_map2. reflexivity. Qed.
  Lemma sample_val p n f prods : sampleWeight mat waves decs maxRank l amps = Some ((p, n), f, prods) ->
    (forall i j, i < length l -> j < length l -> flatWave (wAt i) = true -> flatWave (wAt j) = true -> i = j) ->
    length amps = length l /\ (forall i, i < length l -> good mat waves decs maxRank (aAt i))
    /\ RtoC p = intensityOf 1 wAt (fun i => paRank (aAt i)) (fun i => paRefl (aAt i)) zAt (length l)
    /\ RtoC n = intensityOf (-1) wAt (fun i => paRank (aAt i)) (fun i => paRefl (aAt i)) zAt (length l)
    /\ RtoC f = csumA (fun i => csumA (fun j => if flatWave (wAt i) && flatWave (wAt j) then zAt i * Cconj (zAt j) else RtoC 0)%C (seq 0 (length l))) (seq 0 (length l))
    /\ prods = map (fun i => cnorm2 (zAt i)) (seq 0 (length l)) /\ (0 <= p)%R /\ (0 <= n)%R /\ (0 <= f)%R.
  Proof.
    unfold sampleWeight. intros H FL. destruct (Nat.eqb_spec (length l) (length amps)) as [LE|]; [|discriminate]. bind H s E. injection H as <- <- <- <-.
    destruct (addProdAmps_val mat waves decs maxRank _ _ _ E) as (G & P & N & F & W). cbn [sPos sNeg sFlat sProd] in P, N, F, W.
    assert (forall i, i < length l -> good mat waves decs maxRank (aAt i)) as GI.
    { intros i Li. apply (G (aAt i, nth i amps (RtoC 0))). rewrite (combine_nth_map l amps noAmp (RtoC 0) LE). apply in_map_iff. exists i. split; [reflexivity|]. apply in_seq. lia. }
    split; [now symmetry|]. split; [exact GI|].
    assert (forall r (S0 : nat -> C), (r = 1 \/ r = -1)%Z -> (forall k, S0 k = csumA (fun i => if inRefl waves r k (aAt i) then zAt i else RtoC 0) (seq 0 (length l))) ->
      RtoC (rankSum S0 maxRank) = intensityOf r wAt (fun i => paRank (aAt i)) (fun i => paRefl (aAt i)) zAt (length l)) as K.
    { intros r S0 HR HS. rewrite rankSum_val. unfold intensityOf.
      pose proof (split_gen (fun i => negb (flatWave (wAt i)) && (paRefl (aAt i) =? r)%Z) (fun i => paRank (aAt i)) zAt (seq 0 (length l)) (map Z.of_nat (seq 0 (Z.to_nat maxRank)))) as SG.
      rewrite csumA_map2 in SG. cbv zeta in SG.
      transitivity (csumA (fun x => csumA (fun i => if negb (flatWave (wAt i)) && (paRefl (aAt i) =? r)%Z && (paRank (aAt i) =? Z.of_nat x)%Z then zAt i else RtoC 0) (seq 0 (length l)) * Cconj (csumA (fun i => if negb (flatWave (wAt i)) && (paRefl (aAt i) =? r)%Z && (paRank (aAt i) =? Z.of_nat x)%Z then zAt i else RtoC 0) (seq 0 (length l))))%C (seq 0 (Z.to_nat maxRank))).
      { apply csumA_ext. intros k _. rewrite !HS. reflexivity. }
      rewrite SG.
      - apply csumA_ext. intros i _. apply csumA_ext. intros j _.
        destruct (flatWave (wAt i)), (flatWave (wAt j)), (paRefl (aAt i) =? r)%Z, (paRefl (aAt j) =? r)%Z, (paRank (aAt i) =? paRank (aAt j))%Z; reflexivity.
      - apply FinFun.Injective_map_NoDup; [intros x y; lia|apply seq_NoDup].
      - intros i Hi B. apply in_seq in Hi. apply andb_prop in B. destruct B as [B1 B2]. apply Z.eqb_eq in B2. destruct (GI i) as (_ & _ & G3); [lia|]. unfold wAt in B1. destruct (flatWave (wv waves (aAt i))); [discriminate|].
        destruct G3 as (_ & _ & G3). assert (0 <= paRank (aAt i) < maxRank)%Z as RG by (apply G3; destruct HR; subst r; auto). apply in_map_iff. exists (Z.to_nat (paRank (aAt i))). split; [lia|]. apply in_seq. lia. }
    split; [apply K; [auto|]; intros k; rewrite P, csum_pairs by assumption; rewrite Cplus_0_l; reflexivity|].
    split; [apply K; [auto|]; intros k; rewrite N, csum_pairs by assumption; rewrite Cplus_0_l; reflexivity|].
    split.
    - rewrite cnorm2_cnorm. rewrite flat_fold in F.
      2:{ intros i j x y Hi Hj Fx Fy. assert (forall q v, nth_error (combine l amps) q = Some v -> q < length l /\ fst v = aAt q) as NC.
          { intros q v Hq. assert (q < length l) as Lq. { assert (q < length (combine l amps)) by (apply nth_error_Some; congruence). rewrite combine_length in H. lia. } split; [exact Lq|].
            rewrite (combine_nth_map l amps noAmp (RtoC 0) LE) in Hq. rewrite nth_error_map, nth_error_seq0 in Hq by exact Lq. cbn in Hq. injection Hq as <-. reflexivity. }
          destruct (NC _ _ Hi) as [Li Ei]. destruct (NC _ _ Hj) as [Lj Ej]. apply FL; try assumption; unfold wAt; congruence. }
      assert (sFlat s = csumA (fun i => if flatWave (wAt i) then zAt i else RtoC 0) (seq 0 (length l))) as FS.
      { rewrite F. rewrite csum_pairs by assumption. destruct (existsb (fun x => flatWave (wv waves (fst x))) (combine l amps)) eqn:EX; [reflexivity|]. symmetry. apply csumA_zero. intros i Hi. apply in_seq in Hi.
        destruct (flatWave (wAt i)) eqn:FW; [|reflexivity]. assert (existsb (fun x => flatWave (wv waves (fst x))) (combine l amps) = true); [|congruence]. apply existsb_exists. exists (aAt i, nth i amps (RtoC 0)). split; [|exact FW].
        rewrite (combine_nth_map l amps noAmp (RtoC 0) LE). apply in_map_iff. exists i. split; [reflexivity|]. apply in_seq. lia. }
      rewrite FS. rewrite csumA_conj, csum_scal_r. apply csumA_ext. intros i _. rewrite csum_scal. apply csumA_ext. intros j _.
      destruct (flatWave (wAt i)), (flatWave (wAt j)); cbn [andb]; try ring. rewrite Cconj_zero. ring.
    - split; [|split; [apply rankSum_pos|split; [apply rankSum_pos|apply cnorm2_pos]]]. rewrite W. cbn [app]. rewrite (combine_nth_map l amps noAmp (RtoC 0) LE), map_map. reflexivity.
  Qed.
End Sample.
(* the three parts together *)
Lemma parts_total w rank refl z n : (forall i, i < n -> (refl i = 0 \/ refl i = 1 \/ refl i = -1)%Z) ->
  intensity w rank refl z n = (intensityOf 1 w rank refl z n + intensityOf (-1) w rank refl z n
    + csumA (fun i => csumA (fun j => if flatWave (w i) && flatWave (w j) then z i * Cconj (z j) else RtoC 0)%C (seq 0 n)) (seq 0 n))%C.
Proof.
  intros HR. unfold intensity, intensityOf. rewrite <- !csumA_pointwise. apply csumA_ext. intros i Hi. rewrite <- !csumA_pointwise. apply csumA_ext. intros j Hj. apply in_seq in Hi. apply in_seq in Hj.
  unfold together. destruct (flatWave (w i)), (flatWave (w j)); cbn [negb andb]; try ring.
  destruct (HR i) as [->|[->| ->]]; [lia| | |]; destruct (HR j) as [->|[->| ->]]; try lia; cbn [Z.eqb negb andb]; destruct (rank i =? rank j)%Z; cbn; ring.
Qed.
