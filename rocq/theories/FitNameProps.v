(* C31 (names of production amplitudes), C54 (reflectivity of a wave) *)
From Coq Require Import String Ascii List ZArith Bool Reals Lia.
From Verif Require Import PathModel StrModel DecModel ParticleModel RegexModel FitResultModel.
Import ListNotations.
Open Scope list_scope.
Open Scope nat_scope.

Definition lacks (c : ascii) (s : str) : Prop := ~ In c s.

Lemma findChar_split c a b : lacks c a -> findChar c (a ++ c :: b) = Some (length a).
Proof.
  induction a as [|x a IH]; intros H; cbn [findChar app].
  - now rewrite Ascii.eqb_refl.
  - destruct (Ascii.eqb x c) eqn:E; [apply Ascii.eqb_eq in E; subst; exfalso; apply H; now left|].
    rewrite IH; [reflexivity|]. intros Hc. apply H. now right.
Qed.
Lemma findChar_none c s : findChar c s = None <-> lacks c s.
Proof.
  unfold lacks. induction s as [|x s IH]; cbn [findChar In]; [split; auto|].
  destruct (Ascii.eqb x c) eqn:E.
  - apply Ascii.eqb_eq in E. subst. split; [discriminate|]. intros H. exfalso. apply H. now left.
  - apply Ascii.eqb_neq in E. destruct (findChar c s).
    + split; [discriminate|]. intros H. exfalso. destruct IH as [_ IH].
      enough (Some n = None) by discriminate. apply IH. intros Hc. apply H. now right.
    + split; auto. intros _ [Hx|Hx]; [congruence|]. destruct IH as [IH _]. now apply IH.
Qed.
Lemma findChar_some c s i : findChar c s = Some i <-> exists a b, s = a ++ c :: b /\ lacks c a /\ length a = i.
Proof.
  split.
  - revert i. induction s as [|x s IH]; intros i; cbn [findChar]; [discriminate|].
    destruct (Ascii.eqb x c) eqn:E.
    + apply Ascii.eqb_eq in E. subst. intros [= <-]. exists [], s. repeat split. intros [].
    + apply Ascii.eqb_neq in E. destruct (findChar c s) as [k|]; [|discriminate]. intros [= <-].
      destruct (IH k eq_refl) as (a & b & -> & Ha & Hl). exists (x :: a), b. repeat split; [|cbn; lia].
      intros [Hx|Hx]; auto.
  - intros (a & b & -> & Ha & <-). now apply findChar_split.
Qed.

Lemma showNN_lacks_underscore r : (0 <= r)%Z -> lacks "_" (showNN r).
Proof.
  intros H Hin. destruct (showNN_spec r H) as (_ & Hd & _).
  rewrite forallb_forall in Hd. specialize (Hd _ Hin). vm_compute in Hd. discriminate.
Qed.

Lemma ampName_eq r w : ampName r w = "V"%char :: showNN r ++ "_"%char :: w.
Proof. reflexivity. Qed.

Lemma skipn_length_app {A} (a b : list A) : skipn (length a) (a ++ b) = b.
Proof. induction a; auto. Qed.

(* the string after the first underscore *)
Lemma find_underscore r w : (0 <= r)%Z -> findChar "_" (ampName r w) = Some (S (length (showNN r))).
Proof.
  intros H. rewrite ampName_eq. apply (findChar_split "_" ("V"%char :: showNN r) w).
  intros [E|E]; [discriminate|]. now apply (showNN_lacks_underscore r H).
Qed.

Lemma atoi_show r w : (0 <= r)%Z -> atoi (showNN r ++ "_"%char :: w) = r.
Proof.
  intros H. unfold atoi. assert (E : showNN r = showInt r).
  { unfold showInt. destruct (Z.ltb_spec r 0); [lia|reflexivity]. }
  rewrite E, readInt_show; [reflexivity|]. reflexivity.
Qed.
Lemma ampName_not_flat r w : (0 <= r)%Z -> ampName r w <> flatName.
Proof.
  intros H E. rewrite ampName_eq in E. unfold flatName in E. cbn [lit list_ascii_of_string] in E.
  destruct (showNN_spec r H) as (Hn & Hd & _). destruct (showNN r) as [|d ds]; [congruence|].
  cbn [app] in E. injection E as E _. subst d. cbn in Hd. discriminate.
Qed.

(* C31: for every rank and every wave name, the name the likelihood gives to the
   production amplitude yields back exactly this wave name and this rank *)
Theorem C31_round_trip : forall r w, (0 <= r)%Z ->
  waveNameForProdAmp (ampName r w) = w /\ rankOfProdAmp (ampName r w) = Some r.
Proof.
  intros r w H. split.
  - unfold waveNameForProdAmp. rewrite find_underscore by exact H. rewrite ampName_eq.
    cbn [Ascii.eqb negb]. replace (S (length (showNN r)) + 1) with (length ("V"%char :: showNN r ++ ["_"%char])) by (cbn; rewrite app_length; cbn; lia).
    replace ("V"%char :: showNN r ++ "_"%char :: w) with (("V"%char :: showNN r ++ ["_"%char]) ++ w) by (cbn; now rewrite <- app_assoc).
    apply skipn_length_app.
  - unfold rankOfProdAmp. destruct (str_eqb (ampName r w) flatName) eqn:E.
    + apply str_eqb_eq in E. now apply ampName_not_flat in E.
    + rewrite ampName_eq. now rewrite atoi_show.
Qed.
(* the flat wave *)
Theorem C31_flat_wave : waveNameForProdAmp flatName = lit "flat" /\ rankOfProdAmp flatName = Some (-1)%Z.
Proof. now vm_compute. Qed.
(* two production amplitudes with the same name have the same rank and the same wave *)
Theorem C31_names_unique : forall r w r' w', (0 <= r)%Z -> (0 <= r')%Z ->
  ampName r w = ampName r' w' -> r = r' /\ w = w'.
Proof.
  intros r w r' w' H H' E. destruct (C31_round_trip r w H) as [A B]. destruct (C31_round_trip r' w' H') as [A' B'].
  rewrite E in A, B. rewrite A in A'. rewrite B in B'. split; congruence.
Qed.
Example C31_two_digit_rank :
  waveNameForProdAmp (ampName 12 (lit "[1-,1++,0+]=[rho(770)0[0,1]pi-]")) = lit "[1-,1++,0+]=[rho(770)0[0,1]pi-]" /\
  rankOfProdAmp (ampName 12 (lit "x")) = Some 12%Z /\ ampName 12 (lit "x") = lit "V12_x".
Proof. now vm_compute. Qed.
(* strings that do not follow the convention yield the empty wave name *)
Theorem C31_malformed_names : forall s, (exists w, s = "V"%char :: w /\ In "_"%char w) \/ waveNameForProdAmp s = [].
Proof.
  intros [|c s]; [now right|]. unfold waveNameForProdAmp. destruct (Ascii.eqb c "V") eqn:E; [|now right].
  apply Ascii.eqb_eq in E. subst c. cbn [negb]. destruct (findChar "_" ("V"%char :: s)) eqn:F; [|now right].
  left. exists s. split; auto. apply findChar_some in F. destruct F as (a & b & Hs & _ & _).
  destruct a as [|x a]; cbn in Hs; injection Hs as Hx Hs; [discriminate|]. rewrite Hs. apply in_or_app. right. now left.
Qed.

(* ---------------- C54 ---------------- *)
(* the wave name inside a wave name or a parameter name *)
Inductive body : str -> str -> Prop :=
| B_wave : forall s, (forall c r, s = c :: r -> c <> "V"%char) -> body s s
| B_param : forall pre b, lacks "_" pre -> body ("V"%char :: pre ++ "_"%char :: b) b.

Inductive signChar : ascii -> Z -> Prop :=
| S_plus : signChar "+" 1
| S_minus : signChar "-" (-1).

(* the documented naming schemes: "flat"; "[IG,JPC,ME]..." where E is the last character
   before the first closing bracket; "IGJPCME..." where E is the seventh character *)
Inductive hasRefl : str -> Z -> Prop :=
| R_flat : hasRefl (lit "flat") 0
| R_new : forall q1 q2 t c rest e, lacks "," q1 -> lacks "," q2 ->
    lacks "]" (q1 ++ [","%char] ++ q2 ++ [","%char] ++ t ++ [c]) -> t <> [] -> signChar c e ->
    hasRefl (lit "[" ++ q1 ++ lit "," ++ q2 ++ lit "," ++ t ++ [c] ++ lit "]" ++ rest) e
| R_old : forall q c rest e, length q = 6 -> hd " "%char q <> "["%char -> signChar c e ->
    hasRefl (q ++ [c] ++ rest) e.

Definition sgn (c : option ascii) : option Z := match c with
      | Some c => if Ascii.eqb c "-" then Some (-1)%Z else if Ascii.eqb c "+" then Some 1%Z else None
      | None => None end.
Lemma sgn_spec c e : sgn (Some c) = Some e <-> signChar c e.
Proof.
  unfold sgn. split.
  - destruct (Ascii.eqb c "-") eqn:E1; [apply Ascii.eqb_eq in E1; subst; intros [= <-]; constructor|].
    destruct (Ascii.eqb c "+") eqn:E2; [apply Ascii.eqb_eq in E2; subst; intros [= <-]; constructor|discriminate].
  - intros []; reflexivity.
Qed.

Lemma lacks_app c a b : lacks c (a ++ b) <-> lacks c a /\ lacks c b.
Proof. unfold lacks. rewrite in_app_iff. tauto. Qed.
Lemma lacks_one c x : lacks c [x] <-> x <> c.
Proof. unfold lacks. cbn. split; intros H; [intros E; apply H; now left|intros [E|[]]; auto]. Qed.

Lemma nth_error_shift {A} (p b : list A) i : nth_error (p ++ b) (length p + i) = nth_error b i.
Proof. rewrite nth_error_app2 by lia. f_equal. lia. Qed.
Lemma findFrom_shift c p b i : findFrom c (p ++ b) (length p + i) = match findFrom c b i with Some k => Some (length p + k) | None => None end.
Proof.
  unfold findFrom. rewrite skipn_app. replace (length p + i - length p) with i by lia.
  rewrite skipn_all2 by lia. cbn [app]. destruct (findChar c (skipn i b)); [f_equal; lia|reflexivity].
Qed.
Lemma ltb_shift p a b : (p + a <? p + b) = (a <? b).
Proof. destruct (Nat.ltb_spec a b); [apply Nat.ltb_lt|apply Nat.ltb_ge]; lia. Qed.

(* the part of the function that works on the wave name *)
Definition bodyRefl (b : str) : option Z :=
  if str_eqb b (lit "flat") then Some 0%Z
  else match nth_error b 0 with
  | Some c =>
      if Ascii.eqb c "[" then
        match findFrom "]" b 1 with
        | None => None
        | Some endQn =>
        match findFrom "," b 1 with
        | None => None
        | Some firstSplit =>
            match findFrom "," b (firstSplit + 1) with
            | None => None
            | Some secondSplit =>
                if endQn <? secondSplit then None
                else if endQn - secondSplit <? 3 then None
                else sgn (nth_error b (endQn - 1))
            end
        end end
      else sgn (nth_error b 6)
  | None => None
  end.

Definition reflAt (name : str) (waveNamePos : nat) : option Z :=
  if str_eqb (skipn waveNamePos name) (lit "flat") then Some 0%Z
  else match nth_error name waveNamePos with
  | Some c =>
      if Ascii.eqb c "[" then
        match findFrom "]" name (waveNamePos + 1) with
        | None => None
        | Some endQn =>
        match findFrom "," name (waveNamePos + 1) with
        | None => None
        | Some firstSplit =>
            match findFrom "," name (firstSplit + 1) with
            | None => None
            | Some secondSplit =>
                if endQn <? secondSplit then None
                else if endQn - secondSplit <? 3 then None
                else sgn (nth_error name (endQn - 1))
            end
        end end
      else sgn (nth_error name (waveNamePos + 6))
  | None => None
  end.
Lemma getRefl_at name : getReflectivity name =
  match (match name with
         | c :: _ => if Ascii.eqb c "V" then match findChar "_" name with Some p => Some (p + 1) | None => None end else Some 0
         | [] => Some 0 end) with Some p => reflAt name p | None => None end.
Proof. reflexivity. Qed.

Lemma reflAt_body p b : reflAt (p ++ b) (length p) = bodyRefl b.
Proof.
  unfold reflAt, bodyRefl. rewrite skipn_length_app.
  destruct (str_eqb b (lit "flat")); [reflexivity|].
  replace (nth_error (p ++ b) (length p)) with (nth_error b 0) by (rewrite <- (nth_error_shift p b 0); f_equal; lia).
  destruct (nth_error b 0) as [c|]; [|reflexivity].
  destruct (Ascii.eqb c "["); [|now rewrite nth_error_shift].
  rewrite !findFrom_shift.
  destruct (findFrom "]" b 1) as [e|] eqn:Ee; [|reflexivity].
  destruct (findFrom "," b 1) as [f|]; [|reflexivity].
  replace (length p + f + 1) with (length p + (f + 1)) by lia. rewrite findFrom_shift.
  destruct (findFrom "," b (f + 1)) as [s|]; [|reflexivity].
  rewrite ltb_shift. destruct (e <? s); [reflexivity|].
  replace (length p + e - (length p + s)) with (e - s) by lia. destruct (e - s <? 3); [reflexivity|].
  assert (1 <= e). { unfold findFrom in Ee. destruct (findChar "]" (skipn 1 b)); [injection Ee as <-; lia|discriminate]. }
  replace (length p + e - 1) with (length p + (e - 1)) by lia. now rewrite nth_error_shift.
Qed.

Lemma getRefl_param pre b : lacks "_" pre -> getReflectivity ("V"%char :: pre ++ "_"%char :: b) = bodyRefl b.
Proof.
  intros H. rewrite getRefl_at.
  assert (E : Ascii.eqb "V" "V" = true) by reflexivity. rewrite E.
  assert (F : findChar "_" ("V"%char :: pre ++ "_"%char :: b) = Some (S (length pre))).
  { apply (findChar_split "_" ("V"%char :: pre) b). intros [Hx|Hx]; [discriminate|auto]. }
  rewrite F. replace (S (length pre) + 1) with (length ("V"%char :: pre ++ ["_"%char])) by (cbn; rewrite app_length; cbn; lia).
  rewrite <- (reflAt_body ("V"%char :: pre ++ ["_"%char]) b). f_equal. cbn. now rewrite <- app_assoc.
Qed.
Lemma getRefl_wave s : (forall c r, s = c :: r -> c <> "V"%char) -> getReflectivity s = bodyRefl s.
Proof.
  intros H. rewrite getRefl_at. destruct s as [|c s]; [apply (reflAt_body [] [])|].
  destruct (Ascii.eqb c "V") eqn:E; [apply Ascii.eqb_eq in E; now apply (H c s) in E|]. apply (reflAt_body [] (c :: s)).
Qed.

Lemma findFrom_some c s i k : findFrom c s i = Some k <-> exists a b, skipn i s = a ++ c :: b /\ lacks c a /\ k = i + length a.
Proof.
  unfold findFrom. split.
  - destruct (findChar c (skipn i s)) as [j|] eqn:E; [|discriminate]. intros [= <-].
    apply findChar_some in E. destruct E as (a & b & E & Ha & Hl). exists a, b. split; [exact E|]. split; [exact Ha|]. now rewrite Hl.
  - intros (a & b & E & Ha & ->). rewrite E, findChar_split; auto.
Qed.

Lemma cut {A} (x y : list A) c d b1 b2 : x ++ c :: b1 = y ++ d :: b2 -> length x <= length y ->
  (x = y /\ c = d /\ b1 = b2) \/ exists m, y = x ++ c :: m /\ b1 = m ++ d :: b2.
Proof.
  revert y. induction x as [|u x IH]; intros [|v y] E L; cbn in *.
  - injection E as -> ->. now left.
  - injection E as -> ->. right. now exists y.
  - lia.
  - injection E as -> E. destruct (IH y E) as [(-> & -> & ->)|(m & -> & ->)]; [lia|now left|right; now exists m].
Qed.

Lemma bodyRefl_spec b e : bodyRefl b = Some e <-> hasRefl b e.
Proof.
  split.
  - unfold bodyRefl. destruct (str_eqb b (lit "flat")) eqn:Ef; [apply str_eqb_eq in Ef; subst; intros [= <-]; constructor|].
    destruct b as [|c b]; cbn [nth_error]; [discriminate|].
    destruct (Ascii.eqb c "[") eqn:Eb.
    + apply Ascii.eqb_eq in Eb. subst c.
      destruct (findFrom "]" _ 1) as [en|] eqn:E1; [|discriminate].
      destruct (findFrom "," _ 1) as [f|] eqn:E2; [|discriminate].
      destruct (findFrom "," _ (f + 1)) as [s2|] eqn:E3; [|discriminate].
      destruct (Nat.ltb_spec en s2) as [|L1]; [discriminate|].
      destruct (Nat.ltb_spec (en - s2) 3) as [|L2]; [discriminate|].
      apply findFrom_some in E1, E2, E3.
      destruct E1 as (x & rest & Hx & Lx & Kx). destruct E2 as (q1 & r1 & Hq1 & Lq1 & Kq1). destruct E3 as (q2 & r2 & Hq2 & Lq2 & Kq2).
      cbn [skipn] in Hx, Hq1. subst b.
      assert (E4 : skipn (f + 1) ("["%char :: x ++ "]"%char :: rest) = r1).
      { rewrite Hq1. subst f. replace ("["%char :: q1 ++ ","%char :: r1) with (("["%char :: q1 ++ [","%char]) ++ r1) by (cbn; now rewrite <- app_assoc).
        replace (1 + length q1 + 1) with (length ("["%char :: q1 ++ [","%char])) by (cbn; rewrite app_length; cbn; lia). apply skipn_length_app. }
      rewrite E4 in Hq2. subst r1.
      symmetry in Hq1. destruct (cut _ _ _ _ _ _ Hq1) as [(_ & K & _)|(m & -> & Hm)]; [lia|discriminate|].
      rewrite app_length in Kx. cbn [length] in Kx.
      destruct (cut _ _ _ _ _ _ Hm) as [(_ & K & _)|(m' & -> & Hm')]; [lia|discriminate|].
      rewrite app_length in Kx. cbn [length] in Kx.
      destruct (exists_last (l := m')) as (t & c & ->); [intros ->; cbn in Kx; lia|].
      rewrite app_length in Kx. cbn [length] in Kx.
      intros Hs.
      set (p := "["%char :: q1 ++ ","%char :: q2 ++ ","%char :: t).
      assert (Hall : "["%char :: (q1 ++ ","%char :: q2 ++ ","%char :: t ++ [c]) ++ "]"%char :: rest = p ++ c :: "]"%char :: rest).
      { unfold p. cbn. f_equal. rewrite <- !app_assoc. f_equal. cbn. f_equal. rewrite <- !app_assoc. f_equal. cbn. f_equal. now rewrite <- !app_assoc. }
      rewrite Hall in Hs.
      replace (en - 1) with (length p + 0) in Hs by (unfold p; do 4 (cbn [length app]; rewrite ?app_length); cbn [length]; lia).
      rewrite nth_error_shift in Hs. cbn [nth_error] in Hs. apply sgn_spec in Hs.
      replace ("["%char :: (q1 ++ ","%char :: q2 ++ ","%char :: t ++ [c]) ++ "]"%char :: rest) with
        (lit "[" ++ q1 ++ lit "," ++ q2 ++ lit "," ++ t ++ [c] ++ lit "]" ++ rest).
      2: { cbn. f_equal. rewrite <- app_assoc. f_equal. cbn. f_equal. rewrite <- app_assoc. f_equal. cbn. f_equal. now rewrite <- app_assoc. }
      apply R_new; auto. intros ->. cbn in Kx. lia.
    + destruct b as [|c1 [|c2 [|c3 [|c4 [|c5 [|c6 b]]]]]]; cbn [nth_error sgn]; try discriminate.
      intros Hs. apply sgn_spec in Hs.
      apply (R_old [c; c1; c2; c3; c4; c5] c6 b e); [reflexivity| |exact Hs].
      cbn. now apply Ascii.eqb_neq.
  - intros [|q1 q2 t c rest e' L1 L2 L3 Ht Hs|q c rest e' Hl Hh Hs].
    + reflexivity.
    + unfold bodyRefl.
      destruct (str_eqb _ (lit "flat")) eqn:Ef; [apply str_eqb_eq in Ef; discriminate|].
      rewrite !lacks_app, !lacks_one in L3. destruct L3 as (M1 & M2 & M3 & M4 & M5 & M6).
      cbn [lit list_ascii_of_string app nth_error].
      assert (Eb : Ascii.eqb "[" "[" = true) by reflexivity. rewrite Eb. clear Eb.
      assert (E1 : findFrom "]" ("["%char :: q1 ++ ","%char :: q2 ++ ","%char :: t ++ c :: "]"%char :: rest) 1 = Some (length q1 + length q2 + length t + 4)).
      { apply findFrom_some. exists (q1 ++ [","%char] ++ q2 ++ [","%char] ++ t ++ [c]), rest. cbn [skipn]. split.
        - cbn. rewrite <- app_assoc. f_equal. cbn. f_equal. rewrite <- app_assoc. f_equal. cbn. f_equal. now rewrite <- app_assoc.
        - split; [rewrite !lacks_app, !lacks_one; tauto|]. do 4 (cbn [length app]; rewrite ?app_length). cbn [length]. lia. }
      rewrite E1.
      assert (E2 : findFrom "," ("["%char :: q1 ++ ","%char :: q2 ++ ","%char :: t ++ c :: "]"%char :: rest) 1 = Some (length q1 + 1)).
      { apply findFrom_some. eexists q1, _. cbn [skipn]. split; [reflexivity|]. split; [auto|lia]. }
      rewrite E2.
      assert (E3 : findFrom "," ("["%char :: q1 ++ ","%char :: q2 ++ ","%char :: t ++ c :: "]"%char :: rest) (length q1 + 1 + 1) = Some (length q1 + length q2 + 2)).
      { apply findFrom_some. exists q2, (t ++ c :: "]"%char :: rest). split; [|split; [auto|lia]].
        replace ("["%char :: q1 ++ ","%char :: q2 ++ ","%char :: t ++ c :: "]"%char :: rest) with (("["%char :: q1 ++ [","%char]) ++ q2 ++ ","%char :: t ++ c :: "]"%char :: rest) by (cbn; now rewrite <- app_assoc).
        replace (length q1 + 1 + 1) with (length ("["%char :: q1 ++ [","%char])) by (cbn; rewrite app_length; cbn; lia). apply skipn_length_app. }
      rewrite E3.
      assert (0 < length t) by (destruct t; [congruence|cbn; lia]).
      destruct (Nat.ltb_spec (length q1 + length q2 + length t + 4) (length q1 + length q2 + 2)); [lia|].
      destruct (Nat.ltb_spec (length q1 + length q2 + length t + 4 - (length q1 + length q2 + 2)) 3); [lia|].
      set (p := "["%char :: q1 ++ ","%char :: q2 ++ ","%char :: t).
      replace ("["%char :: q1 ++ ","%char :: q2 ++ ","%char :: t ++ c :: "]"%char :: rest) with (p ++ c :: "]"%char :: rest).
      2: { unfold p. cbn. f_equal. rewrite <- app_assoc. f_equal. cbn. f_equal. rewrite <- app_assoc. f_equal. }
      replace (length q1 + length q2 + length t + 4 - 1) with (length p + 0) by (unfold p; do 4 (cbn [length app]; rewrite ?app_length); cbn [length]; lia).
      rewrite nth_error_shift. cbn [nth_error]. now apply sgn_spec.
    + unfold bodyRefl. destruct (str_eqb _ (lit "flat")) eqn:Ef.
      { apply str_eqb_eq in Ef. apply (f_equal (@length _)) in Ef. rewrite !app_length, Hl in Ef. cbn in Ef. lia. }
      destruct q as [|a q]; [discriminate|]. cbn [hd] in Hh. cbn [app nth_error].
      apply Ascii.eqb_neq in Hh. rewrite Hh.
      cbn [length] in Hl.
      assert (Hn : nth_error (q ++ c :: rest) 5 = Some c) by (rewrite nth_error_app2 by lia; replace (5 - length q) with 0 by lia; reflexivity).
      change (sgn (nth_error (q ++ c :: rest) 5) = Some e'). rewrite Hn. now apply sgn_spec.
Qed.

(* C54: getReflectivity returns e exactly for names of the documented forms with that
   reflectivity; on all others it throws (or reads behind the end of the string) *)
Theorem C54_reflectivity_of_names : forall name e,
  getReflectivity name = Some e <-> exists b, body name b /\ hasRefl b e.
Proof.
  intros name e. split.
  - intros H. destruct name as [|c name].
    + exists []. split; [constructor; discriminate|]. rewrite getRefl_wave in H by discriminate. now apply bodyRefl_spec.
    + destruct (Ascii.eqb c "V") eqn:E.
      * apply Ascii.eqb_eq in E. subst c.
        destruct (findChar "_" ("V"%char :: name)) as [k|] eqn:F.
        2: { rewrite getRefl_at in H. assert (EV : Ascii.eqb "V" "V" = true) by reflexivity. rewrite EV, F in H. discriminate. }
        apply findChar_some in F. destruct F as (a & b & Hs & La & _).
        destruct a as [|x a]; cbn in Hs; injection Hs as Hx Hs; [discriminate|]. subst x name.
        assert (lacks "_" a) by (intros Hi; apply La; now right).
        exists b. split; [now constructor|]. rewrite getRefl_param in H by auto. now apply bodyRefl_spec.
      * apply Ascii.eqb_neq in E. assert (K : forall c' r, c :: name = c' :: r -> c' <> "V"%char) by (intros ? ? [= <- _]; auto).
        exists (c :: name). split; [now constructor|]. rewrite getRefl_wave in H by auto. now apply bodyRefl_spec.
  - intros (b & Hb & Hr). apply bodyRefl_spec in Hr. destruct Hb.
    + now rewrite getRefl_wave.
    + now rewrite getRefl_param.
Qed.
(* a wave and all its production amplitudes have the same reflectivity *)
Theorem C54_same_for_production_amplitude : forall r w, (0 <= r)%Z -> (forall c t, w = c :: t -> c <> "V"%char) ->
  getReflectivity (ampName r w) = getReflectivity w.
Proof.
  intros r w H Hw. rewrite ampName_eq, getRefl_param by now apply showNN_lacks_underscore. now rewrite getRefl_wave.
Qed.
Theorem C54_flat_wave : getReflectivity flatName = Some 0%Z /\ getReflectivity (lit "flat") = Some 0%Z.
Proof. now vm_compute. Qed.
Example C54_ex : getReflectivity (lit "[1-,2-+,1-]=[f2(1270)0[0,2]pi-]") = Some (-1)%Z /\
  getReflectivity (lit "V2_[1-,2-+,10+]=[f2(1270)0[0,2]pi-]") = Some 1%Z /\
  getReflectivity (lit "1-1++0+rho770_01_pi-") = Some 1%Z /\
  getReflectivity (lit "[1-,2-+]=[f2]") = None /\ getReflectivity (lit "[1-,2-+,+]=[f2]") = None.
Proof. now vm_compute. Qed.
