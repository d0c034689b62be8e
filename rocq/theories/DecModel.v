(* Model of decimal output and input of integers by C++ streams
   (std::ostream << int, std::istream >> int), used by the models of the code of
   /repo that formats and parses integers. Models the C++ standard library. *)
From Coq Require Import String Ascii List ZArith NArith Bool Lia.
From Verif Require Import PathModel StrModel.
Import ListNotations.
Open Scope Z_scope.
Open Scope list_scope.

(* C++ / Python conversion of numbers to decimal text: a digit *)
Definition digitChar (d : Z) : ascii := ascii_of_N (Z.to_N (48 + d)).
(* C++ isdigit *)
Definition isDigit (c : ascii) : bool := let n := N_of_ascii c in (N.leb 48 n && N.leb n 57)%N.
(* C++ value of a digit character *)
Definition digitVal (c : ascii) : Z := Z.of_N (N_of_ascii c) - 48.

(* C++ operator << of an integer / Python str(int): loop *)
Fixpoint showF (fuel : nat) (n : Z) (acc : str) : str :=
  match fuel with
  | O => acc
  | S f =>
      let acc' := digitChar (n mod 10) :: acc in
      if n / 10 =? 0 then acc' else showF f (n / 10) acc'
  end.
(* decimal digits of n >= 0 *)
Definition showNN (n : Z) : str := showF (S (Z.to_nat n)) n [].
(* operator<< for int *)
Definition showInt (z : Z) : str := if z <? 0 then "-"%char :: showNN (- z) else showNN z.

(* value of a digit string *)
Definition digitsVal (s : str) : Z := fold_left (fun a c => 10 * a + digitVal c) s 0.

(* maximal prefix of characters satisfying f, and the rest *)
(* C++ formatted input: longest prefix of accepted characters *)
Fixpoint span (f : ascii -> bool) (s : str) : str * str :=
  match s with
  | [] => ([], [])
  | c :: r => if f c then let (a, b) := span f r in (c :: a, b) else ([], s)
  end.

(* white space skipped by formatted input *)
(* C++ isspace, skipped by formatted input *)
Definition isSpace (c : ascii) : bool :=
  let n := N_of_ascii c in (N.eqb n 32 || (N.leb 9 n && N.leb n 13))%N.
(* C++ std::ws *)
Definition skipWs (s : str) : str := snd (span isSpace s).

(* operator>> for int (values beyond the range of int not modelled):
   optional sign, then at least one digit; None = failbit *)
(* C++ operator >> for int *)
Definition readInt (s : str) : option (Z * str) :=
  let s := skipWs s in
  let '(neg, s) := match s with
                   | c :: r => if Ascii.eqb c "-" then (true, r)
                               else if Ascii.eqb c "+" then (false, r) else (false, s)
                   | [] => (false, s)
                   end in
  let (d, r) := span isDigit s in
  match d with
  | [] => None
  | _ => Some ((if neg then - digitsVal d else digitsVal d), r)
  end.

(* operator>> for std::string *)
Definition readStr (s : str) : option (str * str) :=
  let (w, r) := span (fun c => negb (isSpace c)) (skipWs s) in
  match w with [] => None | _ => Some (w, r) end.

(* ---- facts ---- *)
Lemma digit_char_ok d : 0 <= d < 10 -> isDigit (digitChar d) = true /\ digitVal (digitChar d) = d.
Proof.
  intros H. assert (d = 0 \/ d = 1 \/ d = 2 \/ d = 3 \/ d = 4 \/ d = 5 \/ d = 6 \/ d = 7 \/ d = 8 \/ d = 9) by lia.
  repeat (destruct H0 as [->|H0]; [split; reflexivity|]). subst; split; reflexivity.
Qed.

Lemma showF_spec f : forall n acc, 0 <= n -> (Z.to_nat n < f)%nat ->
  exists ds, showF f n acc = ds ++ acc /\ ds <> [] /\ forallb isDigit ds = true /\ digitsVal ds = n.
Proof.
  induction f as [|f IH]; intros n acc Hn Hf; [lia|]. cbn [showF].
  assert (D : 0 <= n mod 10 < 10) by (apply Z.mod_pos_bound; lia).
  destruct (digit_char_ok _ D) as [D1 D2].
  destruct (Z.eqb_spec (n / 10) 0) as [E|E].
  - exists [digitChar (n mod 10)]. split; [reflexivity|]. split; [discriminate|]. split.
    + cbn [forallb]. rewrite D1; auto.
    + unfold digitsVal. cbn [fold_left]. rewrite D2. pose proof (Z.div_mod n 10). lia.
  - assert (H1 : 0 <= n / 10) by (apply Z.div_pos; lia).
    assert (H2 : n / 10 < n) by (apply Z.div_lt; [destruct (Z.eq_dec n 0); [subst; cbn in E; lia|lia]|lia]).
    destruct (IH (n / 10) (digitChar (n mod 10) :: acc) H1) as (ds & E1 & E2 & E3 & E4); [lia|].
    exists (ds ++ [digitChar (n mod 10)]). split; [rewrite E1, <- app_assoc; reflexivity|].
    split; [destruct ds; discriminate|]. split.
    + rewrite forallb_app, E3. cbn [forallb]. rewrite D1; auto.
    + unfold digitsVal in *. rewrite fold_left_app, E4. cbn [fold_left]. rewrite D2.
      pose proof (Z.div_mod n 10). lia.
Qed.

Lemma showNN_spec n : 0 <= n -> showNN n <> [] /\ forallb isDigit (showNN n) = true /\ digitsVal (showNN n) = n.
Proof.
  intros H. destruct (showF_spec (S (Z.to_nat n)) n [] H) as (ds & E1 & E2 & E3 & E4); [lia|].
  unfold showNN. rewrite E1, app_nil_r. auto.
Qed.

Lemma showNN_inj a b : 0 <= a -> 0 <= b -> showNN a = showNN b -> a = b.
Proof.
  intros Ha Hb H. destruct (showNN_spec a Ha) as (_ & _ & A), (showNN_spec b Hb) as (_ & _ & B). congruence.
Qed.

Lemma span_app f a c r : forallb f a = true -> f c = false -> span f (a ++ c :: r) = (a, c :: r).
Proof.
  induction a as [|x a IH]; cbn [forallb app span]; intros H Hc.
  - rewrite Hc; auto.
  - apply andb_true_iff in H as [H1 H2]. rewrite H1, IH; auto.
Qed.
Lemma span_all f a : forallb f a = true -> span f a = (a, []).
Proof.
  induction a as [|x a IH]; cbn [forallb span]; intros H; auto.
  apply andb_true_iff in H as [H1 H2]. rewrite H1, IH; auto.
Qed.

Lemma span_split f s : let (a, b) := span f s in s = a ++ b /\ forallb f a = true /\
  match b with [] => True | c :: _ => f c = false end.
Proof.
  induction s as [|c s IH]; cbn [span]; auto.
  destruct (f c) eqn:E.
  - destruct (span f s) as [a b]. destruct IH as (-> & H & H'). cbn [forallb app]. rewrite E; auto.
  - cbn. auto.
Qed.

(* characters that end a number *)
(* C++ formatted input: where reading a number stops *)
Definition ends (r : str) : Prop := match r with [] => True | c :: _ => isDigit c = false end.

Lemma span_end f a r : forallb f a = true -> match r with [] => True | c :: _ => f c = false end ->
  span f (a ++ r) = (a, r).
Proof. intros H Hr. destruct r; [rewrite app_nil_r; apply span_all; auto|apply span_app; auto]. Qed.

Lemma digit_not_space c : isDigit c = true -> isSpace c = false /\ Ascii.eqb c "-" = false /\ Ascii.eqb c "+" = false.
Proof.
  destruct c as [[] [] [] [] [] [] [] []]; cbn; intros H; try discriminate; repeat split; reflexivity.
Qed.

Lemma skipWs_nonspace c s : isSpace c = false -> skipWs (c :: s) = c :: s.
Proof. intros H; unfold skipWs; cbn [span]; rewrite H; auto. Qed.
Lemma skipWs_space c s : isSpace c = true -> skipWs (c :: s) = skipWs s.
Proof. intros H; unfold skipWs; cbn [span]; rewrite H. destruct (span isSpace s); auto. Qed.

Lemma readInt_show z r : ends r -> readInt (showInt z ++ r) = Some (z, r).
Proof.
  intros Hr. unfold showInt. destruct (Z.ltb_spec z 0) as [Hz|Hz].
  - destruct (showNN_spec (- z)) as (N & D & V); [lia|]. cbn [app]. unfold readInt.
    rewrite skipWs_nonspace by reflexivity. cbn [Ascii.eqb Bool.eqb].
    change (Ascii.eqb "-" "-") with true. cbv iota beta.
    rewrite span_end; auto. destruct (showNN (- z)); [congruence|]. rewrite V. do 2 f_equal. lia.
  - destruct (showNN_spec z Hz) as (N & D & V). unfold readInt.
    destruct (showNN z) as [|c ds] eqn:E; [congruence|]. cbn [app].
    assert (Hc : isDigit c = true) by (cbn [forallb] in D; apply andb_true_iff in D; tauto).
    destruct (digit_not_space c Hc) as (S1 & S2 & S3).
    rewrite (skipWs_nonspace c _ S1), S2, S3. change (c :: ds ++ r) with ((c :: ds) ++ r).
    rewrite span_end; auto. rewrite V; auto.
Qed.

Lemma readInt_ws c s : isSpace c = true -> readInt (c :: s) = readInt s.
Proof. intros H. unfold readInt. rewrite skipWs_space; auto. Qed.

Lemma readStr_ws c s : isSpace c = true -> readStr (c :: s) = readStr s.
Proof. intros H. unfold readStr. rewrite skipWs_space; auto. Qed.

Lemma readStr_word w r : w <> [] -> forallb (fun c => negb (isSpace c)) w = true ->
  match r with [] => True | c :: _ => isSpace c = true end -> readStr (w ++ r) = Some (w, r).
Proof.
  intros Hw F Hr. unfold readStr. destruct w as [|c w]; [congruence|]. cbn [app].
  assert (isSpace c = false) by (cbn [forallb] in F; apply andb_true_iff in F as [F _]; apply negb_true_iff in F; auto).
  rewrite skipWs_nonspace by auto. change (c :: w ++ r) with ((c :: w) ++ r).
  rewrite span_end; auto. destruct r; auto. rewrite Hr; auto.
Qed.

Lemma showInt_inj a b : showInt a = showInt b -> a = b.
Proof.
  intros H. pose proof (readInt_show a [] I) as A. pose proof (readInt_show b [] I) as B.
  rewrite app_nil_r in A, B. congruence.
Qed.
