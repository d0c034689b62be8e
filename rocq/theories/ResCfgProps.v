(* C88: a fit written to a configuration file is read back as the same fit. *)
From Coq Require Import Ascii String List Bool Arith ZArith Lia.
From Verif Require Import ResCfgModel ResCfgSpec ResCfgProofs ResCfgProofs2 ResCfgProofs3 ResCfgProofs4.
Import ListNotations.
Open Scope list_scope.
Open Scope nat_scope.

(* Writing a fit succeeds, the file is a document, and reading it gives the same quality, free parameters, bins (mass limits
   below zero are none) and model: components, channels, formulas, parameters with limits and steps, and as values to start
   with the parameters, couplings and branchings of the fit. *)
Theorem C88_round_trip {D : Type} (L : lib D) useBr input m f fp fe q free :
  lawful L -> goodInput input -> goodModel L useBr input fp m -> mFsmd m = Some f -> NoDup (map fst q) ->
  exists calls doc input' m' fp' fe',
    writeConfig L input m fp fe q free = Some calls /\ loadFile calls = Some doc /\
    readFitQuality L doc = Some q /\ readFreeParameters doc = Some free /\
    readInput L doc = Some input' /\ Forall2 (sameBin L) input input' /\
    readModel L useBr input' doc = Some (m', fp', fe') /\ sameFit m m' fp fe fp' fe'.
Proof.
  intros Law Gi Gm Ef Nq. pose proof Gm as (_ & _ & _ & Gf). destruct (Gf f Ef) as (_ & Hl & _).
  destruct (file_tree L Law input m f fp fe q free Ef) as (e & E1 & E2); [intros S; rewrite S in Hl; exact Hl|].
  assert (Hm : get (tRoot L input m f fp fe q free) "model" = Some (tModel L m f fp fe)) by (destruct free; reflexivity).
  destruct (read_model L Law useBr input m f fp fe (tRoot L input m f fp fe q free) Hm Gm Ef) as (m' & fp' & fe' & R & Sf).
  exists e, (tRoot L input m f fp fe q free), (map (binRead L) input), m', fp', fe'.
  split; [exact E1|]. split; [exact E2|]. split; [|split; [|split; [|split; [|split; [exact R|exact Sf]]]]].
  - unfold readFitQuality. replace (get (tRoot L input m f fp fe q free) "fitquality") with (Some (tQuality L q)) by reflexivity.
    apply (read_qualities L Law q [] Nq). intros x _ [].
  - unfold readFreeParameters. destruct free as [|x free]; [reflexivity|].
    replace (get (tRoot L input m f fp fe q (x :: free)) "freeparameters") with (Some (YSeq (map YScalar (x :: free)))) by reflexivity.
    cbn [map]. apply (all_texts (x :: free)).
  - unfold readInput, field. replace (get (tRoot L input m f fp fe q free) "input") with (Some (YSeq (map (tBin L) input))) by (destruct free; reflexivity).
    cbn [bindO asSeq]. apply (read_bins L Law). exact Gi.
  - clear. induction input as [|b l IH]; constructor; [apply sameBin_read|exact IH].
Qed.

(* The hypothesis on components is met by what the constructor makes, if the normalised branching ratios have the sum one
   and dividing by one changes nothing. *)
Theorem C88_constructed {D : Type} (L : lib D) useBr nb id name k ps chans c :
  construct L useBr nb id name k ps chans = Some c ->
  (forall x, numDiv L x (numOne L) = x) ->
  (forall r, (exists l a b, cKind c = DynamicWidth r l a b) \/ (exists ig, cKind c = IntegralWidth r ig) -> fold_left (numAdd L) r (numZero L) = numOne L) ->
  constructed L useBr nb c.
Proof.
  intros H Hd Hs.
  assert (Nr : forall r, fold_left (numAdd L) r (numZero L) = numOne L -> normalised L r = r).
  { intros r E. unfold normalised. rewrite E. rewrite (map_ext _ (fun x => x)); [apply map_id|exact Hd]. }
  unfold constructed. unfold construct in H |- *. destruct (mapChannels useBr chans) as [m|] eqn:Em; [|discriminate].
  destruct k as [|r l a b|r ig| |l a b e|tm l a b e|ig e|tm ig e];
    [ | destruct (_ || _) eqn:G; [discriminate|] | destruct (_ || _) eqn:G; [discriminate|] | destruct (_ =? 1) eqn:G; [|discriminate] | destruct (_ =? 1) eqn:G; [|discriminate]
    | destruct (_ && _) eqn:G; [|discriminate] | destruct (_ =? 1) eqn:G; [|discriminate] | destruct (_ && _) eqn:G; [|discriminate] ];
    (destruct (list_eq_dec string_dec _ _) as [En|] eqn:Ed; [|discriminate]); injection H as <-; cbn [cId cName cKind cPars cChans cMaps] in *; rewrite Em.
  all: try (rewrite ?G; rewrite Ed; reflexivity).
  - assert (X : normalised L (normalised L r) = normalised L r) by (apply Nr, Hs; left; eauto). rewrite X.
    assert (Ln : length (normalised L r) = length r) by apply map_length. rewrite Ln, G.
    cbn [defaultNames] in *. rewrite Ed. reflexivity.
  - assert (X : normalised L (normalised L r) = normalised L r) by (apply Nr, Hs; right; eauto). rewrite X.
    assert (Ln : length (normalised L r) = length r) by apply map_length. rewrite Ln, G.
    cbn [defaultNames] in *. rewrite Ed. reflexivity.
Qed.

(* resonanceFitExe.cc 286 and 296-304 accept a model without final-state mass dependence, 339 writes its result: the
   pointer is used without a check, the program ends after the minimisation. *)
Theorem C88_no_fsmd_refuted {D : Type} (L : lib D) input m fp fe q free : mFsmd m = None -> writeConfig L input m fp fe q free = None.
Proof. intros E. unfold writeConfig. rewrite E. reflexivity. Qed.

(* components.cc 267-289 should refuse decay channels that share their couplings in some bins only, but look at the third
   bin and later ones: here the second channel exists in bins 0 and 1, the first in bin 1 only. The second takes the
   coupling of the first, and there is no coupling whose bins contain bin 0. *)
Theorem C88_branching_bins_refuted :
  exists chans m, mapChannels true chans = Some m /\ goodChannels (D := Z) [InBin "a" [Wave "Q=b" 0 0] 0 0 []; InBin "b" [Wave "Q=a" 0 0; Wave "Q=b" 0 0] 0 0 []]%string%Z chans /\
    exists i ch b, nth_error chans i = Some ch /\ In b (snd ch) /\
      (forall ch', nth_error chans (nth (nth i (mCoup m) 0) (mFromCoup m) 0) = Some ch' -> ~ In b (snd ch')).
Proof.
  exists [("Q=a", [1]); ("Q=b", [0; 1])]%string, (Maps [0; 0] [0; 1] [0] [0; 1] [true; false]). split; [reflexivity|]. split.
  - split; [repeat constructor; cbn; intuition discriminate|]. intros ch [<-|[<-|[]]]; cbn [fst snd].
    + split; [discriminate|]. split.
      * intros [|[|i]] [|[|j]] a b Hij Ea Eb; cbn in Ea, Eb; try discriminate; try lia; destruct i; discriminate.
      * intros b. split.
        -- intros [<-|[]]. eexists. split; [reflexivity|]. cbn. auto.
        -- intros (x & Ex & Hx). destruct b as [|[|b]]; cbn in Ex; [injection Ex as <-; cbn in Hx; intuition discriminate|left; reflexivity|destruct b; discriminate].
    + split; [discriminate|]. split.
      * intros [|[|i]] [|[|j]] a b Hij Ea Eb; cbn in Ea, Eb; try discriminate; try lia; try (injection Ea as <-; injection Eb as <-; lia); try (destruct i; discriminate); destruct j; discriminate.
      * intros b. split.
        -- intros [<-|[<-|[]]]; eexists; (split; [reflexivity|]); cbn; auto.
        -- intros (x & Ex & Hx). destruct b as [|[|b]]; cbn in Ex; [left; reflexivity|right; left; reflexivity|destruct b; discriminate].
  - exists 1, ("Q=b", [0; 1])%string, 0. split; [reflexivity|]. split; [left; reflexivity|]. intros ch' E. cbn in E. injection E as <-. cbn. intuition discriminate.
Qed.

(* Decay channels with the same quantum numbers that exist in a common bin share their coupling. Here the second and the third
   channel exist in bin 0; the check of components.cc 267-278 does not look at the second bin of a channel, and the third
   channel gets a coupling of its own. *)
Theorem C88_shared_coupling_refuted :
  exists chans m, mapChannels true chans = Some m
    /\ goodChannels (D := Z) [InBin "a" [Wave "Q=b" 0 0; Wave "Q=c" 0 0] 0 0 []; InBin "b" [Wave "Q=a" 0 0; Wave "Q=b" 0 0] 0 0 []; InBin "c" [Wave "Q=c" 0 0] 0 0 []]%string%Z chans
    /\ exists i j ch ch' b, nth_error chans i = Some ch /\ nth_error chans j = Some ch' /\ beforeEq (fst ch) = beforeEq (fst ch') /\ In b (snd ch) /\ In b (snd ch')
      /\ nth_error (mCoup m) i <> nth_error (mCoup m) j.
Proof.
  exists [("Q=a", [1]); ("Q=b", [0; 1]); ("Q=c", [0; 2])]%string, (Maps [0; 0; 1] [0; 1; 2] [0; 2] [0; 1; 2] [true; false; true]). split; [reflexivity|]. split.
  - split; [repeat constructor; cbn; intuition discriminate|]. intros ch [<-|[<-|[<-|[]]]]; cbn [fst snd]; (split; [discriminate|]); split.
    + intros [|[|i]] [|[|j]] a b Hij Ea Eb; cbn in Ea, Eb; try discriminate; try lia; destruct i; discriminate.
    + intros b. split; [intros [<-|[]]; eexists; (split; [reflexivity|]); cbn; auto|]. intros (x & Ex & Hx).
      destruct b as [|[|[|b]]]; cbn in Ex; try (injection Ex as <-; cbn in Hx; intuition discriminate); [left; reflexivity|destruct b; discriminate].
    + intros [|[|i]] [|[|j]] a b Hij Ea Eb; cbn in Ea, Eb; try discriminate; try lia; try (injection Ea as <-; injection Eb as <-; lia); try (destruct i; discriminate); destruct j; discriminate.
    + intros b. split; [intros [<-|[<-|[]]]; eexists; (split; [reflexivity|]); cbn; auto|]. intros (x & Ex & Hx).
      destruct b as [|[|[|b]]]; cbn in Ex; [left; reflexivity|right; left; reflexivity|injection Ex as <-; cbn in Hx; intuition discriminate|destruct b; discriminate].
    + intros [|[|i]] [|[|j]] a b Hij Ea Eb; cbn in Ea, Eb; try discriminate; try lia; try (injection Ea as <-; injection Eb as <-; lia); try (destruct i; discriminate); destruct j; discriminate.
    + intros b. split; [intros [<-|[<-|[]]]; eexists; (split; [reflexivity|]); cbn; auto|]. intros (x & Ex & Hx).
      destruct b as [|[|[|b]]]; cbn in Ex; [left; reflexivity|injection Ex as <-; cbn in Hx; intuition discriminate|right; left; reflexivity|destruct b; discriminate].
  - exists 1, 2, ("Q=b", [0; 1])%string, ("Q=c", [0; 2])%string, 0. split; [reflexivity|]. split; [reflexivity|]. split; [reflexivity|]. split; [left; reflexivity|]. split; [left; reflexivity|]. cbn. discriminate.
Qed.

(* ---- an example ---- *)
Fixpoint ones (n : nat) : string := match n with 0 => EmptyString | S n => String "1"%char (ones n) end.
Definition showZ (z : Z) : string := if Z.ltb z 0 then String "n"%char (ones (Z.to_nat (- z))) else String "p"%char (ones (Z.to_nat z)).
Definition readZ (s : string) : option Z :=
  match s with
  | String c r => if Ascii.eqb c "p"%char then Some (Z.of_nat (String.length r)) else if Ascii.eqb c "n"%char then Some (- Z.of_nat (String.length r))%Z else None
  | EmptyString => None
  end.
Definition libZ : lib Z :=
  Lib Z showZ readZ showZ readZ (fun b => if b then "true" else "false")%string
    (fun s => if String.eqb s "true" then Some true else if String.eqb s "false" then Some false else None)%string
    0%Z 1%Z (-1)%Z (-100)%Z 1000%Z 5%Z Z.eqb (fun x => Z.leb 0 x) Z.gtb Z.add Z.div
    (fun s => if String.eqb s "[p0]+[p1]*x" then ["p0"; "p1"]%string else []).
Lemma length_ones n : String.length (ones n) = n.
Proof. induction n as [|n IH]; cbn; [reflexivity|]. rewrite IH. reflexivity. Qed.
Example C88_lawful_example : lawful libZ.
Proof.
  split; [|split; [|split]].
  - intros x. cbn. unfold showZ. destruct (Z.ltb_spec x 0); cbn; rewrite length_ones, Z2Nat.id by lia; f_equal; lia.
  - intros x. cbn. unfold showZ. destruct (Z.ltb_spec x 0); cbn; rewrite length_ones, Z2Nat.id by lia; f_equal; lia.
  - intros []; reflexivity.
  - intros x y. apply Z.eqb_eq.
Qed.
Definition par (n : string) : param Z := Param n 0%Z 0%Z false (-3)%Z true 9%Z false 2%Z.
Definition exInput : list (inBin Z) :=
  [InBin "first" [Wave "Q=a" 10 (-7); Wave "Q=b" (-1) 20] 3 1 ["s"]; InBin "second" [Wave "Q=a" 10 (-7); Wave "Q=b" (-1) 20] 4 2 []]%string%Z.
Definition exChans : list (string * list nat) := [("Q=a", [0; 1]); ("Q=b", [0; 1])]%string.
Definition exOne : component Z :=
  Component 0 "one"%string (DynamicWidth [1; 0; 0] [2; -1; 0] [3; 4; 5] [6; 7; 8])%Z [par "mass"; par "width"] exChans (Maps [0; 0] [0; 1] [0] [0; 1] [true; false]).
Definition exTwo : component Z :=
  Component 1 "two"%string (TPrimeBgInt [3; 4] [(1, 2); (1, 5)] 6)%Z [par "m0"; par "c0"; par "c1"; par "c2"; par "c3"] [("Q=b", [0; 1])%string] (Maps [0] [0] [0] [0] [true]).
Definition exFsmd : fsmd Z := Fsmd 2 false [("[p0]+[p1]*x", [par "p0"; par "p1"]); ("x", [])]%string.
Definition exModel : fitModel Z := FitModel [exOne; exTwo] (Some exFsmd) [("Q=a", "one"); ("Q=a", "one")]%string.
Definition exFp : pars Z := Pars (fun a i => Z.of_nat (10 * a + i)) (fun a k b => (Z.of_nat (a + k), Z.of_nat b - 5)%Z) (fun a k => if Nat.eqb k 0 then (1, 0)%Z else (3, 4)%Z).
Definition exFe : pars Z := Pars (fun a i => Z.of_nat (a + i)) (fun _ _ _ => (1, 2)%Z) (fun _ _ => (0, 0)%Z).
Lemma increasing_01 : increasing [0; 1].
Proof.
  intros [|[|i]] [|[|j]] a b Hij Ea Eb; cbn in Ea, Eb; try discriminate; try lia; try (injection Ea as <-; injection Eb as <-; lia); try (destruct i; discriminate); destruct j; discriminate.
Qed.
Lemma binsWith_01 w : w = "Q=a"%string \/ w = "Q=b"%string -> forall b, In b [0; 1] <-> binsWith exInput w b.
Proof.
  intros Hw b. split.
  - intros [<-|[<-|[]]]; eexists; (split; [reflexivity|]); destruct Hw as [->| ->]; cbn; auto.
  - intros (x & Ex & _). destruct b as [|[|b]]; cbn in *; [auto|auto|destruct b; discriminate].
Qed.
Example C88_round_trip_example :
  lawful libZ /\ goodInput exInput /\ goodModel libZ true exInput exFp exModel /\ mFsmd exModel = Some exFsmd /\ NoDup (map fst [("chi2", 7%Z); ("ndf", 3%Z)]%string) /\
  exists calls doc m' fp' fe',
    writeConfig libZ exInput exModel exFp exFe [("chi2", 7%Z); ("ndf", 3%Z)]%string ["*"]%string = Some calls /\ loadFile calls = Some doc /\
    readModel libZ true exInput doc = Some (m', fp', fe') /\ fCoup fp' 0 0 1 = (0, -4)%Z /\ fBr fp' 0 1 = (3, 4)%Z /\ fPar fp' 2 1 = 21%Z /\ fPar fe' 1 3 = 4%Z.
Proof.
  split; [apply C88_lawful_example|]. split; [|split; [|split; [reflexivity|split]]].
  - intros b [<-|[<-|[]]]; cbn; repeat constructor; cbn; intuition discriminate.
  - split; [reflexivity|]. split; [cbn; repeat constructor; cbn; intuition discriminate|]. split.
    + repeat apply Forall_cons; [..|apply Forall_nil].
      * split; [vm_compute; reflexivity|]. split; [|split; [exact I|]].
        -- split; [cbn; repeat constructor; cbn; intuition discriminate|]. intros ch [<-|[<-|[]]]; (split; [discriminate|]); (split; [apply increasing_01|]); apply binsWith_01; cbn; auto.
        -- intros [|[|k]] Hk; [reflexivity|cbn in Hk; intuition discriminate|destruct Hk as [Hk|Hk]; [discriminate|]]. destruct k; discriminate.
      * split; [vm_compute; reflexivity|]. split; [|split].
        -- split; [cbn; repeat constructor; cbn; intuition discriminate|]. intros ch [<-|[]]; (split; [discriminate|]); (split; [apply increasing_01|]); apply binsWith_01; cbn; auto.
        -- split; [|reflexivity]. split; [cbn; lia|]. intros [|[|i]] x y Ex Ey; cbn in Ex, Ey; try discriminate; try (destruct i; discriminate); injection Ex as <-; injection Ey as <-; reflexivity.
        -- intros [|[|k]] Hk; [reflexivity|cbn in Hk; intuition discriminate|destruct Hk as [Hk|Hk]; [discriminate|]]. destruct k; discriminate.
    + intros f E. injection E as <-. split; [reflexivity|]. split; [reflexivity|]. intros g [<-|[<-|[]]]; cbn; (split; [reflexivity|]); (split; [|intuition discriminate]).
      * repeat constructor; cbn; intuition discriminate.
      * constructor.
  - repeat constructor; cbn; intuition discriminate.
  - do 5 eexists. split; [vm_compute; reflexivity|]. split; [vm_compute; reflexivity|]. split; [vm_compute; reflexivity|]. vm_compute. auto.
Qed.

Example C88_constructed_example :
  exists c, construct libZ true 2 0 "one" (DynamicWidth [1; 0; 0] [2; -1; 0] [3; 4; 5] [6; 7; 8])%Z [par "mass"; par "width"] exChans = Some c /\
    (forall x, numDiv libZ x (numOne libZ) = x) /\
    (forall r, (exists l a b, cKind c = DynamicWidth r l a b) \/ (exists ig, cKind c = IntegralWidth r ig) -> fold_left (numAdd libZ) r (numZero libZ) = numOne libZ).
Proof.
  exists exOne. split; [vm_compute; reflexivity|]. split; [intros x; apply Z.div_1_r|]. intros r [(l & a & b & E)|(ig & E)]; [|discriminate].
  injection E as <- _ _ _. reflexivity.
Qed.
Example C88_no_fsmd_example : mFsmd (FitModel [exOne] None []) = None.
Proof. reflexivity. Qed.

(* The errors of couplings (and branchings) are not in the file: a fit with errors that are not zero is read with errors
   zero, although the errors of parameters are kept. *)
Theorem C88_coupling_errors_refuted :
  exists calls doc m' fp' fe', writeConfig libZ exInput exModel exFp exFe [] [] = Some calls /\ loadFile calls = Some doc /\
    readModel libZ true exInput doc = Some (m', fp', fe') /\ fCoup exFe 0 0 0 = (1, 2)%Z /\ fCoup fe' 0 0 0 = (0, 0)%Z /\ fPar fe' 0 1 = fPar exFe 0 1.
Proof. do 5 eexists. split; [vm_compute; reflexivity|]. split; [vm_compute; reflexivity|]. split; [vm_compute; reflexivity|]. vm_compute. auto. Qed.
