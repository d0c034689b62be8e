(* C91: a fit with two mass bins, two components sharing the anchor wave and a final-state mass dependence. *)
From Coq Require Import String Ascii List ZArith Bool Reals Lia Lra.
From Coquelicot Require Import Complex.
From Verif Require Import PathModel StrModel DecModel CGBoxModel ParticleModel ParticleProps AmpIntModel ResCacheModel ResTransSpec ResTransProofs ResTransProps MinimModel MinimSpec MinimProofs MinimProps MinimProps2 MinimProps3.
Import ListNotations.
Open Scope list_scope. Open Scope nat_scope.

Definition exPm (n : string) (fx : bool) : minPar := MinPar (lit n) fx None (Some 2%R) (1 / 100)%R.
Definition exMin : fitModel := FitModel exModel2 [MinComp (lit "a1") [exPm "m0" false; exPm "g" true] [0]; MinComp (lit "bkg") [] [0]]
  [[exPm "s" false]; []] [(exName, lit "a1"); (exName, lit "a1")] (newCache 2 3 1 2 2).
Lemma exMinWf : wfMin exMin [2; 2] (fun _ m => INR m) 2 1 2.
Proof.
  constructor.
  - exact C65_ex2.
  - reflexivity.
  - reflexivity.
  - intros i o c Ho Hc. destruct i as [|[|i]]; [|  |destruct i; discriminate Ho]; injection Ho as <-; injection Hc as <-; (split; [reflexivity|split; [reflexivity|repeat constructor]]).
  - intros d D b Hb. injection D as <-. cbn in Hb. destruct b as [|[|b]]; [reflexivity|reflexivity|lia].
Qed.
Lemma exAccepted : accepted exMin.
Proof. intros b Hb. cbn in Hb. destruct b as [|[|b]]; [vm_compute; discriminate|vm_compute; discriminate|lia]. Qed.
Lemma exSharing : sharing exMin.
Proof.
  intros i o Ho. destruct i as [|[|i]]; [| |destruct i; discriminate Ho]; injection Ho as <-; (split; [intros ch k H; destruct ch as [|ch]; [injection H as <-; exists 0, exChan2, exChan2; repeat split; reflexivity|destruct ch; discriminate H]|
    intros k ms H; destruct k as [|k]; [injection H as <-; reflexivity|destruct k; discriminate H]]).
Qed.
(* a minimizer that stays at the start values and needs one call *)
Definition lastVars (reqs : list request) : list var := fold_left (fun vs (r : request) => match snd r with Some v => v | None => vs end) reqs [].
Definition exRun (reqs : list request) : outcome :=
  Outcome (fun j => match nth_error (lastVars reqs) j with Some v => vStart v | None => 0%R end) (fun _ => 0%R) (fun _ _ => 0%R) 1 0 3.
Lemma exRespects : respects exRun.
Proof.
  split.
  - intros reqs n vs j v H _. cbn [exRun oX]. unfold lastVars. rewrite fold_left_app. cbn [fold_left snd]. now rewrite H.
  - intros reqs n j _. cbn [exRun oX]. unfold lastVars. now rewrite fold_left_app.
Qed.
(* the fit runs with the default release orders: couplings and branchings first, then the masses, then everything, then Hesse *)
Example C91_ex : wfMin exMin [2; 2] (fun _ m => INR m) 2 1 2 /\ accepted exMin /\ sharing exMin /\ respects exRun /\
  (forall P E, exists s q, minimize exMin exRun (fun _ => 7%R) 50 100 [] P E = Some (s, q)) /\ forall P, exists vs, initParameters exMin P (lit "coupling m0") = Some vs /\ length vs = 13.
Proof.
  split; [exact exMinWf|]. split; [exact exAccepted|]. split; [exact exSharing|]. split; [exact exRespects|]. split.
  - intros P E. destruct (minimize_run exMin [2; 2] (fun _ m => INR m) 2 1 2 exRun (fun _ => 7%R) 50 100 [] P E exMinWf) as (s & H & _); [discriminate|]. eauto.
  - intros P. destruct (C91_variables exMin [2; 2] (fun _ m => INR m) 2 1 2 P (lit "coupling m0") exMinWf) as (vs & H & L). exists vs. split; [exact H|]. rewrite L. reflexivity.
Qed.
Example C91_ex_start : forall P rel vs, initParameters exMin P rel = Some vs -> forall j v, nth_error vs j = Some v -> oX (exRun [(5, Some vs)]) j = vStart v.
Proof. intros P rel vs _ j v H. cbn. now rewrite H. Qed.
(* the channel of a coupling, the anchor couplings, a free branching, a fixed parameter, and the parameter of the formula *)
Example C91_ex_cells : couplingCells exModel2 = [(0, 0, 0); (0, 0, 1); (1, 0, 0); (1, 0, 1)] /\ branchingCells exModel2 = [(0, 0, true); (1, 0, false)]
  /\ flat_map compPars (mComps exModel2) = [(0, 0); (0, 1)]
  /\ (forall i, i < 2 -> exists o c chan, coupChan exMin i 0 o c chan /\ branChan exMin i 0 o c chan /\ (forall b, b < 2 -> (isAnchorCoupling exMin b c chan <-> i = 0)))
  /\ nth_error (nth 0 (fmFsmd exMin) []) 0 = Some (exPm "s" false).
Proof.
  split; [reflexivity|]. split; [reflexivity|]. split; [reflexivity|]. split; [|reflexivity]. intros i Hi. destruct i as [|[|i]]; [| |lia]; (eexists _, _, exChan2; split; [split; [reflexivity|split; [reflexivity|exists 0; split; reflexivity]]|split; [split; [reflexivity|split; [reflexivity|exists 0; split; reflexivity]]|]]).
  - intros b Hb. destruct b as [|[|b]]; [| |lia]; (split; [reflexivity|intros _; reflexivity]).
  - intros b Hb. split; [|discriminate]. intros H. exfalso. destruct b as [|[|b]]; [| |lia]; discriminate H.
Qed.
(* a fit without data points; and releasing nothing leaves the parameter of the formula free *)
Example C91_ndf_refuted_ex : forall P E, exists s q, minimize exMin exRun (fun _ => 7%R) 0 100 [lit "nothing"] P E = Some (s, q)
  /\ 0 < length (filter (fun v => match vSet v with Fixed => false | _ => true end) (msVars s)) /\ (Z.of_nat (length (filter (fun v => match vSet v with Fixed => false | _ => true end) (msVars s))) < 2 ^ 31)%Z.
Proof.
  intros P E. destruct (C91_variables exMin [2; 2] (fun _ m => INR m) 2 1 2 P (lit "nothing") exMinWf) as (vs & HV & L).
  destruct (minimize_run exMin [2; 2] (fun _ m => INR m) 2 1 2 exRun (fun _ => 7%R) 0 100 [lit "nothing"] P E exMinWf) as (s & H & (G1 & G2 & G3 & G4 & G5 & G6) & C'); [discriminate|].
  eexists s, _. split; [exact H|]. cbn [ordersOf length] in G1. assert (0 < length (msReqs s)) as LP by (destruct C' as [[_ C']|[_ C']]; cbn in C'; lia).
  destruct (G6 LP) as (m & order & nn & M1 & M2 & M3 & M4 & M5 & M6 & M7). assert (m = 0) as -> by lia. cbn in M4. injection M4 as <-.
  destruct (G4 0 M1) as (o2 & Q & v & K1 & K2 & K3 & _ & K5). cbn in K1. injection K1 as <-. inversion K2; subst Q. destruct K5 as [[F _]|(_ & vs' & Ev & K5)]; [contradiction|]. assert (Some vs' = Some vs) as KV by (rewrite <- K5; exact HV). injection KV as ->. assert (msVars s = vs) as -> by congruence.
  assert (exists v, In v vs /\ vSet v <> Fixed) as (w & W1 & W2).
  { destruct (C91_release_refuted exMin [2; 2] (fun _ m => INR m) 2 1 2 P _ 0 0 (exPm "s" false) exMinWf eq_refl) as (vs0 & H0 & w & W1 & W2 & W3); [cbn; lia|reflexivity|reflexivity|].
    destruct (C91_fsmd exMin [2; 2] (fun _ m => INR m) 2 1 2 P (lit "nothing") vs exMinWf HV _ 0 0 (exPm "s" false) eq_refl) as (u & N0 & _ & _ & S1 & _); [cbn; lia|reflexivity|]. exists u. split; [eapply nth_error_In; eauto|]. rewrite S1 by reflexivity. discriminate. }
  split.
  - assert (In w (filter (fun v => match vSet v with Fixed => false | _ => true end) vs)) as HI. { apply filter_In. split; [exact W1|]. now destruct (vSet w). } destruct (filter _ vs); [destruct HI|cbn; lia].
  - assert (forall (g : var -> bool) l, length (filter g l) <= length l) as FL. { intros g l. induction l as [|x l IH]; cbn; [lia|]. destruct (g x); cbn; lia. }
    specialize (FL (fun v => match vSet v with Fixed => false | _ => true end) vs). change (nrParameters exMin) with 13 in L. lia.
Qed.
Example C91_release_refuted_ex : forall P, exists vs v, initParameters exMin P [] = Some vs /\ In v vs /\ vName v = lit "fsmd__bin0__s" /\ vSet v <> Fixed.
Proof. intros P. destruct (C91_release_refuted exMin [2; 2] (fun _ m => INR m) 2 1 2 P _ 0 0 (exPm "s" false) exMinWf eq_refl) as (vs & v & H); [cbn; lia|reflexivity|reflexivity|]. exists vs, v. exact H. Qed.
