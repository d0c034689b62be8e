(* C92: text files of events: what a line and an event of such a file are. *)
From Coq Require Import String Ascii List ZArith NArith Bool Reals.
From Verif Require Import PathModel StrModel DecModel ParticleModel EvtModel.
Import ListNotations.
Open Scope Z_scope.
Open Scope list_scope.

(* GEANT ID, particle, charge *)
Definition geant : list (Z * string * Z) :=
  [(1, "gamma0", 0); (2, "e+", 1); (3, "e-", -1); (5, "mu+", 1); (6, "mu-", -1); (7, "pi0", 0); (8, "pi+", 1); (9, "pi-", -1);
   (10, "K_L0", 0); (11, "K+", 1); (12, "K-", -1); (13, "n0", 0); (14, "p+", 1); (15, "pbar-", -1); (16, "K_S0", 0); (17, "eta0", 0);
   (18, "Lambda0", 0); (25, "nbar0", 0); (26, "Lambdabar0", 0); (57, "rho(770)0", 0); (58, "rho(770)+", 1); (59, "rho(770)-", -1);
   (60, "omega(782)0", 0); (61, "eta'(982)0", 0); (62, "phi(1020)0", 0)]%string.
Definition isGeant (id : Z) (n : str) (charge : Z) : Prop := exists s, In (id, s, charge) geant /\ n = lit s.

(* a line that starts with an integer *)
Definition countLine (l : str) (n : Z) : Prop := exists r, readInt l = Some (n, r).
(* a line that starts with ID, charge, momentum and energy *)
Definition partLine (parseD : str -> option R) (l : str) (id charge : Z) (v : vec) : Prop :=
  exists r1 r2 r3 r4 r5 r6 E, readInt l = Some (id, r1) /\ readInt r1 = Some (charge, r2) /\ readD parseD r2 = Some (vX v, r3)
    /\ readD parseD r3 = Some (vY v, r4) /\ readD parseD r4 = Some (vZ v, r5) /\ readD parseD r5 = Some (E, r6).
(* such a line for the particle n *)
Definition goodLine (parseD : str -> option R) (l : str) (n : str) (v : option vec) : Prop :=
  exists id charge w, partLine parseD l id charge w /\ isGeant id n charge /\ v = Some w.
(* the lines of an event with these particles and momenta: number of particles, beam, at least one other particle *)
Definition goodEvent (parseD : str -> option R) (names : list str * list str) (lines : list str) (e : evEntry) : Prop :=
  exists c b ps p v, lines = c :: b :: ps /\ ps <> [] /\ countLine c (1 + Z.of_nat (length ps)) /\ fst names = [p] /\ enProd e = [v] /\ goodLine parseD b p v
    /\ length (snd names) = length ps /\ length (enDecay e) = length ps
    /\ forall i l n w, nth_error ps i = Some l -> nth_error (snd names) i = Some n -> nth_error (enDecay e) i = Some w -> goodLine parseD l n w.
(* the lines of a text: each but perhaps the last one ends with a newline *)
Definition nl : ascii := "010"%char.
Definition hasLines (text : str) (lines : list str) : Prop :=
  Forall (fun l => ~ In nl l) lines /\ (text = flat_map (fun l => l ++ [nl]) lines \/ exists ls l, lines = ls ++ [l] /\ l <> [] /\ text = flat_map (fun l => l ++ [nl]) ls ++ l).

(* doubles: written with characters of numbers, read as [rd] of them *)
Definition prints (showD : R -> str) (parseD : str -> option R) (rd : R -> R) : Prop :=
  forall x, showD x <> [] /\ Forall (fun c => numChar c = true) (showD x) /\ parseD (showD x) = Some (rd x).
Definition rdVec (rd : R -> R) (v : vec) : vec := Vec (rd (vX v)) (rd (vY v)) (rd (vZ v)).
Definition rdEntry (rd : R -> R) (e : evEntry) : evEntry := EvEntry (map (option_map (rdVec rd)) (enProd e)) (map (option_map (rdVec rd)) (enDecay e)).
(* an entry of a tree with these numbers of particles *)
Definition fits (names : list str * list str) (e : evEntry) : Prop :=
  length (enProd e) = length (fst names) /\ length (enDecay e) = length (snd names) /\ ~ In None (enProd e) /\ ~ In None (enDecay e).
