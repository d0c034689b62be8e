(* Model of decayAmplitude/phaseSpaceIntegral.{h,cc}: Breit-Wigner amplitude of a resonance that decays into
   unstable isobars, with the width taken from a table of phase-space integrals that is kept in memory and in
   a file (C85); called from relativisticBreitWigner::amp, massDependence.cc 283.

   double is R (no rounding), complex<double> is C.  In a result of type [option (option a)] the outer [None]
   is the end of the process (throw without exception, null pointer, access outside a vector, endless loop),
   the inner [None] a number that is not finite (0/0 or x/0), with which the process goes on.
   Simplifications: the topology of the sub-decay is its name (getSubWaveNameFromVertex, 118-147) and the sum
   of the final-state masses; phase-space generator and amplitude are the function [draw] that gives weight and
   amplitude of the event number k of the stream of random numbers (nBodyPhaseSpaceGenerator: C77, amplitude:
   C74); a file is identified by directory and name of the sub-decay, the directory exists and is writable;
   the error bars of the graphs, titles and messages are left out; the saved mass dependence and
   topology of the vertex (249-252, 307, 321) are restored and left out. *)
From Coq Require Import String List Reals Bool Arith.
From Coquelicot Require Import Complex.
From Verif Require Import PhysModel MassDepModel.
Import ListNotations.
Open Scope R_scope.

(* phaseSpaceIntegral.h 15-29 *)
Record point := Pt { pM : R; pInt : R; pErr : R }.
(* the contents of a file written at phaseSpaceIntegral.cc 358-426: the tree and the graphs Gamma(M)/Gamma0 for the
   masses M0; a file without tree or one that cannot be opened is left if the process ends while it writes *)
Inductive file := Good (t : list point) (graphs : list (R * list (R * option R))) | NoTree | Broken.
(* file name: _directory, name of the sub-decay, phaseSpaceIntegral.cc 164-165 *)
Definition path := (string * string)%type.
(* equality of file names, phaseSpaceIntegral.cc 164-165 *)
Definition path_eqb (p q : path) : bool := String.eqb (fst p) (fst q) && String.eqb (snd p) (snd q).
(* the files in the directories of the tables, phaseSpaceIntegral.cc 328-426 *)
Definition disk := path -> option file.
(* glue: replace one file *)
Definition setFile (d : disk) (p : path) (f : file) : disk := fun q => if path_eqb q p then Some f else d q.
(* what the code asks of an isobarDecayVertex: its address, the name of its sub-decay (118-147), the sum of the
   masses of the final-state particles (441-444), M, M0 and Gamma0 (phaseSpaceIntegral.cc 52-55) *)
Record vertex := Vertex { vAddr : nat; vName : string; vThr : R; vM : R; vM0 : R; vGamma : R }.
(* phaseSpaceIntegral.h 65-71: table, masses of resonances, name, file, and of the vertex the threshold and M0 *)
Record container := Cont { cTab : list point; cM0s : list R; cName : string; cPath : path; cThr : R; cM0 : R }.
(* weight and amplitude of the event number k generated for a mass, phaseSpaceIntegral.cc 288-299 *)
Definition drawing := string -> R -> nat -> R * C.

(* phaseSpaceIntegral.cc 103 *)
Definition N_POINTS : nat := 50.
(* phaseSpaceIntegral.cc 104 *)
Definition N_MC_EVENTS : nat := 1000 * 1000.
(* phaseSpaceIntegral.cc 105 *)
Definition N_MC_EVENTS_FOR_M0 : nat := 10 * N_MC_EVENTS.

(* phaseSpaceIntegral.cc 298-299: |amplitude|^2 times weight *)
Definition sampleOf (wa : R * C) : R := (fst (snd wa) * fst (snd wa) + snd (snd wa) * snd (snd wa)) * fst wa.
(* phaseSpaceIntegral.cc 281, 300, 308: sum over the events divided by their number *)
Definition meanOf (samples : list R) : option R := rdiv (fold_left Rplus samples 0) (INR (length samples)).
(* phaseSpaceIntegral.cc 310-319: error of the mean *)
Definition errorOf (samples : list R) (integral : R) : option R :=
  doM s2 <- rdiv (fold_left (fun s x => s + (x - integral) * (x - integral)) samples 0) (INR (length samples - 1));
  doM r <- rdiv s2 (INR (length samples));
  Some (sqrt r).
(* phaseSpaceIntegral.cc 243-325: value at mass M from nEvents events of the stream, first one number pos; with
   the position behind them *)
Definition evalInt (draw : drawing) (name : string) (M : R) (nEvents pos : nat) : option (point * nat) :=
  let samples := map (fun k => sampleOf (draw name M k)) (seq pos nEvents) in
  doM v <- meanOf samples;
  doM e <- errorOf samples v;
  Some (Pt M v e, (pos + nEvents)%nat).

(* phaseSpaceIntegral.cc 206-214: the loop over the points from the second on; last and current point *)
Fixpoint interLoop (M : R) (last cur : point) (t : list point) : point * point :=
  match t with
  | [] => (last, cur)
  | p :: r => if negb (rltb M (pM last)) && rltb M (pM p) then (last, p) else interLoop M p p r
  end.
(* phaseSpaceIntegral.cc 199-217 *)
Definition interpolate (t : list point) (M : R) : option (option R) :=
  match t with
  | [] => None
  | p0 :: r =>
      let '(last, cur) := interLoop M p0 p0 r in
      Some (doM s <- rdiv (pInt cur - pInt last) (pM cur - pM last); Some (pInt last + s * (M - pM last)))
  end.
(* phaseSpaceIntegral.cc 223, 232: |a - b| < 1e-10 *)
Definition closeTo (a b : R) : bool := rltb (Rabs (a - b)) (/ 10000000000).

(* phaseSpaceIntegral.cc 469-477: the loop over neighbouring points; new points and whether one was added *)
Fixpoint addLoop (p last : point) (t : list point) : list point * bool :=
  match t with
  | [] => ([], false)
  | q :: r =>
      let '(l, added) := addLoop p q r in
      if negb (rltb (pM p) (pM last)) && rltb (pM p) (pM q) then (p :: q :: l, true) else (q :: l, added)
  end.
(* phaseSpaceIntegral.cc 464-484 *)
Definition addToTable (p : point) (t : list point) : option (list point) :=
  match t with
  | [] => None
  | p0 :: r => let '(l, added) := addLoop p p0 r in if added then Some (p0 :: l) else None
  end.

(* phaseSpaceIntegral.cc 391-399: the last point with mass M0, a point with value 0 if there is none *)
Definition pointFor (t : list point) (M0 : R) : point :=
  fold_left (fun q p => if closeTo M0 (pM p) then p else q) t (Pt 0 0 0).
(* phaseSpaceIntegral.cc 376-415: contents of the file *)
Definition fileOf (c : container) : file :=
  Good (cTab c) (map (fun M0 => (M0, map (fun p => (pM p, rdiv (pInt p) (pInt (pointFor (cTab c) M0)))) (cTab c))) (cM0s c)).
(* phaseSpaceIntegral.cc 358-426; [overwriteFile] = RECREATE, otherwise NEW, which gives a null pointer if the file exists *)
Definition writeTable (overwriteFile : bool) (c : container) (d : disk) : option disk :=
  if overwriteFile then Some (setFile d (cPath c) (fileOf c))
  else match d (cPath c) with Some _ => None | None => Some (setFile d (cPath c) (fileOf c)) end.

(* glue: a container with another table *)
Definition setTab (t : list point) (c : container) : container := Cont t (cM0s c) (cName c) (cPath c) (cThr c) (cM0 c).
(* glue: a container with other masses of resonances *)
Definition setM0s (l : list R) (c : container) : container := Cont (cTab c) l (cName c) (cPath c) (cThr c) (cM0 c).
(* phaseSpaceIntegral.cc 220-240: integral at the mass of the resonance; [fuel] bounds the recursion *)
Fixpoint getInt0 (fuel : nat) (draw : drawing) (M0 : R) (c : container) (d : disk) (pos : nat)
    : option (option R * container * disk * nat) :=
  match fuel with
  | O => None
  | S f =>
      let c1 := if existsb (fun m => closeTo m M0) (cM0s c) then c else setM0s (cM0s c ++ [M0]) c in
      if existsb (fun p => closeTo (pM p) M0) (cTab c1) then
        doM v <- interpolate (cTab c1) M0; Some (v, c1, d, pos)
      else
        doM r <- evalInt draw (cName c1) M0 N_MC_EVENTS_FOR_M0 pos;
        doM t <- addToTable (fst r) (cTab c1);
        let c2 := setTab t c1 in
        doM d2 <- writeTable true c2 d;
        getInt0 f draw M0 c2 d2 (snd r)
  end.
(* phaseSpaceIntegral.cc 172-196: dyn and operator() of the container *)
Definition amplitude (fuel : nat) (draw : drawing) (M M0 Gamma0 : R) (c : container) (d : disk) (pos : nat)
    : option (option C * container * disk * nat) :=
  doM psInt <- interpolate (cTab c) M;
  doM r <- getInt0 fuel draw M0 c d pos;
  let '(psInt0, c2, d2, pos2) := r in
  let bw := doM a <- psInt; doM b <- psInt0; doM dyn <- rdiv a b;
            lorentz (M0 * Gamma0) (M0 * M0 - M * M) (M0 * (Gamma0 * dyn)) in
  Some (bw, c2, d2, pos2).

(* phaseSpaceIntegral.cc 454-459: the loop over the masses; [fuel] bounds the number of passes *)
Fixpoint fillLoop (fuel : nat) (draw : drawing) (name : string) (upper step M0 M : R) (t : list point) (pos : nat)
    : option (list point * nat) :=
  if rltb upper M then Some (t, pos)
  else match fuel with
  | O => None
  | S f =>
      doM tp <- (if rltb (M - step) M0 && rltb M0 M
                 then doM r <- evalInt draw name M0 N_MC_EVENTS_FOR_M0 pos; Some (t ++ [fst r], snd r)
                 else Some (t, pos));
      doM r <- evalInt draw name M N_MC_EVENTS (snd tp);
      fillLoop f draw name upper step M0 (M + step) (fst tp ++ [fst r]) (snd r)
  end.
(* phaseSpaceIntegral.cc 429-461; [upper] is _upperBound *)
Definition fillTable (fuel : nat) (draw : drawing) (upper : R) (c : container) (pos : nat) : option (container * nat) :=
  match cTab c with
  | _ :: _ => None
  | [] =>
      if String.eqb (fst (cPath c)) "" || negb (rltb 0 upper) then None
      else
        let step := (upper - cThr c) / INR N_POINTS in
        doM r <- fillLoop fuel draw (cName c) upper step (cM0 c) (cThr c + step) [Pt (cThr c) 0 0] pos;
        Some (setM0s (cM0s c ++ [cM0 c]) (setTab (fst r) c), snd r)
  end.
(* phaseSpaceIntegral.cc 341-352: the tree of the file *)
Definition readTree (c : container) (d : disk) : option container :=
  match d (cPath c) with Some (Good t _) => Some (setTab t c) | _ => None end.
(* phaseSpaceIntegral.cc 328-355: TFile::Open gives no file if there is none or if it is not readable *)
Definition readFile (fuel : nat) (draw : drawing) (upper : R) (c : container) (d : disk) (pos : nat)
    : option (container * disk * nat) :=
  match d (cPath c) with
  | None | Some Broken =>
      doM r <- fillTable fuel draw upper c pos;
      doM d2 <- writeTable false (fst r) d;
      doM c2 <- readTree (fst r) d2;
      Some (c2, d2, snd r)
  | _ => doM c2 <- readTree c d; Some (c2, d, pos)
  end.
(* phaseSpaceIntegral.cc 150-169: the constructor; [dir] is _directory *)
Definition newContainer (fuel : nat) (draw : drawing) (dir : string) (upper : R) (v : vertex) (d : disk) (pos : nat)
    : option (container * disk * nat) :=
  if String.eqb dir "" || negb (rltb 0 upper) then None
  else readFile fuel draw upper (Cont [] [] (vName v) (dir, vName v) (vThr v) (vM0 v)) d pos.

(* phaseSpaceIntegral.h 91-106, the static members phaseSpaceIntegral.cc 100-101, the files and the position in the
   stream of random numbers *)
Record state := State { sNames : list (nat * string); sConts : list (string * container);
                        sDir : string; sUpper : R; sDisk : disk; sPos : nat }.
(* std::map::find *)
Definition findName (a : nat) (l : list (nat * string)) : option string :=
  match find (fun x => Nat.eqb (fst x) a) l with Some x => Some (snd x) | None => None end.
(* std::map::find *)
Definition findCont (n : string) (l : list (string * container)) : option container :=
  match find (fun x => String.eqb (fst x) n) l with Some x => Some (snd x) | None => None end.
(* std::map::operator[] and assignment *)
Definition setCont (n : string) (c : container) (l : list (string * container)) : list (string * container) :=
  (n, c) :: filter (fun x => negb (String.eqb (fst x) n)) l.
(* phaseSpaceIntegral.cc 37-59: the amplitude for a vertex *)
Definition call (fuel : nat) (draw : drawing) (v : vertex) (s : state) : option (option C * state) :=
  let names := match findName (vAddr v) (sNames s) with Some _ => sNames s | None => (vAddr v, vName v) :: sNames s end in
  doM waveName <- findName (vAddr v) names;
  doM r <- match findCont waveName (sConts s) with
           | Some c => Some (c, sDisk s, sPos s)
           | None => newContainer fuel draw (sDir s) (sUpper s) v (sDisk s) (sPos s)
           end;
  let '(c, d, pos) := r in
  doM a <- amplitude fuel draw (vM v) (vM0 v) (vGamma v) c d pos;
  let '(bw, c2, d2, pos2) := a in
  Some (bw, State names (setCont waveName c2 (sConts s)) (sDir s) (sUpper s) d2 pos2).
(* phaseSpaceIntegral.cc 62-68, called by the destructor of the vertex, isobarDecayVertex.cc 96 *)
Definition removeVertex (a : nat) (s : state) : state :=
  State (filter (fun x => negb (Nat.eqb (fst x) a)) (sNames s)) (sConts s) (sDir s) (sUpper s) (sDisk s) (sPos s).
(* phaseSpaceIntegral.h 46 *)
Definition setDirectory (dir : string) (s : state) : state := State (sNames s) (sConts s) dir (sUpper s) (sDisk s) (sPos s).
(* phaseSpaceIntegral.h 49 *)
Definition setUpperMassBound (u : R) (s : state) : state := State (sNames s) (sConts s) (sDir s) u (sDisk s) (sPos s).
(* a new process: phaseSpaceIntegral.cc 25-34, 100-101; only the files remain, random numbers from [pos] on *)
Definition newProcess (pos : nat) (s : state) : state := State [] [] "" 0 (sDisk s) pos.
