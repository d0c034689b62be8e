(* What a user relies on in the table of phase-space integrals (C85), stated without the functions of PsIntModel. *)
From Coq Require Import String List Reals Sorted.
From Coquelicot Require Import Complex.
From Verif Require Import PsIntModel.
Import ListNotations.
Open Scope R_scope.

(* sum of a list of numbers *)
Definition total (l : list R) : R := fold_right Rplus 0 l.
(* the products weight times |amplitude|^2 of the events pos, ..., pos + n - 1 generated at mass M *)
Definition samplesAt (draw : drawing) (name : string) (M : R) (pos n : nat) : list R :=
  map (fun k => let '(w, a) := draw name M k in w * (Cmod a) ^ 2) (seq pos n).
(* mean value of the events pos, ..., pos + n - 1, with the error of the mean value *)
Definition measuredFrom (draw : drawing) (name : string) (pos n : nat) (p : point) : Prop :=
  let s := samplesAt draw name (pM p) pos n in
  INR n * pInt p = total s /\
  pErr p = sqrt (total (map (fun x => (x - pInt p) ^ 2) s) / (INR n * (INR n - 1))).
(* a point of the table: one or ten million events *)
Definition measured (draw : drawing) (name : string) (p : point) : Prop :=
  exists pos n, (n = 1000 * 1000 \/ n = 10 * (1000 * 1000))%nat /\ measuredFrom draw name pos n p.
(* masses strictly increasing *)
Definition sorted (t : list point) : Prop := StronglySorted Rlt (map pM t).
(* a table starts with the value 0 at threshold; all other points are measured *)
Definition goodTable (draw : drawing) (name : string) (thr : R) (t : list point) : Prop :=
  sorted t /\ exists r, t = Pt thr 0 0 :: r /\ List.Forall (measured draw name) r.
(* neighbours *)
Definition consecutive (p q : point) (t : list point) : Prop := exists l r, t = l ++ p :: q :: r.
(* y lies on the straight line between the points on either side of M *)
Definition between (t : list point) (M y : R) : Prop :=
  exists p q, consecutive p q t /\ pM p <= M < pM q /\
              (y - pInt p) * (pM q - pM p) = (pInt q - pInt p) * (M - pM p).
(* the mass is one of the table up to 1e-10 *)
Definition inTable (t : list point) (M0 : R) : Prop := exists p, In p t /\ Rabs (pM p - M0) < / 10000000000.
(* the dynamic-width Breit-Wigner  M0 Gamma0 / (M0^2 - M^2 - i M0 Gamma)  with  Gamma = Gamma0 y / y0 *)
Definition isBW (M M0 Gamma0 y y0 : R) (z : C) : Prop :=
  y0 <> 0 /\
  let den := (RtoC (M0 * M0 - M * M) - Ci * RtoC (M0 * (Gamma0 * (y / y0))))%C in
  den <> RtoC 0 /\ (z * den)%C = RtoC (M0 * Gamma0).
(* the answer for a vertex: y from the table t, y0 from the table t' *)
Definition isAnswer (t t' : list point) (M M0 Gamma0 : R) (bw : option C) : Prop :=
  forall z, bw = Some z <-> exists y y0, between t M y /\ between t' M0 y0 /\ isBW M M0 Gamma0 y y0 z.
(* t' is t with one more point, measured at M0 *)
Definition refined (draw : drawing) (name : string) (M0 : R) (t t' : list point) : Prop :=
  exists a p b, t = a ++ b /\ t' = a ++ p :: b /\ pM p = M0 /\ measured draw name p.

(* a history: calls for vertices, destruction of a vertex, the two settings, end of the process and start of the next *)
Inductive op := OCall (v : vertex) | ODestroy (a : nat) | ODir (d : string) | OUpper (u : R) | ORestart (pos : nat).
(* one step; None: the process ended *)
Definition step (fuel : nat) (draw : drawing) (o : op) (s : state) : option state :=
  match o with
  | OCall v => match call fuel draw v s with Some (_, s') => Some s' | None => None end
  | ODestroy a => Some (removeVertex a s)
  | ODir d => Some (setDirectory d s)
  | OUpper u => Some (setUpperMassBound u s)
  | ORestart pos => Some (newProcess pos s)
  end.
(* a whole history *)
Fixpoint run (fuel : nat) (draw : drawing) (h : list op) (s : state) : option state :=
  match h with [] => Some s | o :: r => match step fuel draw o s with Some s' => run fuel draw r s' | None => None end end.
(* no files, nothing in memory *)
Definition start : state := State [] [] "" 0 (fun _ => None) 0.
(* the vertex at an address keeps its decay until it is destroyed *)
Definition stableNames (h : list op) : Prop :=
  forall pre v1 mid v2 post, h = pre ++ OCall v1 :: mid ++ OCall v2 :: post -> vAddr v1 = vAddr v2 ->
    ~ In (ODestroy (vAddr v1)) mid -> (forall p, ~ In (ORestart p) mid) -> vName v1 = vName v2.
(* the final-state particles of a sub-decay follow from its name *)
Definition thresholds (thr : string -> R) (h : list op) : Prop := forall v, In (OCall v) h -> vThr v = thr (vName v).
(* mass number k of a new table *)
Definition grid (thr upper : R) (k : nat) : R := thr + INR k * ((upper - thr) / 50).
(* the masses of a new table: threshold, 50 equal steps to the upper bound, and M0 if it lies between two of them *)
Definition newMasses (thr upper M0 : R) : list R :=
  thr :: flat_map (fun k => (if Rlt_dec (grid thr upper (k - 1)) M0 then if Rlt_dec M0 (grid thr upper k) then [M0] else [] else [])
                            ++ [grid thr upper k]) (seq 1 50).
(* the table from which a vertex with sub-decay n gets its answer: the one in memory, or else the one in the file, or else
   a new one *)
Definition tableFor (draw : drawing) (s : state) (n : string) (v : vertex) (t : list point) : Prop :=
  match findCont n (sConts s) with
  | Some c => t = cTab c
  | None => match sDisk s (sDir s, vName v) with
            | Some f => exists g, f = Good t g
            | None => goodTable draw (vName v) (vThr v) t /\
                      (vThr v < sUpper s -> map pM t = newMasses (vThr v) (sUpper s) (vM0 v))
            end
  end.
(* s is the state after the history h, in which vertices keep their decays and names determine thresholds *)
Definition reached (fuel : nat) (draw : drawing) (thr : string -> R) (h : list op) (s : state) : Prop :=
  run fuel draw h start = Some s /\ thresholds thr h /\ stableNames h.
(* first and last mass of a table *)
Definition firstMass (t : list point) : R := pM (hd (Pt 0 0 0) t).
Definition lastMass (t : list point) : R := pM (List.last t (Pt 0 0 0)).
(* the table for v exists: in memory, or else in the file *)
Definition tableKnown (s : state) (v : vertex) (t : list point) : Prop :=
  match findCont (vName v) (sConts s) with
  | Some c => t = cTab c
  | None => exists g, sDisk s (sDir s, vName v) = Some (Good t g)
  end.
