(* Specification for C81: vertices and beam particles, histories of calls. *)
From Coq Require Import String List ZArith Reals Bool.
From Verif Require Import PhaseModel PhaseSpec ProdSpec BeamModel.
Import ListNotations.
Open Scope R_scope.

(* inside the cylindrical target *)
Definition insideZ (tg : target) (z : R) : Prop := vz (tPos tg) - tLength tg / 2 <= z <= vz (tPos tg) + tLength tg / 2.
Definition insideR (tg : target) (v : v3) : Prop := (vx v - vx (tPos tg)) ^ 2 + (vy v - vy (tPos tg)) ^ 2 <= tRadius tg ^ 2.
(* v lies on the straight line through (x, y, z) with direction (dx, dy, dz) *)
Definition onLine (x y z dx dy dz : R) (v : v3) : Prop := exists l, vx v = x + l * dx /\ vy v = y + l * dy /\ vz v = z + l * dz.
(* four-momentum of a particle of mass m with momentum (px, py, pz) *)
Definition isMomentum (m px py pz : R) (p : lv) : Prop :=
  lx p = px /\ ly p = py /\ lz p = pz /\ hasMass m p /\ 0 <= lt p.
(* position of a vertex drawn from an exponential distribution along the target, cut at its end:
   u is the first of the uniform numbers from pos on that gives a point inside, pos' the position after it, and the vertex is at a depth of
   at most d exactly if u is at least exp(- d / interaction length) *)
Definition drawnZ (s : rng) (tg : target) (pos pos' : nat) (z : R) : Prop :=
  exists j, pos' = S (pos + j) /\ exp (- tLength tg / tIntLength tg) <= uni s (pos + j)
    /\ (forall i, (i < j)%nat -> uni s (pos + i) < exp (- tLength tg / tIntLength tg))
    /\ forall d, z <= vz (tPos tg) - tLength tg / 2 + d <-> exp (- d / tIntLength tg) <= uni s (pos + j).
(* among the next [fuel] uniform numbers there is one that gives a point inside (this has probability
   one for large fuel) *)
Definition someInside (fuel : nat) (s : rng) (tg : target) (pos : nat) : Prop :=
  0 < tIntLength tg /\ 0 <= tLength tg /\ exists j, (j < fuel)%nat /\ exp (- tLength tg / tIntLength tg) <= uni s (pos + j).

(* calls other than loadBeamFile *)
Inductive bstep : bvg -> bvg -> Prop :=
  | SSeq b q : bstep b (setSeq q b)
  | SScale b f : bstep b (setScale f b)
  | STakeZ b q b' : setTakeZ q b = Some b' -> bstep b b'
  | SCorr b r ps pm : bstep b (setCorrection r ps pm b)
  | SRand b s pos b' pos' : uniform (uni s) -> randomizeStart s pos b = Some (b', pos') -> bstep b b'
  | SEvent b eig fuel s tg bp pos ok b' pos' : uniform (uni s) -> beamEvent eig fuel s tg bp pos b = Some (ok, b', pos') -> bstep b b'.
(* objects after any calls *)
Inductive reachedB : bvg -> Prop :=
  | RBNew : reachedB newBvg
  | RBLoad b f ok b' : reachedB b -> loadBeamFile f b = Some (ok, b') -> reachedB b'
  | RBStep b b' : reachedB b -> bstep b b' -> reachedB b'.
(* objects whose last loadBeamFile was for a file with tree t and successful, after any earlier and
   later calls; corr is whether a resolution correction was set at that time *)
Inductive loaded (t : tree) (corr : bool) : bvg -> Prop :=
  | LLoad b0 b : reachedB b0 -> (corr = true <-> bPdfM b0 <> 0) -> loadBeamFile (WithTree t) b0 = Some (true, b) -> loaded t corr b
  | LStep b b' : loaded t corr b -> bstep b b' -> loaded t corr b'.
(* which entry is used next: reading in sequence after the last entry comes the first; otherwise each
   entry belongs to an interval of the random number, all of the same length *)
Definition nextEntry (t : tree) (b : bvg) (u : R) (i : nat) : Prop :=
  (i < length (tRows t))%nat
  /\ (bSeq b = true -> Z.of_nat i = bCur b \/ (i = 0%nat /\ (Z.of_nat (length (tRows t)) <= bCur b)%Z))
  /\ (bSeq b = false -> INR i <= INR (length (tRows t)) * u < INR i + 1).
(* z-position of an entry: 0 if there is no such branch *)
Definition zOf (t : tree) (e : row) : R := if hasBranch t "vertex_z_position" then rZ e else 0.
(* branches with uncertainties in a file with momenta *)
Definition sigmaBranches : list string :=
  ["vertex_x_position_sigma"; "vertex_y_position_sigma"; "beam_momentum_x_sigma"; "beam_momentum_y_sigma"; "beam_momentum_z_sigma"]%string.
Definition hasSigmas (t : tree) : Prop := forall n, In n sigmaBranches -> In n (tBranches t).
(* eigenvalues and eigenvectors of an n x n matrix *)
Definition isEigen (n : nat) (cov : nat -> nat -> R) (vals : nat -> R) (vecs : nat -> nat -> R) : Prop :=
  (forall i, (i < n)%nat -> 0 <= vals i)
  /\ (forall i j, (i < n)%nat -> (j < n)%nat -> cov i j = sumTo n (fun k => vecs i k * vals k * vecs j k)).
(* position of the random numbers after the choice of the entry *)
Definition afterEntry (b : bvg) (pos : nat) : nat := if bSeq b then pos else S (S pos).
(* z-position of the vertex, for an entry at z0: z0 itself on request, otherwise drawn; random numbers
   from pos to pos' - 1 are used *)
Definition isVertexZ (s : rng) (tg : target) (b : bvg) (pos pos' : nat) (z0 z : R) : Prop :=
  (bTakeZ b = true -> z = z0 /\ pos' = pos) /\ (bTakeZ b = false -> insideZ tg z /\ drawnZ s tg pos pos' z).
(* a file with momenta *)
Definition momentumFile (t : tree) : Prop := In "beam_momentum_x"%string (tBranches t).
(* a number p distributed like the product of two Gaussians, with means a, mu and widths r, s, is
   Gaussian with mean M and width S *)
Definition isProduct (a r mu s M W : R) : Prop :=
  0 < W /\ exists c, forall p, (p - a) ^ 2 / r ^ 2 + (p - mu) ^ 2 / s ^ 2 = (p - M) ^ 2 / W ^ 2 + c.
(* events one after the other, and the objects after each *)
Inductive eventsB (eig : eigen) (fuel : nat) (s : rng) (tg : target) (bp : beamPar) : nat -> bvg -> list bvg -> Prop :=
  | EvNil pos b : eventsB eig fuel s tg bp pos b []
  | EvCons pos b b' pos' l : beamEvent eig fuel s tg bp pos b = Some (true, b', pos') -> eventsB eig fuel s tg bp pos' b' l -> eventsB eig fuel s tg bp pos b (b' :: l).
(* first entry read in sequence *)
Definition startEntry (t : tree) (b : bvg) : nat := if (Z.of_nat (length (tRows t)) <=? bCur b)%Z then 0 else Z.to_nat (bCur b).
