(* Specification for C74: in which frames the momenta have to be and which sum the amplitude is. *)
From Coq Require Import List ZArith Reals Bool.
From Coquelicot Require Import Complex.
From Verif Require Import SpinSpec DFuncSpec CGValProofs PhysModel PhaseModel PhaseSpec FrameModel FrameSpec AmpModel.
Import ListNotations.
Open Scope R_scope.

(* ---- momenta ---- *)
(* four-momentum of a particle: that of the final-state particles it decays into *)
Fixpoint momentum (s : lvs) (t : topo) : lv :=
  match t with Fs p => s p | Iso _ _ a b => lvAdd (momentum s a) (momentum s b) end.
(* every particle occurs once in the decay *)
Definition distinct (t : topo) : Prop := NoDup (root t :: below t).
(* every isobar has a positive mass *)
Definition physical (s : lvs) (t : topo) : Prop := forall v, In v (vertices t) -> exists M, massive M (momentum s v).

(* s' holds the momenta of the particle t and of everything below it in the frames they have to be
   in: t itself in the frame F (rest frame of its parent), its daughters in the rest frame that is
   reached from F by the transformation for the momentum of t, and so on *)
Fixpoint placed (step : lv -> lv -> option lv) (F : lrot) (s s' : lvs) (t : topo) : Prop :=
  s' (root t) = lapply F (momentum s t)
  /\ match t with
     | Fs _ => True
     | Iso p _ a b => exists H, isLorentz H /\ (forall q, step (s' p) q = Some (lapply H q))
                     /\ placed step (lmul H F) s s' a /\ placed step (lmul H F) s s' b
     end.

(* momenta with which the amplitude is calculated: X keeps its momentum, its daughters are in the
   Gottfried-Jackson frame *)
Definition framed (step : lv -> lv -> option lv) (ref : lv) (t : topo) (s s' : lvs) : Prop :=
  exists G, gjTransform ref (momentum s t) = Some G /\ isLorentz G /\ s' (root t) = momentum s t
  /\ match t with Fs _ => True | Iso _ _ a b => placed step G s s' a /\ placed step G s s' b end.
Definition stepOf (f : formalism) : lv -> lv -> option lv := match f with Helicity => helStep | Canonical => canStep end.
(* X decays *)
Definition isDecay (t : topo) : Prop := match t with Fs _ => False | Iso _ _ _ _ => True end.
(* momentum turned around in the rest frame of X; momentum mirrored at the plane with normal n *)
Definition turned (X p : lv) : lv := lvSub (scale4 (2 * mink p X / mink X X) X) p.
Definition mirrored (n : v3) (p : lv) : lv := lvSub p (scale4 (2 * vdot (vect p) n / vdot n n) (ofV3 n)).
(* the event the amplitude is calculated for *)
Definition modified (inversion reflection : bool) (ref : lv) (t : topo) (s : lvs) : lvs :=
  let X := momentum s t in
  fun p => let q := if inversion then turned X (s p) else s p in
           if reflection then mirrored (cross (vect ref) (vect X)) q else q.

(* ---- amplitude ---- *)
(* sum over a list, product over a list *)
Definition csum {A} (l : list A) (f : A -> C) : C := fold_right (fun x c => f x + c)%C (RtoC 0) l.
Definition cprod {A} (l : list A) (f : A -> C) : C := fold_right (fun x c => f x * c)%C (RtoC 1) l.
(* the spin projections -j, -j+2, ..., j *)
Definition projections (j : Z) : list Z := map (fun k => 2 * Z.of_nat k - j)%Z (seq 0 (Z.to_nat (j + 1))).
(* all ways to choose the spin projections of the particles in l; the others are given by h *)
Fixpoint assignments (ps : parts) (l : list nat) (h : nat -> Z) : list (nat -> Z) :=
  match l with
  | [] => [h]
  | p :: l => flat_map (fun m => assignments ps l (fun q => if Nat.eqb q p then m else h q)) (projections (pJ ps p))
  end.

(* angles and magnitude of the momentum of a particle *)
Definition phiOf (p : lv) : R := vPhi (vect p).
Definition thetaOf (p : lv) : R := vTheta (vect p).

(* complex conjugate of the Wigner D function D^J_{M n}(phi, theta, 0) *)
Definition Dconj (J M n : Z) (phi theta : R) : C := (expI (IZR M / 2 * phi) * RtoC (wignerD J M n theta))%C.
(* states of defined reflectivity: theta(M) (|M> - refl P (-1)^(J-M) |-M>) *)
Definition reflNorm (M : Z) : R := if (M =? 0)%Z then / 2 else / sqrt 2.
Definition reflSign (J P M refl : Z) : R := IZR (refl * P * minusOnePow ((J - M) / 2)).
Definition reflState (J P M refl : Z) (f : Z -> C) : C :=
  (RtoC (reflNorm M) * (f M - RtoC (reflSign J P M refl) * f (- M)%Z))%C.

(* amplitude of the decay p -> a b with spin projections l -> l1 l2 in the helicity formalism:
   sqrt(2L+1) D^J*_{l, l1-l2} (L 0 S l1-l2 | J l1-l2) (s1 l1 s2 -l2 | S l1-l2) F_L(q) Delta(m) *)
Definition helVertexAmp (ps : parts) (refl : bool) (s : lvs) (p : nat) (v : vtx) (a b : nat) (l l1 l2 : Z) : C :=
  let J := pJ ps p in
  let D := fun M => Dconj J M (l1 - l2) (phiOf (s a)) (thetaOf (s a)) in
  (RtoC (sqrt (IZR (vL v + 1)))
   * (if refl then reflState J (pP ps p) l (pRefl ps p) D else D l)
   * RtoC (CG (vL v) 0 (vS v) (l1 - l2) J (l1 - l2)) * RtoC (CG (pJ ps a) l1 (pJ ps b) (- l2) (vS v) (l1 - l2))
   * RtoC (barrierFactor (vL v) (norm3 (vect (s a))) defaultPr)
   * vMassDep v (lvM (s p)) (lvM (s a)) (lvM (s b)))%C.

(* spherical harmonics *)
Definition Ylm (L m : Z) (theta phi : R) : C :=
  (RtoC (sqrt (IZR (L + 1) / (4 * PI))) * expI (IZR m / 2 * phi) * RtoC (wignerD L m 0 theta))%C.
(* amplitude of the decay p -> a b with spin projections m -> m1 m2 in the canonical formalism:
   sqrt(4 pi) (s1 m1 s2 m2 | S mS) F_L(q) Delta(m) sum_mL (L mL S mS | J m) Y_L^mL *)
Definition canVertexAmp (ps : parts) (refl : bool) (s : lvs) (p : nat) (v : vtx) (a b : nat) (m m1 m2 : Z) : C :=
  let J := pJ ps p in let mS := (m1 + m2)%Z in
  let LS := fun mL M => RtoC (CG (vL v) mL (vS v) mS J M) in
  (RtoC (sqrt (4 * PI)) * RtoC (CG (pJ ps a) m1 (pJ ps b) m2 (vS v) mS)
   * RtoC (barrierFactor (vL v) (norm3 (vect (s a))) defaultPr)
   * vMassDep v (lvM (s p)) (lvM (s a)) (lvM (s b))
   * csum (projections (vL v)) (fun mL => (if refl then reflState J (pP ps p) m (pRefl ps p) (LS mL) else LS mL m)
                                         * Ylm (vL v) mL (thetaOf (s a)) (phiOf (s a))))%C.

(* amplitude of a vertex for the spin projections h *)
Definition vertexAmp (f : formalism) (ps : parts) (refl : bool) (s : lvs) (h : nat -> Z) (t : topo) : C :=
  match t with
  | Fs _ => RtoC 1
  | Iso p v a b => (match f with Helicity => helVertexAmp | Canonical => canVertexAmp end) ps refl s p v (root a) (root b) (h p) (h (root a)) (h (root b))
  end.
(* the amplitude: coherent sum over the spin projections of all particles but X of the products of
   the amplitudes of all vertices; the reflectivity basis only concerns X *)
Definition decayAmp (f : formalism) (ps : parts) (refl : bool) (s : lvs) (t : topo) (h : nat -> Z) : C :=
  csum (assignments ps (below t) h) (fun h' =>
    match vertices t with
    | [] => RtoC 1
    | v :: vs => (vertexAmp f ps refl s h' v * cprod vs (vertexAmp f ps false s h'))%C
    end).

(* the spins are in the range of the Clebsch-Gordan cache, orbital angular momenta are integer *)
Definition spinsOk (ps : parts) (t : topo) : Prop :=
  (forall p, In p (root t :: below t) -> (0 <= pJ ps p < 18)%Z)
  /\ (forall p v a b, In (Iso p v a b) (vertices t) -> (0 <= vL v < 18)%Z /\ Z.even (vL v) = true /\ (0 <= vS v < 18)%Z).
(* X has the spin projection M; in the reflectivity basis M >= 0, P and reflectivity are signs *)
Definition stateOk (ps : parts) (refl : bool) (X : nat) (M : Z) : Prop :=
  isProjOf (pJ ps X) M /\ (refl = true -> (0 <= M)%Z /\ isSign (pP ps X) /\ isSign (pRefl ps X)).
