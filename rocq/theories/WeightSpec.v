(* C89: what the weights written by weightEvents are, independently of the loops that sum them. *)
From Coq Require Import String Ascii List ZArith Bool Reals.
From Coquelicot Require Import Complex.
From Verif Require Import PathModel StrModel ParticleModel FitResultModel AmpIntModel AmpIntProofs WeightModel.
Import ListNotations.
Open Scope list_scope.
Open Scope nat_scope.

Definition flatWave (w : str) : bool := str_eqb w (lit "flat").
(* the diagonal element of a wave in the integral matrix times the number of events of the matrix *)
Definition normOf (m : aim) (w : str) (q : R) : Prop :=
  exists k x, nth_error (waveNames m) k = Some w /\ element m k k = Some x /\ q = (Re x * IZR (nmbEvents m))%R.
(* decay amplitude of a wave for an event: entry of its file *)
Definition decayAmp (files : str -> option (list (list C))) (w : str) (e : nat) (a : C) : Prop :=
  exists t, files w = Some t /\ nth_error t e = Some [a].
(* wave, rank and reflectivity of a production amplitude of the fit result: read from its name *)
Definition labels (fr : fitResult) (i : nat) (w : str) (rank refl : Z) : Prop :=
  exists n, nth_error (frAmpNames fr) i = Some n /\ w = waveNameForProdAmp n /\ rankOfProdAmp n = Some rank /\ getReflectivity w = Some refl.
(* what production amplitude [i] with value [p] contributes in event [e]: decay amplitude times production amplitude,
   normalised with the integral of the wave; the flat wave has the decay amplitude 1 *)
Definition contribution (fr : fitResult) (m : aim) (files : str -> option (list (list C))) (e i : nat) (p : C) (w : str) (rank refl : Z) (z : C) : Prop :=
  labels fr i w rank refl
  /\ (if flatWave w then (0 < IZR (nmbEvents m))%R /\ z = (p / RtoC (sqrt (IZR (nmbEvents m))))%C
      else exists a q, decayAmp files w e a /\ normOf m w q /\ (0 < q)%R /\ z = (a * p / RtoC (sqrt q))%C).
(* do two production amplitudes interfere? equal reflectivity (+1 or -1) and equal rank; the flat wave only with itself *)
Definition together (w w' : str) (rank rank' refl refl' : Z) : bool :=
  if flatWave w then flatWave w' else if flatWave w' then false else negb (refl =? 0)%Z && (refl =? refl')%Z && (rank =? rank')%Z.
(* sum over all pairs of production amplitudes that interfere *)
Definition intensity (w : nat -> str) (rank refl : nat -> Z) (z : nat -> C) (n : nat) : C :=
  csumA (fun i => csumA (fun j => if together (w i) (w j) (rank i) (rank j) (refl i) (refl j) then z i * Cconj (z j) else RtoC 0)%C (seq 0 n)) (seq 0 n).
(* the same for the waves of a reflectivity only *)
Definition intensityOf (r : Z) (w : nat -> str) (rank refl : nat -> Z) (z : nat -> C) (n : nat) : C :=
  csumA (fun i => csumA (fun j => if negb (flatWave (w i)) && negb (flatWave (w j)) && (refl i =? r)%Z && (refl j =? r)%Z && (rank i =? rank j)%Z then z i * Cconj (z j) else RtoC 0)%C (seq 0 n)) (seq 0 n).
(* values of the production amplitudes in a sample: the fit result itself is number 0 *)
Definition sampleAmps (fr : fitResult) (U : nat -> nat -> R) (random : list (nat -> R)) (s : nat) (amps : list C) : Prop :=
  match s with 0 => amps = frAmps fr | S k => exists x, nth_error random k = Some x /\ variedProdAmps fr U x = Some amps end.
(* the fit result used: within half a width of the center, no other is closer, among equally close ones the first with the
   smallest -log likelihood *)
Definition best (center width : R) (l : list (R * R)) (j : nat) : Prop :=
  exists m v, nth_error l j = Some (m, v) /\ (center - width / 2 <= m <= center + width / 2)%R
    /\ forall k m' v', nth_error l k = Some (m', v') ->
         (Rabs (center - m) < Rabs (center - m'))%R \/ (Rabs (center - m) = Rabs (center - m') /\ ((v < v')%R \/ (v = v' /\ j <= k))).
(* sum of real numbers *)
Definition rsum {A} (f : A -> R) (l : list A) : R := fold_right (fun x s => (f x + s)%R) 0%R l.
(* only one production amplitude of the flat wave *)
Definition oneFlat (fr : fitResult) : Prop :=
  forall i j n n', nth_error (frAmpNames fr) i = Some n -> nth_error (frAmpNames fr) j = Some n' ->
    flatWave (waveNameForProdAmp n) = true -> flatWave (waveNameForProdAmp n') = true -> i = j.
(* the fit result that the program uses *)
Definition usedResult (center width : R) (results : list ((R * R) * fitResult)) (fr : fitResult) : Prop :=
  exists j m v, best center width (map fst results) j /\ nth_error results j = Some ((m, v), fr).
(* the integral matrix was calculated from the same events as the amplitude files *)
Definition sameEvents (mat : aim) (files : str -> option (list (list C))) (n : nat) : Prop :=
  nmbEvents mat = Z.of_nat n
  /\ forall w q (a : nat -> C), flatWave w = false -> normOf mat w q -> (forall e, e < n -> decayAmp files w e (a e)) -> q = rsum (fun e => cnorm2 (a e)) (seq 0 n).
(* overlap of two amplitudes: sum over the events *)
Definition overlap (a b : nat -> C) (n : nat) : C := csumA (fun e => a e * Cconj (b e))%C (seq 0 n).
(* random numbers with mean zero, variance one and without correlations *)
Definition white (n : nat) (xs : list (nat -> R)) : Prop :=
  (forall j, j < n -> rsum (fun x => x j) xs = 0%R)
  /\ forall j k, j < n -> k < n -> rsum (fun x => x j * x k)%R xs = if j =? k then INR (length xs) else 0%R.
(* Cholesky factor as TDecompChol returns it: upper triangle, A = U^T U *)
Definition isCholesky (U : nat -> nat -> R) (A : nat -> nat -> R) (n : nat) : Prop :=
  (forall i j, i < n -> j < i -> U i j = 0%R) /\ (forall i, i < n -> (0 < U i i)%R)
  /\ forall i j, i < n -> j < n -> rsum (fun m => U m i * U m j)%R (seq 0 n) = A i j.
(* real or imaginary part of a production amplitude, and the index of the fit parameter that is this part *)
Definition partOf (im : bool) (z : C) : R := if im then Im z else Re z.
Definition parameterOf (fr : fitResult) (it : nat) (im : bool) (j : nat) : Prop :=
  exists ix, nth_error (frCovIdx fr) it = Some ix /\ (if im then snd ix else fst ix) = Z.of_nat j /\ j < rows (frCov fr).
(* how far a part of a production amplitude is moved away from the fit result *)
Definition moved (fr : fitResult) (it : nat) (im : bool) (amps : list C) : R :=
  (partOf im (nth it amps (RtoC 0)) - partOf im (nth it (frAmps fr) (RtoC 0)))%R.
