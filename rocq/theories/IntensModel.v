(* Model of generators/modelIntensity.{h,cc}: intensity of a fit result for given momenta (C83).

   double is R, std::complex<double> is C, [None] is an abort, an exception or undefined behaviour
   (also a division by zero).  Simplifications: a decay amplitude is given by its wave name, the
   reflectivity and the name of X, whether initKinematicsData accepts the particle names, and its value
   for the momenta; the fit result behind the shared pointer does not change after construction. *)
From Coq Require Import String Ascii List ZArith Bool Reals.
From Coquelicot Require Import Complex.
From Verif Require Import PathModel StrModel ParticleModel FitResultModel AmpIntModel.
From Verif Require PhaseModel PhysModel.
Import ListNotations.
Open Scope list_scope.
Open Scope nat_scope.

(* TVector3, modelIntensity.h 48 *)
Definition vec := PhaseModel.v3.
(* isobarAmplitude with its topology, as used in modelIntensity.cc 25-44, 117-166, 192-220: name of the wave
   (waveNameFromTopology), reflectivity and name of X; [daInit] = result of initKinematicsData,
   [daEval] = amplitude() after readKinematicsData (None: the momenta are not accepted) for the particle
   names the topology was initialised with.  First argument: the topology starts at the decay of X *)
Record decAmp := DA {
  daName : str; daRefl : Z; daXName : str;
  daInit : bool -> list str -> list str -> bool;
  daEval : bool -> list str -> list vec -> list vec -> option C }.
(* modelIntensity.h 76: element of _decayAmplitudes; the topology starts at the decay of X
   (modelIntensity.cc 151-155), names of the decay particles of the last initialisation *)
Record slot := Slot { slAmp : decAmp; slCut : bool; slNames : list str }.
(* modelIntensity.h 72-83 *)
Record mi := MI {
  miFR : fitResult; miNoFlat : list nat; miInit : bool; miAmps : list (option slot); miRefls : list Z; miAll : list Z;
  miLoaded : bool; miPS : list R; miFromX : bool }.

(* modelIntensity.cc 10, 13: nmbWaves() of the fit result *)
Definition nWaves (fr : fitResult) : nat := length (frWaveNames fr).
(* modelIntensity.cc 21: the pattern matches all names but "flat" *)
Definition noFlat (fr : fitResult) : list nat :=
  filter (fun i => match nth_error (frWaveNames fr) i with Some w => negb (str_eqb w (lit "flat")) | None => false end) (seq 0 (nWaves fr)).
(* modelIntensity.cc 6-22: the constructor *)
Definition newMI (fr : fitResult) : mi :=
  let given := length (frPhaseSpace fr) =? nWaves fr in
  MI fr (noFlat fr) false (repeat None (nWaves fr)) (repeat 0%Z (nWaves fr)) [] given
     (if given then frPhaseSpace fr else repeat 0%R (nWaves fr)) false.

(* C++ assignment to an element of a vector *)
Fixpoint put {A} (l : list A) (i : nat) (x : A) : list A :=
  match l, i with [], _ => [] | _ :: r, O => x :: r | y :: r, S k => y :: put r k x end.
(* std::set<int>::insert, modelIntensity.cc 42: ordered *)
Fixpoint setInsert (x : Z) (l : list Z) : list Z :=
  match l with
  | [] => [x]
  | y :: r => if (x <? y)%Z then x :: l else if (y <? x)%Z then y :: setInsert x r else l
  end.
(* modelIntensity.cc 25-44: addDecayAmplitude *)
Definition addDecayAmplitude (a : decAmp) (m : mi) : option (bool * mi) :=
  match waveIndexOf (miFR m) (daName a) with
  | None => Some (false, m)
  | Some i =>
      doP old <- nth_error (miAmps m) i;
      match old with
      | Some _ => Some (false, m)
      | None =>
          Some (true, MI (miFR m) (miNoFlat m) false (put (miAmps m) i (Some (Slot a false []))) (put (miRefls m) i (daRefl a))
                         (setInsert (daRefl a) (miAll m)) (miLoaded m) (miPS m) (miFromX m))
      end
  end.

(* std::vector::resize, modelIntensity.cc 51 *)
Definition resizeR (n : nat) (l : list R) : list R := firstn n l ++ repeat 0%R (n - length l).
(* modelIntensity.cc 53-65: the waves [todo] from number i on *)
Fixpoint loadLoop (mat : aim) (i : nat) (todo : list str) (ps : list R) : option (bool * list R) :=
  match todo with
  | [] => Some (true, ps)
  | w :: todo =>
      if str_eqb w (lit "flat") then loadLoop mat (S i) todo (put ps i 1%R)
      else if negb (containsWave mat w) then Some (false, ps)
      else
        doP k <- waveIndex mat w;
        if (nmbEvents mat =? 0)%Z then None
        else
          doP x <- element mat k k;
          doP r <- PhaseModel.osqrt (Re x);
          loadLoop mat (S i) todo (put ps i r)
  end.
(* modelIntensity.cc 47-69: loadPhaseSpaceIntegral *)
Definition loadPhaseSpaceIntegral (mat : aim) (m : mi) : option (bool * mi) :=
  doP (ok, ps) <- loadLoop mat 0 (frWaveNames (miFR m)) (resizeR (nWaves (miFR m)) (miPS m));
  Some (ok, MI (miFR m) (miNoFlat m) (miInit m) (miAmps m) (miRefls m) (miAll m) ok ps (miFromX m)).

(* modelIntensity.cc 127-162: the waves [todo] from number i on; [names] are the names of the
   production particles, which setProdKinParticleNames (96-112) fills in if [fromX] *)
Fixpoint initLoop (fromX : bool) (decNames : list str) (i : nat) (todo : list str) (names : list str) (amps : list (option slot)) : option (bool * list (option slot)) :=
  match todo with
  | [] => Some (true, amps)
  | w :: todo =>
      doP a <- nth_error amps i;
      if str_eqb w (lit "flat") then
        match a with
        | Some _ => Some (false, amps)
        | None => initLoop fromX decNames (S i) todo names amps
        end
      else
        match a with
        | None => Some (false, amps)
        | Some s =>
            let missing := match names with [] => true | n :: _ => str_eqb n [] end in
            let names := if missing && fromX then [daXName (slAmp s)] else names in
            let cut := fromX || slCut s in
            let amps := put amps i (Some (Slot (slAmp s) cut decNames)) in
            if negb (daInit (slAmp s) cut names decNames) then Some (false, amps)
            else initLoop fromX decNames (S i) todo names amps
        end
  end.
(* modelIntensity.cc 117-166: initDecayAmplitudes, with the production particles (fromX = false, 80-85)
   or from the decay of X on (fromX = true, 72-77: one empty name) *)
Definition initDecayAmplitudes (fromX : bool) (prodNames decNames : list str) (m : mi) : option (bool * mi) :=
  doP (ok, amps) <- initLoop fromX decNames 0 (frWaveNames (miFR m)) (if fromX then [[]] else prodNames) (miAmps m);
  Some (ok, MI (miFR m) (miNoFlat m) ok amps (miRefls m) (miAll m) (miLoaded m) (miPS m) fromX).

(* C++ division of a complex number by a double *)
Definition cdivR (x : C) (y : R) : option C := if Req_EM_T y 0 then None else Some (x / RtoC y)%C.
(* modelIntensity.cc 206-218: one wave *)
Definition waveAmp (m : mi) (prod dec : list vec) (i : nat) : option C :=
  doP a <- nth_error (miAmps m) i;
  doP n <- nth_error (miPS m) i;
  match a with
  | None => cdivR (RtoC 1) n
  | Some s => doP x <- daEval (slAmp s) (slCut s) (slNames s) prod dec; cdivR x n
  end.
(* modelIntensity.cc 192-220: getDecayAmplitudes *)
Definition getDecayAmplitudes (m : mi) (prod dec : list vec) : option (list C) :=
  if negb (miInit m) then None
  else if negb (miLoaded m) then None
  else mapP (waveAmp m prod dec) (seq 0 (nWaves (miFR m))).
(* modelIntensity.cc 178-184: the coherent sum for one reflectivity *)
Fixpoint cohSum (m : mi) (amps : list C) (refl : Z) (idx : list nat) (acc : C) : option C :=
  match idx with
  | [] => Some acc
  | i :: idx =>
      doP r <- nth_error (miRefls m) i;
      if (r =? refl)%Z then
        doP t <- prodAmpAt (miFR m) i;
        doP a <- nth_error amps i;
        cohSum m amps refl idx (acc + t * a)%C
      else cohSum m amps refl idx acc
  end.
(* std::norm, modelIntensity.cc 185 *)
Definition cnorm (z : C) : R := (Re z * Re z + Im z * Im z)%R.
(* modelIntensity.cc 176-186: the sum over the reflectivities *)
Fixpoint incohSum (m : mi) (amps : list C) (idx : list nat) (refls : list Z) (acc : R) : option R :=
  match refls with
  | [] => Some acc
  | e :: refls => doP z <- cohSum m amps e idx (RtoC 0); incohSum m amps idx refls (acc + cnorm z)%R
  end.
(* modelIntensity.cc 169-189: getIntensity of the given waves *)
Definition getIntensity (m : mi) (idx : list nat) (prod dec : list vec) : option R :=
  doP amps <- getDecayAmplitudes m prod dec;
  incohSum m amps idx (miAll m) 0%R.
(* modelIntensity.h 105-116: without production kinematics *)
Definition getIntensityX (m : mi) (idx : list nat) (dec : list vec) : option R :=
  if negb (miFromX m) then None else getIntensity m idx [PhaseModel.V3 0 0 0] dec.
(* modelIntensity.h 96-102: of all waves except the flat wave *)
Definition getIntensityAll (m : mi) (prod dec : list vec) : option R := getIntensity m (miNoFlat m) prod dec.
(* modelIntensity.h 88-93 *)
Definition getIntensityAllX (m : mi) (dec : list vec) : option R := getIntensityX m (miNoFlat m) dec.
