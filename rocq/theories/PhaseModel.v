(* Model of the n-body phase-space generator, nBodyPhaseSpace/nBodyPhaseSpaceKinematics.{h,cc} and
   nBodyPhaseSpace/nBodyPhaseSpaceGenerator.{h,cc}, and of the functions of ROOT's TLorentzVector
   that it calls (C72).

   double is R (no rounding).  [None] is an abort ([throw;] without active exception), an access
   outside a vector, a number that is not finite where the code does not test for it, or a loop
   that does not end.  Where non-finite numbers do occur and the code deals with them (event
   weights) the type [ieee] below is used.  The random number generator is a stream of numbers and
   the position of the next one.

   Simplifications: unsigned int and the factorial do not overflow; messages are left out. *)
From Coq Require Import List ZArith Reals Bool.
From Verif Require Import ArrayModel CGBoxModel PhysModel.
Import ListNotations.
Open Scope R_scope.

(* C++ sqrt of a double: NaN for negative arguments *)
Definition osqrt (x : R) : option R := if rltb x 0 then None else Some (sqrt x).

(* ---- ROOT: TLorentzVector ---- *)
(* TLorentzVector, used in nBodyPhaseSpaceKinematics.h 193: x, y, z, t *)
Record lv := Lv { lx : R; ly : R; lz : R; lt : R }.
(* TVector3, used in nBodyPhaseSpaceKinematics.cc 359 *)
Record v3 := V3 { vx : R; vy : R; vz : R }.
(* TLorentzVector::operator -=, used in nBodyPhaseSpaceKinematics.cc 384 *)
Definition lvSub (p q : lv) : lv := Lv (lx p - lx q) (ly p - ly q) (lz p - lz q) (lt p - lt q).
(* TLorentzVector::M2: t*t - p*p *)
Definition lvM2 (p : lv) : R := lt p * lt p - (lx p * lx p + ly p * ly p + lz p * lz p).
(* TLorentzVector::M, used in nBodyPhaseSpaceGenerator.cc 58, 82 *)
Definition lvM (p : lv) : R := let mm := lvM2 p in if rltb mm 0 then - sqrt (- mm) else sqrt mm.
(* TLorentzVector::BoostVector, used in nBodyPhaseSpaceKinematics.cc 359, 382 *)
Definition boostVector (p : lv) : option v3 :=
  do x <- rdiv (lx p) (lt p); do y <- rdiv (ly p) (lt p); do z <- rdiv (lz p) (lt p); Some (V3 x y z).
(* TLorentzVector::Boost, used in nBodyPhaseSpaceKinematics.cc 355, 361, 382 *)
Definition boost (b : v3) (p : lv) : option lv :=
  let b2 := vx b * vx b + vy b * vy b + vz b * vz b in
  do s <- osqrt (1 - b2);
  do gamma <- rdiv 1 s;
  let bp := vx b * lx p + vy b * ly p + vz b * lz p in
  let gamma2 := if rltb 0 b2 then (gamma - 1) / b2 else 0 in
  Some (Lv (lx p + gamma2 * bp * vx b + gamma * vx b * lt p)
           (ly p + gamma2 * bp * vy b + gamma * vy b * lt p)
           (lz p + gamma2 * bp * vz b + gamma * vz b * lt p)
           (gamma * (lt p + bp))).

(* ---- numbers that need not be finite ---- *)
(* IEEE double: finite, infinite (true = negative), not a number; used for the event weight,
   nBodyPhaseSpaceKinematics.h 194 *)
Inductive ieee := Fin (x : R) | Inf (negative : bool) | NaN.
(* sign bit of a number different from zero; a zero divisor counts as +0
   (in nBodyPhaseSpaceKinematics.cc 269 divisors are differences x - y with x >= y) *)
Definition signOf (x : R) : bool := rltb x 0.
(* IEEE division, as in nBodyPhaseSpaceKinematics.cc 248, 269, 288 *)
Definition idiv (a b : ieee) : ieee :=
  match a, b with
  | Fin x, Fin y => if reqb y 0 then (if reqb x 0 then NaN else Inf (signOf x)) else Fin (x / y)
  | Fin _, Inf _ => Fin 0
  | Inf s, Fin y => Inf (xorb s (signOf y))
  | _, _ => NaN
  end.
(* IEEE multiplication, as in nBodyPhaseSpaceKinematics.cc 268-272 *)
Definition imul (a b : ieee) : ieee :=
  match a, b with
  | Fin x, Fin y => Fin (x * y)
  | Fin x, Inf s => if reqb x 0 then NaN else Inf (xorb (signOf x) s)
  | Inf s, Fin y => if reqb y 0 then NaN else Inf (xorb s (signOf y))
  | Inf s, Inf t => Inf (xorb s t)
  | _, _ => NaN
  end.
(* IEEE subtraction, as in nBodyPhaseSpaceGenerator.cc 125 *)
Definition isub (a b : ieee) : ieee :=
  match a, b with
  | Fin x, Fin y => Fin (x - y)
  | Fin _, Inf s => Inf (negb s)
  | Inf s, Fin _ => Inf s
  | Inf s, Inf t => if xorb s t then Inf s else NaN
  | _, _ => NaN
  end.
(* C++ pow with a non-negative integer exponent; pow(x, 0) = 1 for every x *)
Definition ipow (a : ieee) (n : nat) : ieee :=
  match n, a with
  | O, _ => Fin 1
  | _, Fin x => Fin (x ^ n)
  | _, Inf s => Inf (s && Nat.odd n)
  | _, NaN => NaN
  end.
(* IEEE comparison operator >, as in nBodyPhaseSpaceKinematics.cc 301 and
   nBodyPhaseSpaceGenerator.cc 129 *)
Definition igtb (a b : ieee) : bool :=
  match a, b with
  | Fin x, Fin y => rltb y x
  | Fin _, Inf s => s
  | Inf s, Fin _ => negb s
  | Inf s, Inf t => negb s && t
  | _, _ => false
  end.

(* ---- the object ---- *)
(* nBodyPhaseSpaceKinematics.h 120-123 *)
Inductive weightType := S_U_CHUNG | NUPHAZ | GENBOD | FLAT.
(* nBodyPhaseSpaceKinematics.h 133-134 *)
Inductive kinematicsType := BLOCK | RAUBOLD_LYNCH.
(* nBodyPhaseSpaceKinematics.h 173-195, nBodyPhaseSpaceGenerator.h 104; the fields are
   _weightType, _kinematicsType, _n, _m, _mSum, _norm, _M, _cosTheta, _phi, _breakupMom,
   _daughters, _weight, _maxWeightObserved, _maxWeight *)
Record gen := Gen {
  gWT : weightType; gKT : kinematicsType; gN : nat; gm : list R; gmSum : list R; gNorm : R;
  gM : list R; gCos : list R; gPhi : list R; gQ : list R; gDau : list lv; gW : ieee; gMaxObs : ieee; gMaxW : R }.
(* nBodyPhaseSpaceKinematics.cc 94-101, nBodyPhaseSpaceGenerator.cc 44-46: construction *)
Definition newGen : gen := Gen S_U_CHUNG BLOCK 0 [] [] 0 [] [] [] [] [] (Fin 0) (Fin 0) 0.
(* nBodyPhaseSpaceKinematics.h 124 *)
Definition setWeightType (t : weightType) (g : gen) : gen :=
  Gen t (gKT g) (gN g) (gm g) (gmSum g) (gNorm g) (gM g) (gCos g) (gPhi g) (gQ g) (gDau g) (gW g) (gMaxObs g) (gMaxW g).
(* nBodyPhaseSpaceKinematics.h 135 *)
Definition setKinematicsType (t : kinematicsType) (g : gen) : gen :=
  Gen (gWT g) t (gN g) (gm g) (gmSum g) (gNorm g) (gM g) (gCos g) (gPhi g) (gQ g) (gDau g) (gW g) (gMaxObs g) (gMaxW g).
(* nBodyPhaseSpaceGenerator.h 84 *)
Definition setMaxWeight (w : R) (g : gen) : gen :=
  Gen (gWT g) (gKT g) (gN g) (gm g) (gmSum g) (gNorm g) (gM g) (gCos g) (gPhi g) (gQ g) (gDau g) (gW g) (gMaxObs g) w.
(* nBodyPhaseSpaceKinematics.h 147 *)
Definition resetMaxWeightObserved (g : gen) : gen :=
  Gen (gWT g) (gKT g) (gN g) (gm g) (gmSum g) (gNorm g) (gM g) (gCos g) (gPhi g) (gQ g) (gDau g) (gW g) (Fin 0) (gMaxW g).
(* assignment to _M, nBodyPhaseSpaceKinematics.cc 198 *)
Definition withM (M : list R) (g : gen) : gen :=
  Gen (gWT g) (gKT g) (gN g) (gm g) (gmSum g) (gNorm g) M (gCos g) (gPhi g) (gQ g) (gDau g) (gW g) (gMaxObs g) (gMaxW g).
(* assignment to _cosTheta and _phi, nBodyPhaseSpaceKinematics.cc 216-217 *)
Definition withAngles (c p : list R) (g : gen) : gen :=
  Gen (gWT g) (gKT g) (gN g) (gm g) (gmSum g) (gNorm g) (gM g) c p (gQ g) (gDau g) (gW g) (gMaxObs g) (gMaxW g).
(* assignment to _breakupMom, nBodyPhaseSpaceKinematics.cc 228 *)
Definition withQ (q : list R) (g : gen) : gen :=
  Gen (gWT g) (gKT g) (gN g) (gm g) (gmSum g) (gNorm g) (gM g) (gCos g) (gPhi g) q (gDau g) (gW g) (gMaxObs g) (gMaxW g).
(* assignment to _daughters, nBodyPhaseSpaceKinematics.cc 387 *)
Definition withDau (d : list lv) (g : gen) : gen :=
  Gen (gWT g) (gKT g) (gN g) (gm g) (gmSum g) (gNorm g) (gM g) (gCos g) (gPhi g) (gQ g) d (gW g) (gMaxObs g) (gMaxW g).
(* assignment to _weight and _maxWeightObserved, nBodyPhaseSpaceKinematics.cc 300-306 *)
Definition withWeight (w mx : ieee) (g : gen) : gen :=
  Gen (gWT g) (gKT g) (gN g) (gm g) (gmSum g) (gNorm g) (gM g) (gCos g) (gPhi g) (gQ g) (gDau g) w mx (gMaxW g).
(* assignment to _n alone, nBodyPhaseSpaceKinematics.cc 113 *)
Definition withN (n : nat) (g : gen) : gen :=
  Gen (gWT g) (gKT g) n (gm g) (gmSum g) (gNorm g) (gM g) (gCos g) (gPhi g) (gQ g) (gDau g) (gW g) (gMaxObs g) (gMaxW g).

(* nBodyPhaseSpaceKinematics.cc 131-151: the normalisation *)
Definition normOf (t : weightType) (n : nat) : R :=
  match t with
  | S_U_CHUNG => 1 / (2 * (2 * PI) ^ (2 * n - 3) * INR (fact (n - 2)))
  | NUPHAZ => 8 / ((4 * PI) ^ (2 * n + 1) * INR (fact (n - 2)) * INR (fact (n - 2)) * INR (n - 1))
  | GENBOD | FLAT => 1
  end.
(* nBodyPhaseSpaceKinematics.cc 109-172: setDecay *)
Definition setDecay (masses : list R) (g : gen) : option (bool * gen) :=
  let n := length masses in
  if (n <? 2)%nat then Some (false, withN n g)
  else
    do m0 <- rd masses 0;
    do mSum <- wr (repeat 0 n) 0 m0;
    do mSum <- foldO (fun i s => do a <- rd s (i - 1); do m <- rd masses i; wr s i (a + m)) (seq 1 (n - 1)) mSum;
    do M <- wr (repeat 0 n) 0 m0;
    Some (true, Gen (gWT g) (gKT g) n masses mSum (normOf (gWT g) n) M (repeat 0 n) (repeat 0 n) (repeat 0 n)
                    (repeat (Lv 0 0 0 0) n) (gW g) (Fin 0) (gMaxW g)).
(* nBodyPhaseSpaceKinematics.cc 190-199: setMasses *)
Definition setMasses (M : list R) (g : gen) : option gen :=
  if negb (length M =? gN g)%nat then None else Some (withM M g).
(* nBodyPhaseSpaceKinematics.cc 203-218: setAngles *)
Definition setAngles (cosTheta phi : list R) (g : gen) : option gen :=
  if negb (length cosTheta =? gN g)%nat then None
  else if negb (length phi =? gN g)%nat then None
  else Some (withAngles cosTheta phi g).
(* nBodyPhaseSpaceKinematics.cc 224-230: calcBreakupMomenta *)
Definition calcBreakupMomenta (g : gen) : option gen :=
  do q <- foldO (fun i q =>
      do Mi <- rd (gM g) i; do Mp <- rd (gM g) (i - 1); do mi <- rd (gm g) i;
      do b <- breakupMomentum Mi Mp mi;
      wr q i b) (seq 1 (gN g - 1)) (gQ g);
  Some (withQ q g).

(* nBodyPhaseSpaceKinematics.cc 243-246, 277-280: product of the breakup momenta *)
Definition momProd (g : gen) : option R :=
  foldO (fun i p => do q <- rd (gQ g) i; Some (p * q)) (seq 1 (gN g - 1)) 1.
(* nBodyPhaseSpaceKinematics.h 204-214: F *)
Definition F (x y : R) : R :=
  let val := 1 + (x - y) * (x - y) - 2 * (x + y) in if rltb val 0 then 0 else sqrt val.
(* nBodyPhaseSpaceKinematics.cc 254-269: the factor of one (i + 1)-body system *)
Definition nuphazFactor (g : gen) (i : nat) : option ieee :=
  do mi <- rd (gm g) i; do Mi <- rd (gM g) i; do sp <- rd (gmSum g) (i - 1); do Mp <- rd (gM g) (i - 1);
  do sqrtU <- rdiv mi Mi;
  let u := sqrtU * sqrtU in
  do xMin <- rdiv (sp * sp) (Mi * Mi);
  let xMax := (1 - sqrtU) * (1 - sqrtU) in
  let deltaX := xMax - xMin in
  let term := 1 + u - xMin in
  do sqrtX <- rdiv Mp Mi;
  let x := sqrtX * sqrtX in
  let deltaZ := (INR i * term - INR (i - 1) * deltaX) * deltaX ^ (i - 1) in
  Some (idiv (imul (imul (Fin deltaZ) (ipow (idiv (Fin x) (Fin (x - xMin))) (i - 2))) (Fin (F x u))) (Fin (1 + u - x))).
(* nBodyPhaseSpaceKinematics.cc 240-299: the weight before the test for NaN *)
Definition rawWeight (g : gen) : option ieee :=
  match gWT g with
  | S_U_CHUNG =>
      do p <- momProd g; do Mn <- rd (gM g) (gN g - 1); do s <- rd (gmSum g) (gN g - 1);
      Some (idiv (Fin (gNorm g * (Mn - s) ^ (gN g - 2) * p)) (Fin Mn))
  | NUPHAZ =>
      do w <- foldO (fun i w => do f <- nuphazFactor g i; Some (imul w f)) (rev (seq 2 (gN g - 2))) (Fin 1);
      do M1 <- rd (gM g) 1; do Mn <- rd (gM g) (gN g - 1); do m0 <- rd (gm g) 0; do m1 <- rd (gm g) 1;
      do a <- rdiv (m1 * m1) (M1 * M1); do b <- rdiv (m0 * m0) (M1 * M1);
      Some (imul w (Fin (gNorm g * Mn ^ (2 * gN g - 4) * F a b)))
  | GENBOD =>
      do p <- momProd g; do Mn <- rd (gM g) (gN g - 1); do s <- rd (gmSum g) (gN g - 1); do m0 <- rd (gm g) 0;
      do r <- foldO (fun i r =>
          do mi <- rd (gm g) i; do sp <- rd (gmSum g) (i - 1);
          let mother := fst r + mi in
          do b <- breakupMomentum mother sp mi;
          Some (mother, snd r * b)) (seq 1 (gN g - 1)) (Mn - s + m0, 1);
      Some (idiv (Fin p) (Fin (snd r)))
  | FLAT => Some (Fin 1)
  end.
(* nBodyPhaseSpaceKinematics.cc 236-308: calcWeight; with fewer than two
   daughters (setDecay failed) the behaviour is undefined or not modelled *)
Definition calcWeight (g : gen) : option gen :=
  if (gN g <? 2)%nat then None else
  do g <- calcBreakupMomenta g;
  do w <- rawWeight g;
  let mx := if igtb w (gMaxObs g) then w else gMaxObs g in
  Some (withWeight (match w with NaN => Fin 0 | _ => w end) mx g).

(* for (j = 0; j < k; ++j) daughters[j] = f(daughters[j]), nBodyPhaseSpaceKinematics.cc 335-349,
   354-356, 360-362 *)
Definition forFirst (k : nat) (f : lv -> option lv) (d : list lv) : option (list lv) :=
  foldO (fun j d => do p <- rd d j; do p' <- f p; wr d j p') (seq 0 k) d.
(* nBodyPhaseSpaceKinematics.cc 337-342: rotate by theta around y-axis *)
Definition rotTheta (cT sT : R) (p : lv) : lv := Lv (sT * lz p + cT * lx p) (ly p) (cT * lz p - sT * lx p) (lt p).
(* nBodyPhaseSpaceKinematics.cc 343-348: rotate by phi around z-axis *)
Definition rotPhi (cP sP : R) (p : lv) : lv := Lv (cP * lx p - sP * ly p) (sP * lx p + cP * ly p) (lz p) (lt p).
(* nBodyPhaseSpaceKinematics.cc 352-353: beta = 1 / sqrt(1 + (M / q)^2); for q = 0 the quotient is
   infinite and beta = 0, unless M = 0 as well (NaN) *)
Definition betaOf (M q : R) : option R :=
  if reqb q 0 then (if reqb M 0 then None else Some 0)
  else do s <- osqrt (1 + M / q * (M / q)); rdiv 1 s.
(* nBodyPhaseSpaceKinematics.cc 318-366: calcEventKinematics with RAUBOLD_LYNCH *)
Definition eventRL (nBody : lv) (g : gen) : option (list lv) :=
  let n := gN g in
  do m0 <- rd (gm g) 0; do q1 <- rd (gQ g) 1;
  do e <- osqrt (m0 * m0 + q1 * q1);
  do d <- wr (gDau g) 0 (Lv 0 0 q1 e);
  foldO (fun i d =>
    do mi <- rd (gm g) i; do qi <- rd (gQ g) i;
    do e <- osqrt (mi * mi + qi * qi);
    do d <- wr d i (Lv 0 0 (- qi) e);
    do cT <- rd (gCos g) i; do ph <- rd (gPhi g) i;
    do sT <- osqrt (1 - cT * cT);
    do d <- forFirst (i + 1) (fun p => Some (rotPhi (cos ph) (sin ph) (rotTheta cT sT p))) d;
    if (i <? n - 1)%nat then
      do Mi <- rd (gM g) i; do qn <- rd (gQ g) (i + 1);
      do beta <- betaOf Mi qn;
      forFirst (i + 1) (boost (V3 0 0 beta)) d
    else
      do b <- boostVector nBody;
      forFirst n (boost b) d) (seq 1 (n - 1)) d.
(* nBodyPhaseSpaceKinematics.cc 367-389: calcEventKinematics with BLOCK *)
Definition eventBlock (nBody : lv) (g : gen) : option (list lv) :=
  do r <- foldO (fun i r =>
    let P := fst r in
    do c <- rd (gCos g) i; do ph <- rd (gPhi g) i; do q <- rd (gQ g) i; do m <- rd (gm g) i;
    do sinTheta <- osqrt (1 - c * c);
    let pT := q * sinTheta in
    do e <- osqrt (m * m + q * q);
    do b <- boostVector P;
    do dau <- boost b (Lv (pT * cos ph) (pT * sin ph) (q * c) e);
    do d <- wr (snd r) i dau;
    Some (lvSub P dau, d)) (rev (seq 1 (gN g - 1))) (nBody, gDau g);
  wr (snd r) 0 (fst r).
(* nBodyPhaseSpaceKinematics.cc 314-394: calcEventKinematics; with fewer
   than two daughters the behaviour is undefined or not modelled *)
Definition calcEventKinematics (nBody : lv) (g : gen) : option gen :=
  if (gN g <? 2)%nat then None else
  do d <- match gKT g with RAUBOLD_LYNCH => eventRL nBody g | BLOCK => eventBlock nBody g end;
  Some (withDau d g).

(* ---- the generator ---- *)
(* std::sort on a vector of doubles, nBodyPhaseSpaceGenerator.cc 148 *)
Fixpoint insertR (x : R) (l : list R) : list R :=
  match l with [] => [x] | y :: l' => if rltb y x then y :: insertR x l' else x :: l end.
(* std::sort on a vector of doubles, nBodyPhaseSpaceGenerator.cc 148 *)
Fixpoint sortR (l : list R) : list R := match l with [] => [] | x :: l' => insertR x (sortR l') end.
(* unique(begin, end) == end, nBodyPhaseSpaceGenerator.cc 151 *)
Fixpoint noRepetition (l : list R) : bool :=
  match l with x :: ((y :: _) as l') => negb (reqb x y) && noRepetition l' | _ => true end.
(* nBodyPhaseSpaceGenerator.cc 143-152: the loop that draws k different random numbers; None if
   it has not ended after [fuel] rounds *)
Fixpoint drawSorted (fuel : nat) (rnd : nat -> R) (pos k : nat) : option (list R * nat) :=
  match fuel with
  | O => None
  | S fuel =>
      let r := sortR (map rnd (seq pos k)) in
      if noRepetition r then Some (r, (pos + k)%nat) else drawSorted fuel rnd (pos + k) k
  end.
(* nBodyPhaseSpaceGenerator.cc 115-136: one step of the NUPHAZ mass generation; the operands of *
   in line 130 are taken to be evaluated from left to right *)
Definition nuphazMass (rnd : nat -> R) (g : gen) (i : nat) (s : list R * nat) : option (list R * nat) :=
  let '(M, pos) := s in
  do mi <- rd (gm g) i; do Mi <- rd M i; do sp <- rd (gmSum g) (i - 1);
  do sqrtU <- rdiv mi Mi;
  let u := sqrtU * sqrtU in
  do xMin <- rdiv (sp * sp) (Mi * Mi);
  let xMax := (1 - sqrtU) * (1 - sqrtU) in
  let deltaX := xMax - xMin in
  let term := 1 + u - xMin in
  let prob := idiv (Fin 1) (isub (Fin (INR i)) (idiv (Fin (INR (i - 1) * deltaX)) (Fin term))) in
  let '(x, pos) :=
    if igtb prob (Fin (rnd pos))
    then (xMin + deltaX * Rpower (rnd (pos + 1)%nat) (1 / INR i) * Rpower (rnd (pos + 2)%nat) (1 / INR (i - 1)), (pos + 3)%nat)
    else (xMin + deltaX * Rpower (rnd (pos + 1)%nat) (1 / INR i), (pos + 2)%nat) in
  do r <- osqrt x;
  do M <- wr M (i - 1) (Mi * r);
  Some (M, pos).
(* nBodyPhaseSpaceGenerator.cc 103-161: pickMasses; with fewer than two daughters the
   behaviour is undefined or not modelled *)
Definition pickMasses (fuel : nat) (rnd : nat -> R) (nBodyMass : R) (pos : nat) (g : gen) : option (gen * nat) :=
  let n := gN g in
  if (n <? 2)%nat then None else
  do M <- wr (gM g) (n - 1) nBodyMass;
  match gWT g with
  | NUPHAZ =>
      do s <- foldO (nuphazMass rnd g) (rev (seq 2 (n - 2))) (M, pos);
      Some (withM (fst s) g, snd s)
  | _ =>
      do rp <- drawSorted fuel rnd pos (n - 2);
      do s <- rd (gmSum g) (n - 1);
      let massInterval := nBodyMass - s in
      do M <- foldO (fun i M =>
          do si <- rd (gmSum g) i; do r <- rd (fst rp) (i - 1);
          wr M i (si + r * massInterval)) (seq 1 (n - 2)) M;
      Some (withM M g, snd rp)
  end.
(* nBodyPhaseSpaceGenerator.h 113-122: pickAngles *)
Definition pickAngles (rnd : nat -> R) (pos : nat) (g : gen) : option (gen * nat) :=
  do s <- foldO (fun i s =>
      let '(c, p, pos) := s in
      do c <- wr c i (2 * rnd pos - 1);
      do p <- wr p i (2 * PI * rnd (pos + 1)%nat);
      Some (c, p, (pos + 2)%nat)) (seq 1 (gN g - 1)) (gCos g, gPhi g, pos);
  Some (withAngles (fst (fst s)) (snd (fst s)) g, snd s).
(* nBodyPhaseSpaceGenerator.h 125-139: eventAccepted; the result and the position of the next
   random number *)
Definition eventAccepted (rnd : nat -> R) (maxWeight : R) (pos : nat) (g : gen) : bool * nat :=
  match gWT g with
  | FLAT => (true, pos)
  | _ =>
      let max := if rltb 0 maxWeight then maxWeight else gMaxW g in
      if rltb 0 max then (igtb (idiv (gW g) (Fin max)) (Fin (rnd pos)), (pos + 1)%nat)
      else (false, pos)
  end.
(* nBodyPhaseSpaceGenerator.cc 55-73: generateDecay; returned weight, object, position of the next
   random number *)
Definition generateDecay (fuel : nat) (rnd : nat -> R) (nBody : lv) (pos : nat) (g : gen) : option (ieee * gen * nat) :=
  let nBodyMass := lvM nBody in
  if (gN g <? 2)%nat then Some (Fin 0, g, pos)
  else
    do s <- rd (gmSum g) (gN g - 1);
    if rltb nBodyMass s then Some (Fin 0, g, pos)
    else
      do (g, pos) <- pickMasses fuel rnd nBodyMass pos g;
      do g <- calcWeight g;
      do (g, pos) <- pickAngles rnd pos g;
      do g <- calcEventKinematics nBody g;
      Some (gW g, g, pos).
(* nBodyPhaseSpaceGenerator.cc 78-99: generateDecayAccepted *)
Definition generateDecayAccepted (fuel : nat) (rnd : nat -> R) (nBody : lv) (maxWeight : R) (pos : nat) (g : gen)
  : option (bool * gen * nat) :=
  let nBodyMass := lvM nBody in
  if (gN g <? 2)%nat then Some (false, g, pos)
  else
    do s <- rd (gmSum g) (gN g - 1);
    if rltb nBodyMass s then Some (false, g, pos)
    else
      do (g, pos) <- pickMasses fuel rnd nBodyMass pos g;
      do g <- calcWeight g;
      let '(ok, pos) := eventAccepted rnd maxWeight pos g in
      if negb ok then Some (false, g, pos)
      else
        do (g, pos) <- pickAngles rnd pos g;
        do g <- calcEventKinematics nBody g;
        Some (true, g, pos).
(* nBodyPhaseSpaceGenerator.cc 165-176: estimateMaxWeight; max(a, b) is (a < b) ? b : a *)
Fixpoint estimateMaxWeight (fuel : nat) (rnd : nat -> R) (nBodyMass : R) (nmbOfIterations : nat) (pos : nat) (g : gen)
    (maxWeight : ieee) : option (ieee * gen * nat) :=
  match nmbOfIterations with
  | O => Some (maxWeight, g, pos)
  | S k =>
      do (g, pos) <- pickMasses fuel rnd nBodyMass pos g;
      do g <- calcWeight g;
      estimateMaxWeight fuel rnd nBodyMass k pos g (if igtb maxWeight (gW g) then maxWeight else gW g)
  end.
