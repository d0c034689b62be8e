(* Model of the amplitudes of the mass dependences, decayAmplitude/massDependence.cc 149-880.

   Simplifications: double is R, complex<double> is C (no rounding); the masses of the parent and of the daughters in the
   event (lzVec().M()) are arguments, so are mass and width of the resonance in the particle-data table; the masses of pi, K
   and eta that constructors read from that table are the record [tableMasses]; printing is dropped.
   The Breit-Wigner amplitude of a decay into unstable daughters (phaseSpaceIntegral) is in PsIntModel.
   [None] = the process is terminated (throw in breakupMomentumSquared), or the result is not a number (0/0, x/0). *)
From Coq Require Import Reals ZArith Bool List.
From Coquelicot Require Import Complex.
From Verif Require Import SpinModel PhysModel.
Import ListNotations.
Open Scope R_scope.

(* glue: sequencing of partial results *)
Definition bindM {A B} (x : option A) (f : A -> option B) : option B := match x with Some a => f a | None => None end.
Notation "'doM' x <- e ; k" := (bindM e (fun x => k)) (at level 200, x name, right associativity).
(* C++ std::complex division *)
Definition cdivM (x y : C) : option C := if Req_EM_T (fst y) 0 then (if Req_EM_T (snd y) 0 then None else Some (x / y)%C) else Some (x / y)%C.
(* A / (B - i C) as (A / (B^2 + C^2)) * (B + i C), massDependence.cc 311-313, 345-351, 378-381 *)
Definition lorentz (A B Cc : R) : option C := doM f <- rdiv A (B * B + Cc * Cc); Some (f * B, f * Cc).
(* massDependence.h 352-357, 470-474: masses of pi+, pi0, K+, K0 and eta in the particle-data table *)
Record tableMasses := TM { mPi : R; mPi0 : R; mK : R; mK0 : R; mEta : R }.

(* massDependence.cc 158-173 *)
Definition flatAmp (M : R) : option C := Some (RtoC 1).
(* massDependence.cc 217-233 *)
Definition binnedAmp (mMin mMax M : R) : option C := Some (RtoC (if negb (rltb M mMin) && rltb M mMax then 1 else 0)).
(* massDependence.cc 249-275: both daughters are stable *)
Definition relBWAmp (M m1 m2 M0 Gamma0 : R) (L : Z) : option C :=
  doM q <- breakupMomentum M m1 m2;
  doM q02 <- breakupMomentumSquared M0 m1 m2 true;
  let q0 := sqrt (Rabs q02) in
  breitWigner M M0 Gamma0 L q q0.
(* massDependence.cc 298-319 *)
Definition constWidthAmp (M M0 Gamma0 : R) : option C := lorentz (M0 * Gamma0) (M0 * M0 - M * M) (M0 * Gamma0).
(* massDependence.cc 323-359 *)
Definition rhoAmp (M m1 m2 M0 Gamma0 : R) : option C :=
  doM q2 <- breakupMomentumSquared M m1 m2 false;
  let q := sqrt q2 in
  doM q02 <- breakupMomentumSquared M0 m1 m2 false;
  let q0 := sqrt q02 in
  doM F <- rdiv (2 * q2) (q02 + q2);
  doM r1 <- rdiv M0 M; doM r2 <- rdiv q q0;
  let Gamma := Gamma0 * r1 * r2 * F in
  lorentz (M0 * Gamma0 * sqrt F) (M0 * M0 - M * M) (M0 * Gamma).
(* massDependence.cc 363-390 *)
Definition f0980Amp (M m1 m2 M0 Gamma0 : R) : option C :=
  doM q <- breakupMomentum M m1 m2;
  doM q0 <- breakupMomentum M0 m1 m2;
  doM r <- rdiv q q0;
  let Gamma := Gamma0 * r in
  let Cc := M0 * Gamma in
  doM A <- rdiv (Cc * M) q;
  lorentz A (M0 * M0 - M * M) Cc.
(* massDependence.cc 410-446 *)
Definition flatteAmp (t : tableMasses) (M : R) : option C :=
  let M0 := 965 / 1000 in
  let g1 := 165 / 1000 in
  let g2g1 := 421 / 100 in
  doM kPi <- breakupMomentumComplex M (mPi t) (mPi t);
  doM kK <- breakupMomentumComplex M (mK t) (mK t);
  doM rhoPi <- cdivM (RtoC 2 * kPi)%C (RtoC M);
  doM rhoK <- cdivM (RtoC 2 * kK)%C (RtoC M);
  let denom := (RtoC (M0 * M0 - M * M) - Ci * RtoC g1 * (rhoPi + RtoC g2g1 * rhoK))%C in
  cdivM (RtoC 1) denom.

(* massDependence.cc 451-503: parameters of the AMP solution M; only the diagonal elements enter the amplitude (see amp) *)
Record ampPars := AP { apA : nat -> nat -> R; apC : nat -> nat -> R; apSP : nat -> R; apVes : bool }.
(* massDependence.cc 459-493: apA i d = _a[i](d,d), apC i d = _c[i](d,d), apSP i = _sP(0,i) *)
Definition ampM : ampPars :=
  AP (fun i d => match i, d with 0%nat, 0%nat => 1131 / 10000 | 0%nat, _ => - 3216 / 10000
                 | _, 0%nat => 1968 / 10000 * (1968 / 10000) | _, _ => - 154 / 10000 * (- 154 / 10000) end)
     (fun i d => nth i (match d with
                        | 0%nat => [337 / 10000; - 3185 / 10000; - 942 / 10000; - 5927 / 10000; 1957 / 10000]
                        | _ => [3010 / 10000; - 5140 / 10000; 1176 / 10000; 5204 / 10000; - 3977 / 10000] end) 0)
     (fun i => match i with 0%nat => - 74 / 10000 | _ => 9828 / 10000 end) false.
(* massDependence.cc 571-575 *)
Definition ampVesPars : ampPars := AP (apA ampM) (apC ampM) (apSP ampM) true.
(* massDependence.cc 617-633 *)
Definition ampKachaev : ampPars :=
  AP (fun i d => match i with 0%nat => apA ampM 0 d | _ => 0 end) (fun i d => match i with 4%nat => 0 | _ => apC ampM i d end) (apSP ampM) false.
(* massDependence.cc 510-516: masses at the pole of the M matrix are moved *)
Definition shiftedMass (p : ampPars) (M : R) : R := if rltb (Rabs (M * M - apSP p 1)) (1 / 1000000) then M + 1 / 1000000 else M.
(* massDependence.cc 537-546: diagonal element d of the M matrix *)
Definition Mdiag (p : ampPars) (t : tableMasses) (d : nat) (mass : R) : option R :=
  let s := mass * mass in
  let mKm := (mK t + mK0 t) / 2 in
  doM r <- rdiv s (4 * mKm * mKm);
  let scale := r - 1 in
  doM f0 <- rdiv 1 (s - apSP p 0); doM f1 <- rdiv 1 (s - apSP p 1);
  Some (f0 * apA p 0 d + f1 * apA p 1 d + apC p 0 d + scale * apC p 1 d + scale ^ 2 * apC p 2 d + scale ^ 3 * apC p 3 d + scale ^ 4 * apC p 4 d).
(* massDependence.cc 518-535: the diagonal phase-space matrix *)
Definition rhoDiag (p : ampPars) (t : tableMasses) (mass : R) : option (C * C) :=
  let mKm := (mK t + mK0 t) / 2 in
  doM qPiPi <- breakupMomentumComplex mass (mPi t) (mPi t);
  doM qPi0Pi0 <- breakupMomentumComplex mass (mPi0 t) (mPi0 t);
  doM qKK <- breakupMomentumComplex mass (mK t) (mK t);
  doM qK0K0 <- breakupMomentumComplex mass (mK0 t) (mK0 t);
  doM qKmKm <- breakupMomentumComplex mass mKm mKm;
  let ph (q : C) := cdivM (RtoC 2 * q)%C (RtoC mass) in
  if apVes p then
    let qKmKm' := if rltb 0 (snd qKmKm) then (- (qKmKm : C))%C else qKmKm in
    doM r0 <- ph qPiPi; doM r1 <- ph qKmKm'; Some (r0, r1)
  else
    doM a <- ph qPiPi; doM b <- ph qPi0Pi0; doM c <- ph qKK; doM d <- ph qK0K0;
    Some (((a + b) / RtoC 2)%C, ((c + d) / RtoC 2)%C).
(* mathUtils.hpp 121-138 for a diagonal matrix: LU factorisation fails if an element is 0, then the output is not written *)
Definition invertDiag (d0 d1 : C) (old : C * C) : C * C :=
  match cdivM (RtoC 1) d0, cdivM (RtoC 1) d1 with Some a, Some b => (a, b) | _, _ => old end.
(* massDependence.cc 505-556: [T] is the member _T (its diagonal) before the call; result: the member and the amplitude.
   The off-diagonal elements of M are set to 0 (548-550) *)
Definition piPiSWave (p : ampPars) (t : tableMasses) (T : C * C) (M : R) : option ((C * C) * C) :=
  let mass := shiftedMass p M in
  doM rho <- rhoDiag p t mass;
  doM M0 <- Mdiag p t 0 mass; doM M1 <- Mdiag p t 1 mass;
  let T' := invertDiag (RtoC M0 - Ci * fst rho)%C (RtoC M1 - Ci * snd rho)%C T in
  Some (T', fst T').
(* massDependence.cc 578-609 *)
Definition vesAmp (t : tableMasses) (T : C * C) (M : R) : option ((C * C) * C) :=
  let f0Mass := 9837 / 10000 in let f0Width := 376 / 10000 in
  let coupling : C := (- 3743 / 10000, 3197 / 10000) in
  doM a <- piPiSWave ampVesPars t T M;
  doM bw <- (if rltb (2 * mPi t) M then
               doM q <- breakupMomentum M (mPi t) (mPi t); doM q0 <- breakupMomentum f0Mass (mPi t) (mPi t);
               doM r <- rdiv q q0; let Cc := f0Mass * (f0Width * r) in
               doM r2 <- rdiv M q; lorentz (Cc * r2) (f0Mass * f0Mass - M * M) Cc
             else Some (RtoC 0));
  Some (fst a, (snd a - coupling * bw)%C).

(* massDependence.h 427-440 *)
Record glassPars := GP { ga : R; gr : R; gM0 : R; gG0 : R; gPhiF : R; gPhiR : R; gPhiRsin : R; gF : R; gR : R; gMMax : R }.
(* std::atan of x / y with the IEEE result for y = 0, as in massDependence.cc 714 *)
Definition atanDiv (x y : R) : option R :=
  if Req_EM_T y 0 then (if Rlt_dec 0 x then Some (PI / 2) else if Rlt_dec x 0 then Some (- (PI / 2)) else None) else Some (atan (x / y)).
(* std::exp of an imaginary number *)
Definition expI (x : R) : C := (cos x, sin x).
(* massDependence.cc 702-727 *)
Definition glassAmp (g : glassPars) (t : tableMasses) (M : R) : option C :=
  if rltb (mK t + mPi t) M && rltb M (gMMax g) then
    doM q <- breakupMomentum M (mK t) (mPi t);
    doM q0 <- breakupMomentum (gM0 g) (mK t) (mPi t);
    doM r1 <- rdiv (gG0 g * gM0 g) M;
    doM G <- rdiv (r1 * q) q0;
    doM deltaR <- atanDiv (gM0 g * G) (gM0 g * gM0 g - M * M);
    doM deltaF <- atanDiv (2 * ga g * q) (2 + ga g * gr g * q * q);
    let amp := (RtoC (gF g * sin (deltaF + gPhiF g)) * expI (deltaF + gPhiF g) +
                RtoC (gR g * sin (deltaR + gPhiRsin g)) * expI (deltaR + gPhiR g) * expI (2 * (deltaF + gPhiF g)))%C in
    doM f <- rdiv (1 / 2 * M) q;
    Some (amp * RtoC f)%C
  else Some (RtoC 0).

(* massDependence.cc 776-789, 804-812: element of the K matrix without the Adler factor *)
Definition kmat (g g' h h' c0 c1 c2 c3 s x : R) : option R :=
  let sa := 17991 / 10000 in let sb := 83627 / 10000 in
  doM p <- rdiv (g * g') (sa - s); doM r <- rdiv (h * h') (sb - s);
  Some (p + r + c0 + c1 * x + c2 * x * x + c3 * x * x * x).
(* massDependence.cc 773-825 *)
Definition palanoAmp (mMax : R) (t : tableMasses) (M : R) : option C :=
  let sTop := 5832 / 1000 in let sBot := 36 / 100 in
  let ga0 := 3139 / 10000 in let ga1 := - 775 / 100000 in
  let gb0 := 11804 / 10000 in let gb1 := - 22335 / 100000 in
  let sKpi := mK t * mK t + mPi t * mPi t in
  let sA := 87753 / 100000 * sKpi in
  if rltb (mK t + mPi t) M && rltb M mMax then
    let s := M * M in
    doM qKpi <- breakupMomentumComplex M (mK t) (mPi t);
    doM qKeta <- breakupMomentumComplex M (mK t) (mEta t);
    doM rhoKpi <- cdivM (RtoC 2 * qKpi)%C (RtoC M);
    doM rhoKeta <- cdivM (RtoC 2 * qKeta)%C (RtoC M);
    let x := (2 * s - (sTop + sBot)) / (sTop - sBot) in
    doM ad <- rdiv (s - sA) sKpi;
    doM k11 <- kmat ga0 ga0 gb0 gb0 (- 1553 / 10000) (909 / 10000) (8618 / 10000) (629 / 10000) s x;
    doM k12 <- kmat ga0 ga1 gb0 gb1 (738 / 10000) (3866 / 10000) (12195 / 10000) (8390 / 10000) s x;
    doM k22 <- kmat ga1 ga1 gb1 gb1 (- 36 / 10000) (2590 / 10000) (16950 / 10000) (22300 / 10000) s x;
    let K11 := RtoC (ad * k11) in let K12 := RtoC (ad * k12) in let K22 := RtoC (ad * k22) in
    let detK := (K11 * K22 - K12 * K12)%C in
    let delta := (RtoC 1 - Ci * rhoKpi * K11 - Ci * rhoKeta * K22 - rhoKpi * rhoKeta * detK)%C in
    cdivM (K11 - Ci * rhoKeta * detK)%C delta
  else Some (RtoC 0).

(* massDependence.cc 830-868 *)
Definition rhoPrimeAmp (M : R) : option C :=
  doM bw1 <- lorentz (1465 / 1000 * (235 / 1000)) (1465 / 1000 * (1465 / 1000) - M * M) (1465 / 1000 * (235 / 1000));
  doM bw2 <- lorentz (1700 / 1000 * (220 / 1000)) (1700 / 1000 * (1700 / 1000) - M * M) (1700 / 1000 * (220 / 1000));
  Some ((RtoC 4 * bw1 - RtoC 3 * bw2) / RtoC 7)%C.
