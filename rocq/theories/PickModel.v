(* Model of generators/generatorPickerFunctions.{h,cc}: the functions that pick mass and t' (C82).

   double is R (no rounding; exp does not underflow).  [None] is an abort, an uncaught exception or
   undefined behaviour.  Random numbers are a stream and a position.  Simplifications: the setting is
   given by the entries the functions look at; TF1 with its formula "polN" is the list of its
   coefficients, TF1::GetRandom of the mass polynomial is a parameter; messages are left out. *)
From Coq Require Import List ZArith Reals Bool.
From Verif Require Import ArrayModel CGBoxModel PhysModel PhaseModel ProdModel.
Import ListNotations.
Open Scope R_scope.

(* libconfig::Setting (library type of the argument in generatorPickerFunctions.cc 47) *)
Inductive entry := EInt (z : Z) | EFloat (r : R) | EArray (l : list entry) | EList (l : list entry) | EOther.
(* entries read in generatorPickerFunctions.cc 47-90, 109-157, 394-431 *)
Record pconf := PConf {
  cMassMin : option entry; cMassMax : option entry; cTMin : option entry; cTMax : option entry;
  cMasses : option entry; cSlopes : option entry; cCoMass : option entry; cCoSlopes : option entry }.
(* libconfig Setting::isNumber, used in generatorPickerFunctions.cc 121 *)
Definition isNumber (e : entry) : bool := match e with EInt _ | EFloat _ => true | _ => false end.
(* libconfig conversion to double, used in generatorPickerFunctions.cc 58: SettingTypeException unless
   it is a float *)
Definition toDouble (e : entry) : option R := match e with EFloat r => Some r | _ => None end.
(* libconfig Setting::getLength, used in generatorPickerFunctions.cc 117 *)
Definition len (e : entry) : nat := match e with EArray l | EList l => length l | _ => 0%nat end.
(* libconfig Setting::operator[](int), used in generatorPickerFunctions.cc 121:
   SettingNotFoundException outside *)
Definition at_ (e : entry) (i : nat) : option entry := match e with EArray l | EList l => nth_error l i | _ => None end.
(* libConfigUtils.hpp 291-309 with Setting::TypeFloat *)
Definition isFloat (e : option entry) : bool := match e with Some (EFloat _) => true | _ => false end.
(* libConfigUtils.hpp 291-309 with Setting::TypeArray *)
Definition isArray (e : option entry) : bool := match e with Some (EArray _) => true | _ => false end.
(* libConfigUtils.hpp 291-309 with Setting::TypeList *)
Definition isList (e : option entry) : bool := match e with Some (EList _) => true | _ => false end.
(* libconfig Setting::lookupValue for double, used in generatorPickerFunctions.cc 65: the value stays
   if the entry has another type *)
Definition lookup (e : option entry) (old : R) : R := match e with Some (EFloat r) => r | _ => old end.

(* std::numeric_limits<double>::max(), generatorPickerFunctions.h 30 *)
Definition dblMax : R := (2 - / 2 ^ 52) * 2 ^ 1023.
(* std::numeric_limits<double>::epsilon(), generatorPickerFunctions.cc 280 *)
Definition eps : R := / 2 ^ 52.
(* generatorPickerFunctions.h 55-57, 85-86, 110-111: the members of the pickers; slopes is the
   std::map, ordered by mass *)
Record pk := Pk { kInit : bool; kMLo : R; kMHi : R; kTLo : R; kTHi : R; kSlopes : list (R * list R); kN : nat; kCoM : list R; kCoT : list R }.
(* generatorPickerFunctions.h 28-31 and .cc 93-95: the constructors *)
Definition newPk : pk := Pk false 0 0 0 dblMax [] 0 [] [].
(* generatorPickerFunctions.cc 18-26: overrideMassRange *)
Definition overrideMassRange (lo hi : R) (k : pk) : option pk :=
  if negb (kInit k) then None else Some (Pk (kInit k) lo hi (kTLo k) (kTHi k) (kSlopes k) (kN k) (kCoM k) (kCoT k)).
(* generatorPickerFunctions.cc 29-35: massRange *)
Definition massRange (k : pk) : option (R * R) := if negb (kInit k) then None else Some (kMLo k, kMHi k).
(* generatorPickerFunctions.cc 38-44: tPrimeRange *)
Definition tPrimeRange (k : pk) : option (R * R) := if negb (kInit k) then None else Some (kTLo k, kTHi k).
(* generatorPickerFunctions.cc 47-90: initTPrimeAndMassRanges *)
Definition initRanges (c : pconf) (k : pk) : option (bool * pk) :=
  if kInit k then Some (false, k)
  else if negb (isFloat (cMassMin c) && isFloat (cMassMax c)) then Some (false, k)
  else
    let lo := lookup (cMassMin c) 0 in
    let hi := lookup (cMassMax c) 0 in
    let k := Pk (kInit k) lo hi (kTLo k) (kTHi k) (kSlopes k) (kN k) (kCoM k) (kCoT k) in
    if rltb hi lo then Some (false, k)
    else
      let k := Pk (kInit k) lo hi (lookup (cTMin c) (kTLo k)) (lookup (cTMax c) (kTHi k)) (kSlopes k) (kN k) (kCoM k) (kCoT k) in
      Some (negb (rltb (kTHi k) (kTLo k)), k).

(* std::map::insert, used in generatorPickerFunctions.cc 176: ordered by key; an existing key keeps its
   value *)
Fixpoint mapInsert (m : R) (p : list R) (l : list (R * list R)) : list (R * list R) :=
  match l with
  | [] => [(m, p)]
  | (m', p') :: r => if rltb m m' then (m, p) :: l else if rltb m' m then (m', p') :: mapInsert m p r else l
  end.
(* generatorPickerFunctions.cc 153-155: the conversions of an array of parameters *)
Fixpoint doubles (l : list entry) : option (list R) :=
  match l with [] => Some [] | e :: l => do x <- toDouble e; do r <- doubles l; Some (x :: r) end.
(* generatorPickerFunctions.cc 160-175: check of the parameters, for n exponentials; true if they are
   all right *)
Fixpoint checkParams (n j : nat) (param : list R) : option bool :=
  match n with
  | O => Some true
  | S n =>
      do a <- nth_error param (2 * j);
      if negb (rltb a 0) then Some false
      else if (0 <? j)%nat then
        do c <- nth_error param (2 * j - 1);
        if rltb c 0 then Some false else checkParams n (S j) param
      else checkParams n (S j) param
  end.
(* generatorPickerFunctions.cc 141-177: one mass after the other; masses and slopes still to be read *)
Fixpoint readSlopes (tArray : bool) (masses slopes : list entry) (k : pk) : option (bool * pk) :=
  match masses, slopes with
  | em :: masses, es :: slopes =>
      let read (param : list R) : option (bool * pk) :=
        do ok <- checkParams (kN k) 0 param;
        do m <- toDouble em;
        if ok then readSlopes tArray masses slopes (Pk (kInit k) (kMLo k) (kMHi k) (kTLo k) (kTHi k) (mapInsert m param (kSlopes k)) (kN k) (kCoM k) (kCoT k))
        else Some (false, k) in
      if tArray then
        match es with
        | EArray l => if negb ((length l + 1) / 2 =? kN k)%nat then Some (false, k) else do param <- doubles l; read param
        | _ => Some (false, k)
        end
      else do x <- toDouble es; read [x]
  | _, _ => Some (true, k)
  end.
(* generatorPickerFunctions.cc 104-180: uniformMassExponentialTPicker::init *)
Definition initExp (c : pconf) (k : pk) : option (bool * pk) :=
  do (ok, k) <- initRanges c k;
  if negb ok then Some (false, k)
  else
    match cMasses c, cSlopes c with
    | Some (EArray masses), Some (EList slopes) =>
        if negb (length masses =? length slopes)%nat then Some (false, k)
        else
          do m0 <- nth_error masses 0;
          if negb (isNumber m0) then Some (false, k)
          else
            do s0 <- nth_error slopes 0;
            let setN (n : nat) := Pk (kInit k) (kMLo k) (kMHi k) (kTLo k) (kTHi k) (kSlopes k) n (kCoM k) (kCoT k) in
            let finish (tArray : bool) (n : nat) :=
              do (ok, k) <- readSlopes tArray masses slopes (setN n);
              if ok then Some (true, Pk true (kMLo k) (kMHi k) (kTLo k) (kTHi k) (kSlopes k) (kN k) (kCoM k) (kCoT k)) else Some (false, k) in
            if isNumber s0 then finish false 1%nat
            else
              match s0 with
              | EArray l =>
                  do x0 <- nth_error l 0;
                  if negb (isNumber x0) then Some (false, k)
                  else if negb (Nat.odd (length l)) then Some (false, k)
                  else finish true ((length l + 1) / 2)%nat
              | _ => Some (false, k)
              end
    | _, _ => Some (false, k)
    end.

(* std::map::lower_bound and the iterator before it, used in generatorPickerFunctions.cc 216-217: the
   neighbours of the mass; [prev] is the element before the list *)
Fixpoint neighbours (m : R) (prev : option (R * list R)) (l : list (R * list R)) : option ((R * list R) * (R * list R)) :=
  match l with
  | [] => None
  | x :: r => if rltb (fst x) m then neighbours m (Some x) r else do p <- prev; Some (p, x)
  end.
(* generatorPickerFunctions.cc 222-224: linear interpolation of one parameter *)
Definition interpolate (m m1 m2 p1 p2 : R) : option R := do q <- rdiv (p2 - p1) (m2 - m1); Some (p1 + q * (m - m1)).
(* generatorPickerFunctions.cc 220-225: of all parameters; the lists have to be of the same length
   (assert) *)
Fixpoint interpolateAll (m m1 m2 : R) (l1 l2 : list R) : option (list R) :=
  match l1, l2 with
  | [], [] => Some []
  | p1 :: l1, p2 :: l2 => do p <- interpolate m m1 m2 p1 p2; do r <- interpolateAll m m1 m2 l1 l2; Some (p :: r)
  | _, _ => None
  end.
(* generatorPickerFunctions.cc 208-227: parameters for a mass; the list is not empty *)
Definition paramsFor (m : R) (slopes : list (R * list R)) : option (list R) :=
  do first <- nth_error slopes 0;
  do lst <- nth_error slopes (length slopes - 1);
  if (length slopes =? 1)%nat then Some (snd first)
  else if rltb (fst lst) m then Some (snd lst)
  else if rltb m (fst first) then Some (snd first)
  else do (lo, hi) <- neighbours m None slopes; interpolateAll m (fst lo) (fst hi) (snd lo) (snd hi).

(* generatorPickerFunctions.cc 261-264, 275-278: the other terms of the primitive function *)
Fixpoint restF (n i : nat) (p : list R) (t acc : R) : option R :=
  match n with
  | O => Some acc
  | S n =>
      do c <- nth_error p (2 * i - 1);
      do a <- nth_error p (2 * i);
      do q <- rdiv (c * exp (a * t)) a;
      restF n (S i) p t (acc + q)
  end.
(* generatorPickerFunctions.cc 259-264, 273-278: F, for n exponentials *)
Definition bigF (n : nat) (p : list R) (t : R) : option R :=
  do a <- nth_error p 0; do q <- rdiv (exp (a * t)) a; restF (n - 1) 1 p t q.
(* generatorPickerFunctions.cc 275-278: the other terms of f *)
Fixpoint restf (n i : nat) (p : list R) (t acc : R) : option R :=
  match n with
  | O => Some acc
  | S n =>
      do c <- nth_error p (2 * i - 1);
      do a <- nth_error p (2 * i);
      restf n (S i) p t (acc + c * exp (a * t))
  end.
(* generatorPickerFunctions.cc 274-278: f, for n exponentials *)
Definition smallf (n : nat) (p : list R) (t : R) : option R :=
  do a <- nth_error p 0; restf (n - 1) 1 p t (exp (a * t)).
(* generatorPickerFunctions.cc 271-317: the search from t on, with [steps] steps left; true if done *)
Fixpoint newton (steps n : nat) (p : list R) (Fmin Fmax r t : R) : option (bool * R) :=
  do Ft <- bigF n p t;
  do ft <- smallf n p t;
  let errF := r * (Fmax - Fmin) * eps in
  let diffF := (Ft - Fmin) - r * (Fmax - Fmin) in
  if rltb (Rabs diffF) (10 * errF) then Some (true, t)
  else
    let errU := t * eps in
    do update <- rdiv (Ft - r * Fmax - (1 - r) * Fmin) ft;
    if rltb (Rabs update) (10 * errU) then Some (true, t)
    else if rltb 0 update then Some (true, t)
    else match steps with
         | O => Some (false, t)
         | S steps => newton steps n p Fmin Fmax r (t - update)
         end.
(* generatorPickerFunctions.cc 265-323: new attempts with new random numbers *)
Fixpoint attempts (tries n : nat) (p : list R) (Fmin Fmax : R) (rnd : nat -> R) (pos : nat) : option (bool * R * nat) :=
  match tries with
  | O => Some (false, 0, pos)
  | S tries =>
      do (done, t) <- newton 50 n p Fmin Fmax (rnd pos) 0;
      if done then Some (true, t, S pos)
      else if (tries =? 0)%nat then Some (false, t, S pos) else attempts tries n p Fmin Fmax rnd (S pos)
  end.
(* generatorPickerFunctions.cc 198-325: uniformMassExponentialTPicker::pickTPrimeForMass; result, t',
   position *)
Definition pickTExp (k : pk) (m : R) (rnd : nat -> R) (pos : nat) : option (bool * R * nat) :=
  if negb (kInit k) then Some (false, 0, pos)
  else if (length (kSlopes k) =? 0)%nat then Some (false, 0, pos)
  else
    do p <- paramsFor m (kSlopes k);
    if negb ((length p + 1) / 2 =? kN k)%nat then Some (false, 0, pos)
    else if (kN k =? 1)%nat then
      do a <- nth_error p 0;
      let r := rnd pos in
      let Fmin := exp (a * kTLo k) in
      let Fmax := exp (a * kTHi k) in
      if negb (rltb 0 (r * (Fmax - Fmin) + Fmin)) then None
      else do t <- rdiv (ln (r * (Fmax - Fmin) + Fmin)) a; Some (true, t, S pos)
    else
      do Fmin <- bigF (kN k) p (kTLo k);
      do Fmax <- bigF (kN k) p (kTHi k);
      attempts 5 (kN k) p Fmin Fmax rnd pos.
(* generatorPickerFunctions.cc 183-195: uniformMassExponentialTPicker::operator(); result, mass, t',
   position (the picker of ProdModel) *)
Definition pickExp (k : pk) : picker := fun rnd pos =>
  if negb (kInit k) then Some (false, 0, 0, pos)
  else
    let m := uniformIn (kMLo k) (kMHi k) (rnd pos) in
    do (ok, t, pos) <- pickTExp k m rnd (S pos);
    Some (ok, m, t, pos).

(* ---- polynomialMassAndTPrimeSlopePicker ---- *)
(* generatorPickerFunctions.cc 388-435: init *)
Definition initPoly (c : pconf) (k : pk) : option (bool * pk) :=
  do (ok, k) <- initRanges c k;
  if negb ok then Some (false, k)
  else
    match cCoMass c, cCoSlopes c with
    | Some (EArray coMass), Some (EArray coSlopes) =>
        match coMass with
        | [] => Some (false, k)
        | m0 :: _ =>
            if negb (isNumber m0) then Some (false, k)
            else
              do ms <- doubles coMass;
              let k := Pk (kInit k) (kMLo k) (kMHi k) (kTLo k) (kTHi k) (kSlopes k) (kN k) ms (kCoT k) in
              match coSlopes with
              | [] => Some (false, k)
              | s0 :: _ =>
                  if negb (isNumber s0) then Some (false, k)
                  else do ss <- doubles coSlopes; Some (true, Pk true (kMLo k) (kMHi k) (kTLo k) (kTHi k) (kSlopes k) (kN k) (kCoM k) ss)
              end
        end
    | _, _ => Some (false, k)
    end.
(* TF1::Eval of "polN", used in generatorPickerFunctions.cc 458 *)
Fixpoint evalPoly (co : list R) (x : R) : R := match co with [] => 0 | c :: co => c + x * evalPoly co x end.
(* generatorPickerFunctions.cc 459-461: draw t' until it is in the range; None if that has not happened
   after [fuel] draws.  TRandom::Exp(tau) is - tau * log(Rndm()) *)
Fixpoint drawT (fuel : nat) (k : pk) (tau : R) (rnd : nat -> R) (pos : nat) : option (R * nat) :=
  match fuel with
  | O => None
  | S fuel =>
      let t := - tau * ln (rnd pos) in
      if rltb t (kTLo k) || rltb (kTHi k) t then drawT fuel k tau rnd (S pos) else Some (t, S pos)
  end.
(* generatorPickerFunctions.cc 452-463: pickTPrimeForMass *)
Definition pickTPoly (fuel : nat) (k : pk) (m : R) (rnd : nat -> R) (pos : nat) : option (bool * R * nat) :=
  if negb (kInit k) then Some (false, 0, pos)
  else
    do tau <- rdiv 1 (evalPoly (kCoT k) m);
    do (t, pos) <- drawT fuel k tau rnd pos;
    Some (true, t, pos).
(* generatorPickerFunctions.cc 438-449: operator(); [getRandom] is TF1::GetRandom of the mass polynomial
   in a range *)
Definition pickPoly (fuel : nat) (getRandom : list R -> R -> R -> R -> R) (k : pk) : picker := fun rnd pos =>
  if negb (kInit k) then Some (false, 0, 0, pos)
  else
    let m := getRandom (kCoM k) (kMLo k) (kMHi k) (rnd pos) in
    do (ok, t, pos) <- pickTPoly fuel k m rnd (S pos);
    Some (ok, m, t, pos).

(* ---- uniformMassAndTPicker ---- *)
(* generatorPickerFunctions.cc 476-493: init *)
Definition initUni (c : pconf) (k : pk) : option (bool * pk) :=
  if negb (isFloat (cTMin c) && isFloat (cTMax c)) then Some (false, k)
  else
    do (ok, k) <- initRanges c k;
    if negb ok then Some (false, k) else Some (true, Pk true (kMLo k) (kMHi k) (kTLo k) (kTHi k) (kSlopes k) (kN k) (kCoM k) (kCoT k)).
(* generatorPickerFunctions.cc 513-519: pickTPrimeForMass *)
Definition pickTUni (k : pk) (rnd : nat -> R) (pos : nat) : option (bool * R * nat) :=
  Some (true, uniformIn (kTLo k) (kTHi k) (rnd pos), S pos).
(* generatorPickerFunctions.cc 496-510: operator() *)
Definition pickUni (k : pk) : picker := fun rnd pos =>
  if negb (kInit k) then Some (false, 0, 0, pos)
  else
    let m := uniformIn (kMLo k) (kMHi k) (rnd pos) in
    do (ok, t, pos) <- pickTUni k rnd (S pos);
    Some (ok, m, t, pos).
