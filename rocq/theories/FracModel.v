(** Model of rational numbers kept as prime exponents.
    /repo/relativisticAmpCorrections/TFracNum.cc and TFracNum.h
    Simplifications: [long] is unbounded; [double] values are exact (kept symbolically, see [dval]).
    [ps] is the content of the prime-number cache (primeNumbers.cc, see PrimeModel); asking for a prime
    beyond it aborts (primeNumbers.cc:48-66), modelled by None. *)
From Coq Require Import ZArith List Bool Lia.
Import ListNotations.
Open Scope Z_scope.

(** ** exponent vectors *)

(** [if(i >= v.size()) v.resize(i+1, 0); v[i]++]  TFracNum.cc:76-84, 137-140, 157-160 *)
Fixpoint bump (i : nat) (v : list Z) : list Z :=
  match i, v with
  | O, [] => [1]
  | O, x :: v' => x + 1 :: v'
  | S i', [] => 0 :: bump i' []
  | S i', x :: v' => x :: bump i' v'
  end.

(** inner loop [while (rest % prime == 0) { v[i]++; rest /= prime; }]  TFracNum.cc:74-87, 136-142, 156-162.
    The fuel log2(rest)+1 is never exhausted for rest > 0, prime >= 2 (lemma divOut_spec). *)
Fixpoint divOut (fuel : nat) (i : nat) (prime rest : Z) (v : list Z) : Z * list Z :=
  match fuel with
  | O => (rest, v)
  | S fuel' => if rest mod prime =? 0 then divOut fuel' i prime (rest / prime) (bump i v) else (rest, v)
  end.

(** outer loop [while (rest != 1) { prime = primeNumber(max); ...; max++; }]  TFracNum.cc:72-89, 134-144, 154-164.
    [ps] holds the primes from index [i] on. *)
Fixpoint factorLoop (ps : list Z) (i : nat) (rest : Z) (v : list Z) : option (list Z) :=
  if rest =? 1 then Some v
  else match ps with
       | [] => None
       | p :: ps' =>
           let '(rest', v') := divOut (S (Z.to_nat (Z.log2 rest))) i p rest v in
           factorLoop ps' (S i) rest' v'
       end.

(** cancellation loop over the common length  TFracNum.cc:172-183, 537-547 *)
Fixpoint cancel (n d : list Z) : list Z * list Z :=
  match n, d with
  | a :: n', b :: d' =>
      let '(n'', d'') := cancel n' d' in
      if negb (a =? 0) && negb (b =? 0) then
        if b >? a then (0 :: n'', b - a :: d'') else (a - b :: n'', 0 :: d'')
      else (a :: n'', b :: d'')
  | _, _ => (n, d)
  end.

(** removeZerosFromVector  TFracNum.cc:727-739 *)
Fixpoint removeZeros (v : list Z) : list Z :=
  match v with
  | [] => []
  | x :: v' => match removeZeros v' with
               | [] => if x =? 0 then [] else [x]
               | w => x :: w
               end
  end.

(** [if(a.size() < b.size()) a.resize(b.size(), 0); a[i] += b[i]]  TFracNum.cc:520-532 *)
Fixpoint addVec (a b : list Z) : list Z :=
  match a, b with
  | a, [] => a
  | [], b => b
  | x :: a', y :: b' => x + y :: addVec a' b'
  end.

(** getNumberFromFactorization  TFracNum.cc:742-751: the inner loop multiplies vector[i] times
    (not at all for a non-positive exponent); a prime is only requested if it is used. *)
Fixpoint numberOf (ps v : list Z) : option Z :=
  match v with
  | [] => Some 1
  | e :: v' =>
      match ps with
      | [] => if e <=? 0 then numberOf [] v' else None
      | p :: ps' => match numberOf ps' v' with
                    | Some r => Some (if e <=? 0 then r else p ^ e * r)
                    | None => None
                    end
      end
  end.

(** The cached double: [dc]*(dn/dd), or [dc]*sqrt(dn/dd) if [droot].  TFracNum.cc:219-234 *)
Record dval := DV { dc : Z; dn : Z; dd : Z; droot : bool }.

(** Signed square of a cached double, as a fraction; used to compare doubles exactly. *)
(* representation: exact comparison of doubles, TFracNum.cc:219-234 *)
Definition dsqn (x : dval) : Z := dc x * Z.abs (dc x) * (if droot x then dn x * dd x else dn x * dn x).
(* representation: exact comparison of doubles, TFracNum.cc:219-234 *)
Definition dsqd (x : dval) : Z := dd x * dd x.
(** x < y for doubles *)
(* C++ operator < of double *)
Definition dlt (x y : dval) : bool := dsqn x * dsqd y <? dsqn y * dsqd x.
(* C++ unary minus of double *)
Definition dneg (x : dval) : dval := DV (- dc x) (dn x) (dd x) (droot x).

(** TFracNum.h:136-157: _NOM, _DEN, _signPrefac and the three caches (None = rebuild required). *)
Record frac := Frac {
  nom : list Z; den : list Z; sgn : Z;
  numC : option Z; denC : option Z; valC : option dval }.

(* TFracNum.cc:122, 360, 456: _signPrefac = -7777 marks infinity *)
Definition infSign : Z := -7777.
(* TFracNum.cc:113, 363, 460: _signPrefac = -6666 marks an undefined number *)
Definition undefSign : Z := -6666.

(** TFracNum.h:29-38 default constructor *)
Definition fracDefault : frac := Frac [] [] 1 (Some 1) (Some 1) (Some (DV 1 1 1 false)).
(** TFracNum.cc:27-42 *)
Definition fracRaw (n d : list Z) (s : Z) : frac := Frac n d s None None None.

(** TFracNum.cc:45-92 constructor with control string; [ctrl] = (s == "factorial").
    The exponents of Low+1..High are collected into DEN if N < D, into NOM otherwise. *)
Fixpoint factLoop (ps : list Z) (fac : Z) (count : nat) (v : list Z) : option (list Z) :=
  match count with
  | O => Some v
  | S c => match factorLoop ps 0 fac v with
           | Some v' => factLoop ps (fac + 1) c v'
           | None => None
           end
  end.
(* TFracNum.cc:45-92 *)
Definition fracFactorial (ps : list Z) (ctrl : bool) (N D : Z) : option frac :=
  if ctrl then
    if N =? D then Some (fracRaw [] [] 1)
    else
      let low := if N >? D then D else N in
      let high := if N >? D then N else D in
      match factLoop ps (low + 1) (Z.to_nat (high - low)) [] with
      | Some v => Some (if N <? D then fracRaw [] v 1 else fracRaw v [] 1)
      | None => None
      end
  else Some (fracRaw [] [] 1).

(** TFracNum.cc:95-188 constructor from two integers *)
Definition fracInt (ps : list Z) (inom iden : Z) : option frac :=
  if inom =? 0 then
    if iden =? 0 then Some (fracRaw [] [] undefSign)
    else Some (Frac [] [] 0 None None (Some (DV 0 0 1 false)))
  else if iden =? 0 then Some (fracRaw [] [] infSign)
  else
    let s := (if inom <? 0 then -1 else 1) * (if iden <? 0 then -1 else 1) in
    match factorLoop ps 0 (Z.abs inom) [] with
    | None => None
    | Some n =>
        match factorLoop ps 0 (Z.abs iden) [] with
        | None => None
        | Some d => let '(n', d') := cancel n d in Some (fracRaw (removeZeros n') (removeZeros d') s)
        end
    end.

(** GetNumerator TFracNum.cc:191-202, GetDenominator 205-216 (read value) *)
Definition getNumerator (ps : list Z) (f : frac) : option Z :=
  match numC f with Some z => Some z | None => if sgn f =? 0 then Some 0 else numberOf ps (nom f) end.
(* TFracNum.cc:205-216 *)
Definition getDenominator (ps : list Z) (f : frac) : option Z :=
  match denC f with Some z => Some z | None => if sgn f =? 0 then Some 1 else numberOf ps (den f) end.
(** ... and the cache update they perform. *)
(* TFracNum.cc:191-202: update of the cache *)
Definition fillNum (ps : list Z) (f : frac) : frac :=
  Frac (nom f) (den f) (sgn f) (getNumerator ps f) (denC f) (valC f).
(* TFracNum.cc:205-216: update of the cache *)
Definition fillDen (ps : list Z) (f : frac) : frac :=
  Frac (nom f) (den f) (sgn f) (numC f) (getDenominator ps f) (valC f).

(** Dval TFracNum.cc:219-234: value and updated object. *)
Definition getDval (ps : list Z) (root : bool) (f : frac) : option (dval * frac) :=
  match valC f with
  | Some v => Some (v, f)
  | None =>
      if sgn f =? 0 then
        let v := DV 0 0 1 false in Some (v, Frac (nom f) (den f) (sgn f) (numC f) (denC f) (Some v))
      else match getNumerator ps f, getDenominator ps f with
           | Some n, Some d =>
               let v := DV (sgn f) n d root in
               Some (v, Frac (nom f) (den f) (sgn f) (Some n) (Some d) (Some v))
           | _, _ => None
           end
  end.

(** GetSign TFracNum.h:98: (Dval() < 0) ? -1 : 1 *)
Definition getSign (ps : list Z) (f : frac) : option (Z * frac) :=
  match getDval ps false f with
  | Some (v, f') => Some (if dlt v (DV 0 0 1 false) then -1 else 1, f')
  | None => None
  end.

(** resetAllCaches TFracNum.cc:237-245 *)
Definition resetCaches (f : frac) : frac := fracRaw (nom f) (den f) (sgn f).

(** DenomCommonDivisor TFracNum.cc:248-261: exponents min(a,b) over the common length *)
Fixpoint minVec (a b : list Z) : list Z :=
  match a, b with
  | x :: a', y :: b' => (if y <? x then y else x) :: minVec a' b'
  | _, _ => []
  end.
(* TFracNum.cc:248-261 *)
Definition denomCommonDivisor (ps : list Z) (a b : frac) : option Z := numberOf ps (minVec (den a) (den b)).

(** Sqrt TFracNum.cc:288-332: (updated object, return value) *)
Definition allEven (v : list Z) : bool := forallb (fun e => Z.rem e 2 =? 0) v.
(* TFracNum.cc:288-332 *)
Definition fracSqrt (ps : list Z) (f : frac) : option (frac * bool) :=
  if sgn f =? 0 then Some (f, true)
  else match getNumerator ps f with
       | None => None
       | Some z =>
           let f := fillNum ps f in
           if z =? 0 then Some (f, true)
           else if negb (allEven (nom f)) then Some (f, false)
           else if negb (allEven (den f)) then Some (f, false)
           else Some (fracRaw (map (fun e => Z.quot e 2) (nom f)) (map (fun e => Z.quot e 2) (den f)) (sgn f), true)
       end.

(** FlipSign TFracNum.cc:335-341 *)
Definition flipSign (f : frac) : frac :=
  Frac (nom f) (den f) (- sgn f) (numC f) (denC f) (option_map dneg (valC f)).

(** Abs TFracNum.cc:344-356 *)
Definition fracAbs (f : frac) : frac :=
  if sgn f =? 0 then f
  else Frac (nom f) (den f) 1 (option_map Z.abs (numC f)) (denC f)
            (option_map (fun v => DV (Z.abs (dc v)) (dn v) (dd v) (droot v)) (valC f)).

(** Invert TFracNum.cc:359-379 *)
Definition fracInvert (ps : list Z) (f : frac) : option (frac * bool) :=
  if sgn f =? infSign then Some (fracRaw [] [] undefSign, false)
  else match getNumerator ps f with
       | None => None
       | Some z => if z =? 0 then Some (fracRaw [] [] infSign, false)
                   else Some (fracRaw (den f) (nom f) (sgn f), true)
       end.

(** operator== TFracNum.cc:382-406 *)
Fixpoint listEqb (a b : list Z) : bool :=
  match a, b with
  | [], [] => true
  | x :: a', y :: b' => (x =? y) && listEqb a' b'
  | _, _ => false
  end.
(* TFracNum.cc:382-406 *)
Definition fracEqb (a b : frac) : bool :=
  if (sgn a =? 0) && (sgn b =? 0) then true
  else if negb (sgn a =? sgn b) then false
  else if negb (length (nom a) =? length (nom b))%nat then false
  else if negb (length (den a) =? length (den b))%nat then false
  else listEqb (nom a) (nom b) && listEqb (den a) (den b).

(** operator> TFracNum.cc:473-478, with the cache updates of both operands *)
Definition fracGt (ps : list Z) (a b : frac) : option (bool * frac * frac) :=
  match getDval ps false a with
  | None => None
  | Some (x, a') => match getDval ps false b with
                    | None => None
                    | Some (y, b') => Some (dlt y x, a', b')
                    end
  end.

(** operator+= TFracNum.cc:482-488 (result; the operands' caches are only filled) *)
Definition fracAdd (ps : list Z) (a b : frac) : option frac :=
  match denomCommonDivisor ps a b, getNumerator ps a, getDenominator ps a, getNumerator ps b, getDenominator ps b with
  | Some cdiv, Some na, Some da, Some nb, Some db =>
      let bdc := Z.quot db cdiv in
      let adc := Z.quot da cdiv in
      fracInt ps (sgn a * na * bdc + sgn b * nb * adc) (da * bdc)
  | _, _, _, _, _ => None
  end.

(** TFracNum.cc:17 TFracNum::Zero *)
Definition fracZero : frac := Frac [] [] 0 None None (Some (DV 0 0 1 false)).

(** operator*= TFracNum.cc:491-549 *)
Definition fracMul (a b : frac) : frac :=
  if (sgn a =? undefSign) || (sgn b =? undefSign) then fracRaw [] [] undefSign
  else if ((sgn a =? infSign) && (sgn b =? 0)) || ((sgn a =? 0) && (sgn b =? infSign)) then fracRaw [] [] undefSign
  else if (sgn a =? infSign) || (sgn b =? infSign) then fracRaw [] [] infSign
  else if sgn a * sgn b =? 0 then fracZero
  else
    let '(n, d) := cancel (addVec (nom a) (nom b)) (addVec (den a) (den b)) in
    fracRaw n d (sgn a * sgn b).

(** SumSignedRoots TFracNum.cc:264-285; None = throw *)
Definition sumSignedRoots (ps : list Z) (a b : frac) : option frac :=
  match fracSqrt ps (fracMul a b) with
  | Some (mixed, true) =>
      match getDval ps false a, getDval ps false b with
      | Some (x, a'), Some (y, b') =>
          let flip := dlt x (dneg y) in
          let aa := fracAbs a' in
          let bb := fracAbs b' in
          match fracInt ps 2 1 with
          | None => None
          | Some two =>
              match fracAdd ps aa bb with
              | None => None
              | Some ab =>
                  match fracAdd ps ab (fracMul two mixed) with
                  | None => None
                  | Some res => Some (if flip then flipSign res else res)
                  end
              end
          end
      | _, _ => None
      end
  | _ => None
  end.

(** am0_to_J TFracNum.cc:767-774 *)
Definition am0_to_J (ps : list Z) (J m m0 : Z) : option frac :=
  match fracFactorial ps true (J + m) (2 * J), fracFactorial ps true (J - m) 1 with
  | Some f1, Some f2 => Some (fracMul (fracMul (fracRaw [m0] [] 1) f1) f2)
  | _, _ => None
  end.

(** c_sub_ell TFracNum.cc:777-787; TFracNum::One is TFracNum(1,1) *)
Definition c_sub_ell (ps : list Z) (ell : Z) : option frac :=
  if ell =? 0 then fracInt ps 1 1
  else match fracFactorial ps true ell 1, fracFactorial ps true ell (2 * ell) with
       | Some f1, Some f2 => Some (fracMul (fracMul (fracRaw [ell] [] 1) f1) f2)
       | _, _ => None
       end.

(** cm0_sub_ell TFracNum.cc:790-800 *)
Definition cm0_sub_ell (ps : list Z) (ell m0 : Z) : option frac :=
  if ell =? 0 then fracInt ps 1 1
  else match fracFactorial ps true ell 1, fracFactorial ps true ell (2 * ell) with
       | Some f1, Some f2 => Some (fracMul (fracMul (fracRaw [Z.quot (ell + m0) 2] [] 1) f1) f2)
       | _, _ => None
       end.

(** cm0_sub_ell_2 TFracNum.cc:803-816 *)
Definition cm0_sub_ell_2 (ps : list Z) (ell m0 : Z) : option frac :=
  if ell =? 0 then fracInt ps 1 1
  else match fracFactorial ps true ell 1, fracFactorial ps true ell (2 * ell) with
       | Some f1, Some f2 =>
           Some (fracMul (fracMul (fracMul (fracMul (fracRaw [ell + m0] [] 1) f1) f1) f2) f2)
       | _, _ => None
       end.
