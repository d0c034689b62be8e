(* Model of escapeRegExpSpecialChar / unescapeRegExpSpecialChar
   (partialWaveFit/fitResult.h 68-103) and of the regular-expression search that
   waveIndicesMatchingPattern / prodAmpIndicesMatchingPattern use. *)
From Coq Require Import String Ascii List Arith Bool Lia.
From Verif Require Import PathModel StrModel.
Import ListNotations.
Open Scope list_scope.
Open Scope nat_scope.

(* C++ char literal of fitResult.h 70-99 *)
Definition bsl : ascii := ascii_of_nat 92.

(* does s start with p *)
(* TString (ROOT) comparison of a prefix, used in 2 functions below *)
Fixpoint isPrefix (p s : str) : bool :=
  match p, s with
  | [], _ => true
  | x :: p', y :: s' => Ascii.eqb x y && isPrefix p' s'
  | _, [] => false
  end.
(* TString::Contains(const char* ) *)
(* TString::Contains of ROOT, fitResult.h 79, 95 *)
Fixpoint contains (p s : str) : bool :=
  isPrefix p s || match s with [] => false | _ :: r => contains p r end.

(* TString::ReplaceAll(p, r) of ROOT: left to right, without re-scanning the replaced
   text; [skip] counts the characters of a match still to be dropped (p is not empty) *)
(* TString::ReplaceAll of ROOT, fitResult.h 72-99 *)
Fixpoint replaceGo (p r : str) (skip : nat) (s : str) : str :=
  match s with
  | [] => []
  | x :: t =>
      match skip with
      | S k => replaceGo p r k t
      | O => if isPrefix p s then r ++ replaceGo p r (length p - 1) t else x :: replaceGo p r 0 t
      end
  end.
(* TString::ReplaceAll of ROOT, fitResult.h 72-99 *)
Definition replaceAll (p r s : str) : str := replaceGo p r 0 s.

(* while (s.Contains(p)) s.ReplaceAll(p, r): the fuel is the length of the string, every
   iteration of the loops below removes a character *)
(* fitResult.h 79-81, 95-97: while (Contains) ReplaceAll *)
Fixpoint whileReplace (fuel : nat) (p r s : str) : str :=
  match fuel with
  | O => s
  | S k => if contains p s then whileReplace k p r (replaceAll p r s) else s
  end.

(* fitResult.h 74 *)
Definition specialChars : list ascii := ["^"; "$"; "."; "["; "]"; "*"; "+"; "?"]%char.

(* fitResult.h 75-82, one iteration *)
Definition escapeStep (s : str) (c : ascii) : str :=
  let escapedChar := [bsl; c] in
  let s1 := replaceAll [c] escapedChar s in
  let escapedTwiceChar := bsl :: escapedChar in
  whileReplace (length s1) escapedTwiceChar escapedChar s1.
(* fitResult.h 69-84 *)
Definition escapeRegExpSpecialChar (s : str) : str := fold_left escapeStep specialChars s.

(* fitResult.h 93-98, one iteration *)
Definition unescapeStep (s : str) (c : ascii) : str := whileReplace (length s) [bsl; c] [c] s.
(* fitResult.h 87-100 *)
Definition unescapeRegExpSpecialChar (s : str) : str := fold_left unescapeStep specialChars s.

(* The fragment of PCRE that matters for patterns made by escapeRegExpSpecialChar:
   alternatives of sequences of literal characters.  A backslash followed by a character
   that is neither letter nor digit stands for that character; '|' separates
   alternatives; '(' ')' '{' and the unescaped special characters above, as well as a
   backslash before a letter, a digit or the end, are outside the fragment (None). *)
(* PCRE syntax class, TPRegexp of ROOT, fitResult.h 556-580 *)
Definition isAlnum (c : ascii) : bool :=
  let n := nat_of_ascii c in
  (48 <=? n) && (n <=? 57) || (65 <=? n) && (n <=? 90) || (97 <=? n) && (n <=? 122).
(* PCRE meta characters, TPRegexp of ROOT, fitResult.h 556-580 *)
Definition meta (c : ascii) : bool := existsb (Ascii.eqb c) ["^"; "$"; "."; "["; "]"; "*"; "+"; "?"; "("; ")"; "{"; "}"; bsl]%char.
(* [acc]: current alternative, reversed *)
(* PCRE patterns of TPRegexp (ROOT), fitResult.h 556-580 *)
Fixpoint parsePattern (acc : str) (p : str) : option (list str) :=
  match p with
  | [] => Some [rev acc]
  | c :: t =>
      if Ascii.eqb c bsl then
        match t with
        | [] => None
        | d :: t' => if isAlnum d then None else parsePattern (d :: acc) t'
        end
      else if Ascii.eqb c "|" then
        match parsePattern [] t with Some alts => Some (rev acc :: alts) | None => None end
      else if meta c then None
      else parsePattern (c :: acc) t
  end.
(* TString::Contains(TPRegexp(p)) for patterns in the fragment *)
(* TString::Contains(TPRegexp) of ROOT, fitResult.h 556-580 *)
Definition regexContains (p s : str) : option bool :=
  match parsePattern [] p with
  | Some alts => Some (existsb (fun a => contains a s) alts)
  | None => None
  end.
