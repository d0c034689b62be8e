(* Model of the path helpers of utilities/fileUtils.hpp.
   A std::string is a list of characters. *)
From Coq Require Import List Arith Ascii Bool Lia.
Import ListNotations.

(* representation of std::string *)
Definition str := list ascii.
(* C++ char literal used below *)
Definition slash : ascii := "/"%char.
(* C++ char literal used below *)
Definition dot : ascii := "."%char.

(* std::string::find_last_of(c); None = npos *)
Fixpoint find_last_of (c : ascii) (s : str) : option nat :=
  match s with
  | [] => None
  | x :: r =>
      match find_last_of c r with
      | Some i => Some (S i)
      | None => if Ascii.eqb x c then Some 0 else None
      end
  end.

(* the expression [pos + 1]: npos is the largest size_t, so npos + 1 wraps to 0 *)
Definition plus1 (p : option nat) : nat := match p with None => 0 | Some i => S i end.

(* std::string::substr(pos): throws std::out_of_range (None) if pos > size *)
Definition substr_from (s : str) (pos : nat) : option str :=
  if length s <? pos then None else Some (skipn pos s).

(* std::string::substr(0, n); n = npos takes everything *)
Definition substr_to (s : str) (n : option nat) : str :=
  match n with None => s | Some k => firstn k s end.

(* fileUtils.hpp 57-62 *)
Definition directoryFromPath (path : str) : str := firstn (plus1 (find_last_of slash path)) path.

(* fileUtils.hpp 65-70 *)
Definition fileNameFromPath (path : str) : option str :=
  substr_from path (plus1 (find_last_of slash path)).

(* fileUtils.hpp 73-79 *)
Definition fileNameNoExtFromPath (path : str) : option str :=
  match fileNameFromPath path with
  | None => None
  | Some fileName => Some (substr_to fileName (find_last_of dot fileName))
  end.

(* fileUtils.hpp 82-88 *)
Definition extensionFromPath (path : str) : option str :=
  match fileNameFromPath path with
  | None => None
  | Some fileName => substr_from fileName (plus1 (find_last_of dot fileName))
  end.

(* fileUtils.hpp 91-102 *)
Definition changeFileExtension (path newExt : str) : option str :=
  let directory := directoryFromPath path in
  match fileNameNoExtFromPath path with
  | None => None
  | Some noExt =>
      match newExt with
      | [] => Some (directory ++ noExt)
      | c :: _ => Some (directory ++ noExt ++ (if Ascii.eqb c dot then [] else [dot]) ++ newExt)
      end
  end.
