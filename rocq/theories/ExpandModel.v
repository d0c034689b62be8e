(* Model of the expansion of binnings in key files, decayAmplitude/waveDescription.cc 60-175, 292-342.

   Simplifications: those of WaveDescModel (a libconfig setting is a tree, numbers keep their value in the text form of a
   key file); lengths fit into int; every wave description made from an expanded key file is taken to parse.
   [None] = the process is terminated by an uncaught libconfig exception, or undefined behaviour. *)
From Coq Require Import String Ascii List ZArith Bool Reals.
From Verif Require Import PathModel StrModel DecModel ParticleModel WaveSetModel WaveDescModel.
Import ListNotations.
Open Scope list_scope.

(* waveDescription.cc 69-72 *)
Definition expandKey : str := lit "expand"%string.
(* libconfig Setting::remove(name), used in waveDescription.cc 157: the entry of this name is removed *)
Fixpoint removeKey (k : str) (l : list (str * setting)) : list (str * setting) :=
  match l with
  | [] => []
  | (k', v) :: r => if str_eqb k k' then r else (k', v) :: removeKey k r
  end.
(* libconfig Setting::add(name, type), used in waveDescription.cc 160: a name starts with a letter or an asterisk and goes on
   with letters, digits, '-', '_' and '*'; SettingNameException if it is not a name or already there *)
Definition isNameStart (c : ascii) : bool :=
  let n := nat_of_ascii c in ((65 <=? n)%nat && (n <=? 90)%nat) || ((97 <=? n)%nat && (n <=? 122)%nat) || Ascii.eqb c "*".
(* libconfig Setting::add, used in waveDescription.cc 160 *)
Definition validName (s : str) : bool :=
  match s with
  | [] => false
  | c :: r => isNameStart c && forallb (fun c => isNameStart c || isDigit c || Ascii.eqb c "-" || Ascii.eqb c "_") r
  end.
(* libconfig Setting::add, used in waveDescription.cc 160 *)
Definition addEntry (k : str) (v : setting) (l : list (str * setting)) : option (list (str * setting)) :=
  if validName k then match findKey k l with Some _ => None | None => Some (l ++ [(k, v)]) end else None.
(* waveDescription.cc 117-136 and 150: the entries of the parent of the first group 'expand', and the whole setting as a
   function of these entries *)
Fixpoint findExpand (s : setting) : option (list (str * setting) * (list (str * setting) -> setting)) :=
  match s with
  | SGroup l =>
      match findGroup expandKey s with
      | Some _ => Some (l, SGroup)
      | None =>
          match (fix go l := match l with
                             | [] => None
                             | (k, v) :: r =>
                                 match findExpand v with
                                 | Some (p, f) => Some (p, fun x => (k, f x) :: r)
                                 | None => match go r with Some (p, g) => Some (p, fun x => (k, v) :: g x) | None => None end
                                 end
                             end) l with
          | Some (p, g) => Some (p, fun x => SGroup (g x))
          | None => None
          end
      end
  | SList l =>
      match (fix go l := match l with
                         | [] => None
                         | v :: r =>
                             match findExpand v with
                             | Some (p, f) => Some (p, fun x => f x :: r)
                             | None => match go r with Some (p, g) => Some (p, fun x => v :: g x) | None => None end
                             end
                         end) l with
      | Some (p, g) => Some (p, fun x => SList (g x))
      | None => None
      end
  | _ => None
  end.
(* waveDescription.cc 99-114: all elements are converted to double *)
Fixpoint floats (l : list setting) : option (list R) :=
  match l with [] => Some [] | x :: r => doP a <- asFloat x; doP b <- floats r; Some (a :: b) end.
(* waveDescription.cc 99-114: no list, or an empty one, gives the empty vector *)
Definition getBinning (expand : setting) : option (list R) :=
  match findList (lit "bins"%string) expand with None => Some [] | Some l => floats l end.
(* waveDescription.cc 159-171: the loop over neighbouring edges; [edges] has at least one element *)
Fixpoint overBins (f : R -> R -> option (list setting)) (edges : list R) : option (list setting) :=
  match edges with
  | a :: (b :: _) as r => doP x <- f a b; doP y <- overBins f r; Some (x ++ y)
  | _ => Some []
  end.
(* waveDescription.cc 139-177; the difference of the unsigned size and 1 is huge for an empty binning, so that elements
   outside the vector are read; [fuel] bounds the number of expand groups *)
Fixpoint expandFuel (fuel : nat) (root : setting) : option (list setting) :=
  match fuel with
  | O => None
  | S n =>
      match findExpand root with
      | None => Some [root]
      | Some (parent, plug) =>
          match findGroup expandKey (SGroup parent) with
          | None => None
          | Some toExpand =>
              let ty := match lookStr (lit "type"%string) toExpand with Some t => t | None => [] end in
              if str_eqb ty (lit "binning"%string) then
                let binningName := match lookStr (lit "name"%string) toExpand with Some m => m | None => [] end in
                doP binning <- getBinning toExpand;
                match binning with
                | [] => None
                | _ => overBins (fun a b => doP p <- addEntry binningName (SList [SFloat a; SFloat b]) (removeKey expandKey parent);
                                            expandFuel n (plug p)) binning
                end
              else Some []
          end
      end
  end.
(* waveDescription.cc 301-314, 333-346: the key file of every wave described by a key file *)
Definition expandKeyFile (root : setting) : option (list setting) := expandFuel (S (ssize root)) root.
