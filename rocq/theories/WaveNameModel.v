(* Model of waveDescription::waveNameFromTopology (decayAmplitude/waveDescription.cc 542-595) and of
   parentLabelForWaveName of the mass dependences (decayAmplitude/massDependence.cc).

   Simplifications: those of WaveDescModel; the check of the topology at the entry is taken as passed; a spin quantum
   number is printed by C++ as a double with six digits, the model prints the exact value (the same for |qn| < 200000);
   the text of any other double is a parameter [showD]. *)
From Coq Require Import String Ascii List ZArith Bool Reals.
From Verif Require Import PathModel StrModel DecModel ParticleModel WaveSetModel WaveDescModel.
Import ListNotations.
Open Scope list_scope. Open Scope Z_scope.

(* conversionUtils.hpp 119-124: 0.5 * qn, written to a stream *)
Definition spinStr (qn : Z) : str :=
  (if qn <? 0 then ["-"%char] else []) ++ showNN (Z.abs qn / 2) ++ (if Z.even qn then [] else lit ".5"%string).
(* conversionUtils.hpp 127-132 *)
Definition parityStr (qn : Z) : str := if qn =? 0 then [] else signStr qn.
(* boost replace_all of "(" and ")" by "_", waveDescription.cc 589-594 *)
Definition repl (s : str) : str := map (fun c => if Ascii.eqb c "(" || Ascii.eqb c ")" then "_"%char else c) s.

(* massDependence.cc 149-155, 177-185, 236-245, 290-293, 694-699, 765-770: label of the parent of a decay *)
Definition parentLabel (showD : R -> str) (md : mdep) (parent : pprops) : str :=
  let igjpc := spinStr (pI parent) ++ parityStr (pG parent) ++ lit ","%string ++
               spinStr (pJ parent) ++ parityStr (pP parent) ++ parityStr (pC parent) in
  match md with
  | MBW => name parent
  | MFlat => mdName md ++ lit "["%string ++ igjpc ++ lit "]"%string
  | MBinned lo hi => mdName md ++ lit "["%string ++ igjpc ++ lit ","%string ++ showD lo ++ lit ","%string ++ showD hi ++ lit "]"%string
  | MGlass g => mdName md ++ lit "<"%string ++ gTag g ++ lit ">["%string ++ name parent ++ lit "]"%string
  | MPalano mm => mdName md ++ lit "<MMax_"%string ++ showD mm ++ lit "GeV>["%string ++ name parent ++ lit "]"%string
  | _ => mdName md ++ lit "["%string ++ name parent ++ lit "]"%string
  end.
(* waveDescription.cc 560-594: the decay below a vertex *)
Fixpoint decayName (showD : R -> str) (d : wdecay) : str :=
  match d with
  | WFs _ => []
  | WNode _ L Sp _ d1 d2 =>
      let daughter x := match x with
                        | WFs p => name (ptP p)
                        | WNode p _ _ md _ _ => parentLabel showD md (ptP p) ++ decayName showD x
                        end in
      repl (lit "=["%string ++ daughter d1 ++ lit "["%string ++ spinStr L ++ lit ","%string ++ spinStr Sp ++ lit "]"%string ++
            daughter d2 ++ lit "]"%string)
  end.
(* waveDescription.cc 546-558, 589-594 *)
Definition waveName (showD : R -> str) (d : wdecay) : str :=
  let X := wTop d in
  repl (lit "["%string ++ spinStr (pI (ptP X)) ++ parityStr (pG (ptP X)) ++ lit ","%string ++
        spinStr (pJ (ptP X)) ++ parityStr (pP (ptP X)) ++ parityStr (pC (ptP X)) ++ lit ","%string ++
        spinStr (ptM X) ++ parityStr (ptRefl X) ++ lit "]"%string ++ decayName showD d).
