(* Specification for C76: which decay topologies a key file can hold, and what comes back otherwise. *)
From Coq Require Import String Ascii List ZArith Bool Reals.
From Verif Require Import PathModel StrModel ParticleModel WaveSetModel WaveDescModel.
Import ListNotations.
Open Scope list_scope. Open Scope Z_scope.

(* the particle-data table has the properties of the particle under its name *)
Definition known (t : table) (p : particle) : Prop := fillFromDataTable t (name (ptP p)) = Some (Some (ptP p)).
(* no spin projection, index or reflectivity is set *)
Definition plain (p : particle) : Prop := ptM p = 0 /\ ptIndex p = -1 /\ ptRefl p = 0.
(* the particle without spin projection, index and reflectivity *)
Definition bare (p : particle) : particle := Part (ptP p) 0 (-1) 0.
(* a 32-bit unsigned number *)
Definition isU32 (z : Z) : Prop := 0 <= z < 4294967296.
(* charge of the top of a (sub)decay *)
Definition topCharge (d : wdecay) : Z := pCharge (ptP (wTop d)).
(* the bounds of a mass bin are in order *)
Definition mdOrdered (m : mdep) : Prop := match m with MBinned lo hi => (lo <= hi)%R | _ => True end.
(* a mass dependence of which the key file holds all parameters *)
Definition mdHeld (m : mdep) : Prop :=
  match m with MGlass _ => False | MPalano m => m = (24 / 10)%R | _ => True end.

(* X: the name is X and only the quantum numbers that have a key are set *)
Definition isX (x : particle) : Prop :=
  exists q B Iso St c b G J P C, ptP x = PP (lit "X"%string) [] q 0 0 0 B Iso St c b G J P C [] /\
    0 <= Iso /\ 0 <= J /\ signum G = G /\ signum P = P /\ signum C = C /\ (q = 0 \/ C = 0) /\ -10 < q < 10 /\ ptIndex x = -1.

(* decays of isobars that can be read back: isobars and final-state particles are in the table, isobars are not called X,
   charge is conserved *)
Fixpoint readable (t : table) (d : wdecay) : Prop :=
  match d with
  | WFs p => known t p
  | WNode p L Sp md d1 d2 => known t p /\ pName (ptP p) <> lit "X"%string /\ isU32 L /\ isU32 Sp /\ mdOrdered md /\
      pCharge (ptP p) = topCharge d1 + topCharge d2 /\ -10 < pCharge (ptP p) < 10 /\ readable t d1 /\ readable t d2
  end.
(* the decay of X; its mass dependence is arbitrary *)
Definition readableX (t : table) (d : wdecay) : Prop :=
  match d with
  | WFs _ => False
  | WNode p L Sp md d1 d2 => isX p /\ isU32 L /\ isU32 Sp /\ pCharge (ptP p) = topCharge d1 + topCharge d2 /\ readable t d1 /\ readable t d2
  end.

(* final-state particle first, isobar second *)
Definition fsBeforeIsobar (d1 d2 : wdecay) : Prop := isFs d1 = true /\ isFs d2 = false.
(* decays of isobars of which nothing is lost *)
Fixpoint held (d : wdecay) : Prop :=
  match d with
  | WFs p => plain p
  | WNode p L Sp md d1 d2 => plain p /\ mdHeld md /\ ~ fsBeforeIsobar d1 d2 /\ held d1 /\ held d2
  end.
(* the decay of X of which nothing is lost: in particular it has no mass dependence *)
Definition heldX (d : wdecay) : Prop :=
  match d with
  | WFs _ => False
  | WNode p L Sp md d1 d2 => md = MFlat /\ ~ fsBeforeIsobar d1 d2 /\ held d1 /\ held d2
  end.

(* what comes back *)
Definition mdBack (m : mdep) : mdep := match m with MPalano _ => MPalano (24 / 10) | _ => m end.
(* the isobar first *)
Definition node (p : particle) (L Sp : Z) (md : mdep) (b1 b2 : bool) (d1 d2 : wdecay) : wdecay :=
  if b1 && negb b2 then WNode p L Sp md d2 d1 else WNode p L Sp md d1 d2.
(* decays of isobars *)
Fixpoint back (d : wdecay) : wdecay :=
  match d with
  | WFs p => WFs (bare p)
  | WNode p L Sp md d1 d2 => node (bare p) L Sp (mdBack md) (isFs d1) (isFs d2) (back d1) (back d2)
  end.
(* decay of X *)
Definition backX (d : wdecay) : wdecay :=
  match d with
  | WFs p => WFs p
  | WNode p L Sp md d1 d2 => node p L Sp MFlat (isFs d1) (isFs d2) (back d1) (back d2)
  end.

(* production vertices whose particles are in the table *)
Definition readablePV (t : table) (v : prodVert) : Prop :=
  if pvLepto v then
    exists b tg g r l, pvIn v = [b; tg; g] /\ pvOut v = [r; l] /\ known t b /\ known t tg /\ known t r /\ known t l /\
      createParticle t (lit "gamma"%string) = Some g /\ ptP l = ptP b
  else exists b tg r, pvIn v = [b; tg] /\ pvOut v = [r] /\ known t b /\ known t tg /\ known t r /\ pvPol v = 0%R.
(* nothing is lost: no particle has a spin projection, index or reflectivity, and the lepton scatters on the target *)
Definition heldPV (v : prodVert) : Prop :=
  Forall plain (pvIn v) /\ Forall plain (pvOut v) /\
  (pvLepto v = true -> match pvIn v, pvOut v with _ :: tg :: _, r :: _ => name (ptP r) = name (ptP tg) | _, _ => False end).
(* what comes back: a recoil particle of a lepton vertex is missing, so that the scattered lepton takes its place *)
Definition backPV (v : prodVert) : prodVert :=
  match pvIn v, pvOut v with
  | b :: tg :: rest, r :: _ =>
      if pvLepto v then PV true (bare b :: bare tg :: rest) ((if str_eqb (name (ptP r)) (name (ptP tg)) then [bare tg] else []) ++ [bare b]) (pvPol v)
      else PV false [bare b; bare tg] [if str_eqb (name (ptP r)) (name (ptP tg)) then bare tg else bare r] 0
  | _, _ => v
  end.
(* some isobar has the GLASS mass dependence *)
Fixpoint hasGlass (d : wdecay) : Prop :=
  match d with
  | WFs _ => False
  | WNode p L Sp md d1 d2 => (exists g, md = MGlass g) \/ hasGlass d1 \/ hasGlass d2
  end.
(* some isobar in the decay of X has it *)
Definition hasGlassX (d : wdecay) : Prop :=
  match d with WFs _ => False | WNode p L Sp md d1 d2 => hasGlass d1 \/ hasGlass d2 end.
