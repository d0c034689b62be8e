(* Specification for C79: unitarity of two-body amplitudes. *)
From Coq Require Import Reals ZArith Bool List.
From Coquelicot Require Import Complex.
From Verif Require Import PhysModel.
Open Scope R_scope.

(* diagonal element of the S matrix for the amplitude f and the phase-space factor rho *)
Definition Smat (rho : R) (f : C) : C := (RtoC 1 + RtoC 2 * Ci * RtoC rho * f)%C.
(* all of the flux stays in the channel: f is a pure phase shift *)
Definition elastic (rho : R) (f : C) : Prop := Cmod (Smat rho f) = 1.
(* momentum of the daughters in the rest frame of the parent *)
Definition mom (M m1 m2 : R) : R := sqrt ((M * M - (m1 + m2) * (m1 + m2)) * (M * M - (m1 - m2) * (m1 - m2))) / (2 * M).
(* two-body phase space 2 q / M *)
Definition psf (M m1 m2 : R) : R := 2 * mom M m1 m2 / M.
(* below threshold the momentum is imaginary; its modulus *)
Definition momBelow (M m1 m2 : R) : R := sqrt (- ((M * M - (m1 + m2) * (m1 + m2)) * (M * M - (m1 - m2) * (m1 - m2)))) / (2 * M).
(* modulus of the phase space below threshold *)
Definition psfBelow (M m1 m2 : R) : R := 2 * momBelow M m1 m2 / M.
(* f is the resonance formula  a / (M0^2 - M^2 - i M0 Gamma) *)
Definition resonance (f : C) (a M M0 Gamma : R) : Prop := (f * (RtoC (M0 * M0 - M * M) - Ci * RtoC (M0 * Gamma)))%C = RtoC a.
