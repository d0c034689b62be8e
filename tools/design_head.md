# DESIGN: a Rocq/Coq model of ROOTPWA

## 1. What this is

`rocq/theories/` holds a hand-written Gallina model of parts of ROOTPWA (C++ and
the Python interface) and machine-checked theorems about that model. Every area
`X` is split as

* `XModel.v` - the model: total, computable Gallina functions; every definition
  cites the file and lines of /repo it models and says where it simplifies;
* `XSpec.v` (or the head of `XProps.v`) - the small independent specification
  used in the statements (no model helper occurs in it);
* `XProofs.v` - lemmas;
* `XProps.v` - the property theorems, each with a non-vacuity `Example` beside it.

Modelling conventions

* C++ exceptions / `throw;` without active exception (= `std::terminate`),
  out-of-bounds accesses and other undefined behaviour are *distinct outcomes* in the
  model (constructors such as `Terminate`, `OutOfBounds`, `Undef`), never silently
  totalised.
* Machine integers are modelled as `Z`/`nat` where overflow is outside the property's
  range; where overflow matters it is stated in the theorem or excluded by an explicit
  hypothesis.
* Floating-point numbers are modelled by an exact number structure: `Z`/`Q` where only
  comparisons and exact copies matter, stdlib `R` where analysis is needed. Rounding is
  *not* modelled (stated per file).
* ROOT I/O, Boost containers, libconfig and the file system are modelled by their
  abstract contents (lists, finite maps as functions/assoc lists, byte/char strings).
* A defect of the code is kept in the model. Where a property a user would rely on is
  violated by the code, the theorem called `..._refuted` exhibits the violating
  input/history *in the model*, and a second theorem states the exact condition under
  which the property does hold.

## 2. Trusted base

* Coq 8.16.1's kernel (and `vm_compute` as part of it).
* The faithfulness of the hand-written model to the C++/Python text (cited line by line).
* Axioms: what `Print Assumptions` lists for every single theorem is recorded in `ASSUMPTIONS.md`
  (generated by `tools/assumptions.py` from a finished build). Theorems about
  discrete data are closed under the global context. Theorems over `R` use only the axioms
  of the standard library's reals/classical logic: `ClassicalDedekindReals.sig_forall_dec`,
  `ClassicalDedekindReals.sig_not_dec`, `FunctionalExtensionality.functional_extensionality_dep`
  and, where the standard library's classical/epsilon lemmas are pulled in,
  `Classical_Prop.classic`. No axiom is declared in this development; no kernel check is
  switched off; no functors, module types or `Declare Module`.

## 3. What is not modelled

IEEE rounding, OpenMP (the CUDA kernels are modelled, in GpuModel, under every interleaving
of their threads), ROOT's file format and streamers,
the minimisers (Minuit, NLopt), random-number generators, plotting code, CMake and
generated dictionaries, and the numerical linear algebra of ROOT/Eigen (used abstractly).
