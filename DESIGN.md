# DESIGN: a Rocq/Coq model of ROOTPWA

## 1. What this is

`rocq/theories/` holds a hand-written Gallina model of parts of ROOTPWA (C++ and
the Python interface) and machine-checked theorems about that model. Every area
`X` is split as

* `XModel.v` - the model: total, computable Gallina functions; every definition
  cites the file and lines of /repo it models and says where it simplifies;
* `XSpec.v` (or the head of `XProps.v`) - the small independent specification
  used in the statements (no model helper occurs in it);
* `XProofs.v` - lemmas;
* `XProps.v` - the property theorems, each with a non-vacuity `Example` beside it.

Modelling conventions

* C++ exceptions / `throw;` without active exception (= `std::terminate`),
  out-of-bounds accesses and other undefined behaviour are *distinct outcomes* in the
  model (constructors such as `Terminate`, `OutOfBounds`, `Undef`), never silently
  totalised.
* Machine integers are modelled as `Z`/`nat` where overflow is outside the property's
  range; where overflow matters it is stated in the theorem or excluded by an explicit
  hypothesis.
* Floating-point numbers are modelled by an exact number structure: `Z`/`Q` where only
  comparisons and exact copies matter, stdlib `R` where analysis is needed. Rounding is
  *not* modelled (stated per file).
* ROOT I/O, Boost containers, libconfig and the file system are modelled by their
  abstract contents (lists, finite maps as functions/assoc lists, byte/char strings).
* A defect of the code is kept in the model. Where a property a user would rely on is
  violated by the code, the theorem called `..._refuted` exhibits the violating
  input/history *in the model*, and a second theorem states the exact condition under
  which the property does hold.

## 2. Trusted base

* Coq 8.16.1's kernel (and `vm_compute` as part of it).
* The faithfulness of the hand-written model to the C++/Python text (cited line by line).
* Axioms: what `Print Assumptions` lists for every single theorem is recorded in `ASSUMPTIONS.md`
  (generated by `tools/assumptions.py` from a finished build). Theorems about
  discrete data are closed under the global context. Theorems over `R` use only the axioms
  of the standard library's reals/classical logic: `ClassicalDedekindReals.sig_forall_dec`,
  `ClassicalDedekindReals.sig_not_dec`, `FunctionalExtensionality.functional_extensionality_dep`
  and, where the standard library's classical/epsilon lemmas are pulled in,
  `Classical_Prop.classic`. No axiom is declared in this development; no kernel check is
  switched off; no functors, module types or `Declare Module`.

## 3. What is not modelled

IEEE rounding, OpenMP (the CUDA kernels are modelled, in GpuModel, under every interleaving
of their threads), ROOT's file format and streamers,
the minimisers (Minuit, NLopt), random-number generators, plotting code, CMake and
generated dictionaries, and the numerical linear algebra of ROOT/Eigen (used abstractly).

## 4. Per-property plan

| id | property | model and specification files | theorems in | how it is proved |
|---|---|---|---|---|
| C01 | Spin coupling obeys the triangle rule | CGModel, CGSpec, SpinModel, SpinSpec | SpinProps | case analysis over Z, lia |
| C02 | Looping over a restricted spin range visits exactly the allowed couplings | CGModel, CGSpec, SpinModel, SpinSpec | SpinProps | loop as fuel-free enumeration; membership by induction |
| C03 | Spin-exotic test agrees with the quark model | CGModel, CGSpec, DecModel, ParticleModel, PathModel, SpinModel, SpinSpec, StrModel | ParticleProps3, SpinProps | witness L constructed from J,P; parity arithmetic |
| C04 | Clebsch-Gordan cache never aliases and never changes an answer | CGModel, CGSpec, SpinModel, SpinSpec | SpinProps | flat offset arithmetic: injective and in bounds (Z div/mod); cache invariant by induction on the call history |
| C05 | Clebsch-Gordan selection rules | CGModel, CGSpec, SpinModel, SpinSpec | SpinProps | guards evaluated before the sum |
| C06 | Pseudo-n-dimensional array addressing is a bijection | ArrayModel, ArraySpec | ArrayProps | induction on the list of extents |
| C07 | Path splitting loses nothing | PathModel | PathProps | induction on strings (find_last_of as a right fold) |
| C08 | Cascaded and compensated sums return the exact sum | SumAccModel | SumAccProps | induction on samples; ring over Z |
| C09 | d-function cache is transparent only if never switched off | CGModel, CGSpec, DFuncModel, DFuncSpec, SpinModel, SpinSpec | DFuncProps | cache as a map from keys to term lists; invariant by induction; refutation by computation |
| C10 | Reflectivity factor is a sign with the documented symmetries | PhysModel, PhysSpec, SpinModel, SpinSpec | PhysProps | Z arithmetic |
| C11 | Blatt-Weisskopf barrier factors are normalised, bounded and monotone | PhysModel, PhysSpec, SpinModel, SpinSpec | PhysProps | real polynomials: nonnegativity by nra/field_simplify |
| C12 | Breit-Wigner respects unitarity | PhysModel, PhysSpec, SpinModel, SpinSpec | PhysProps | real algebra |
| C13 | Rational prime-exponent numbers implement rational arithmetic | FracModel, FracSpec, PrimeSpec | FracProps, FracProps2, FracProps3 | exponent vectors over the primes; value in Q; induction on vectors |
| C14 | TFracNum equality and value cache | FracModel, FracSpec, PrimeSpec | FracProps2 | refutations by computation, positive part by induction |
| C15 | Prime number cache generation yields exactly the primes in order | PrimeModel, PrimeSpec | PrimeProps | trial division correctness (Znumtheory); generation invariant by induction |
| C16 | Clebsch-Gordan box index is a bijection | CGBoxModel, FracModel | CGBoxProps | Z div/mod |
| C17 | Particle names carry their charge | DecModel, ParticleModel, PathModel, SpinModel, StrModel | ParticleProps | string lemmas |
| C18 | Charge conjugation of a particle is an involution | DecModel, ParticleModel, PathModel, SpinModel, StrModel | ParticleProps | record equality |
| C19 | Decay-mode comparison with wildcards | DecModel, ParticleModel, PathModel, SpinModel, StrModel | ParticleProps | multiset equality of daughters; refutation by computation |
| C20 | Particle-data table: first definition wins | DecModel, ParticleModel, PathModel, SpinModel, SpinSpec, StrModel | ParticleProps2, ParticleProps3 | induction on addEntry sequences |
| C21 | Writing particle properties and reading them back | DecModel, ParticleModel, PathModel, SpinModel, StrModel | ParticleProps2 | token lists; refutation and corrected round trip |
| C22 | Amplitude integral matrices stay Hermitian and positive semi-definite | AmpIntModel, ParticleModel, PathModel, StrModel | AmpIntProps, AmpIntProps2 | sum-of-squares argument over R, induction on events |
| C23 | addEvent is all-or-nothing | AmpIntModel, ParticleModel, PathModel, StrModel | AmpIntProps | case analysis of the failing paths |
| C24 | Adding and subtracting integral matrices is by wave name | AmpIntModel, ParticleModel, PathModel, StrModel | AmpIntProps | pointwise on wave names |
| C25 | ASCII round trip of integral matrices is broken | AmpIntModel, ParticleModel, PathModel, StrModel | AmpIntProps2 | token streams; refutation + corrected round trip |
| C26 | On-the-fly binning and importance weights | AmpIntModel, ParticleModel, PathModel, StrModel | AmpIntProps2 | induction on events; refutation by computation |
| C27 | Merging integral metadata | AmpIntModel, ParticleModel, PathModel, StrModel | AmpIntProps2 | list/set reasoning; refutation by computation |
| C28 | Spin density matrix is Hermitian and positive semi-definite, coherences lie in [0,1] | DecModel, FitResultModel, ParticleModel, PathModel, RegexModel, StrModel | FitIntProps, FitSdmProps | Cauchy-Schwarz over R by induction on the rank |
| C29 | Intensities and overlaps add up | DecModel, FitResultModel, ParticleModel, PathModel, RegexModel, StrModel | FitIntProps | bilinear sums over R |
| C30 | Refilling and copying a fit result | CMatModel, DecModel, FitErrModel, FitResultModel, LikParModel, ParticleModel, PathModel, RegexModel, StrModel | FitByNameProps, FitStoreProps | state machine; refutations by computation |
| C31 | Production-amplitude names encode rank and wave name | DecModel, FitResultModel, ParticleModel, PathModel, RegexModel, StrModel | FitNameProps | decimal printing/parsing round trip on strings |
| C32 | Wave selection by name matches the wave and possibly others | DecModel, FitResultModel, ParticleModel, PathModel, RegexModel, StrModel | FitIntProps, FitSdmProps | substring reasoning |
| C33 | Escaping of regular-expression characters | PathModel, RegexModel, StrModel | RegexProps | induction on strings |
| C34 | Best-fit selection | BestFitModel, CGBoxModel, PathModel, StrModel | BestFitProps | fold invariant |
| C35 | Complex matrix adjoint and comparison | CGBoxModel, CMatModel, DecModel, FitErrModel, FitResultModel, LikParModel, ParticleModel, PathModel, RegexModel, StrModel | CMatProps, FitByNameProps | matrices as functions; refutation by computation |
| C36 | Fit parameters and production amplitudes correspond one-to-one | ArrayModel, CGBoxModel, DecModel, FitResultModel, LikParModel, PathModel, StrModel | LikParProps | closed form of the parameter index; induction over rank/reflectivity/wave loops |
| C37 | The likelihood gradient is the derivative of the likelihood | ArrayModel, CGBoxModel, FitErrModel, LikModel, LikParModel, PathModel | LikGradProps | Coquelicot/stdlib derivatives, induction over the sums |
| C38 | The Hessian is the derivative of the gradient | ArrayModel, CGBoxModel, FitErrModel, LikModel, LikParModel, PathModel | LikHessProps | as C37, second derivatives |
| C39 | Derivative cache of the likelihood | ArrayModel, CGBoxModel, FitErrModel, LikModel, LikParModel, PathModel | LikCacheProps | history invariant; refutation by computation |
| C40 | Sign correction leaves the likelihood invariant | ArrayModel, CGBoxModel, FitErrModel, LikModel, LikParModel, PathModel | LikSignProps | algebraic invariance of the sums |
| C41 | Bookkeeping of fixed parameters | AmpIntModel, ArrayModel, CGBoxModel, DecModel, FitErrModel, FitResultModel, LikModel, LikParModel, LikSetModel, PathModel, StrModel | LikCovProps, LikFixProps, LikParProps | counting lemma; refutation by computation |
| C42 | Likelihood set-up protocol | AmpIntModel, ArrayModel, CGBoxModel, LikModel, LikParModel, LikSetModel, ParticleModel, PathModel, StrModel | LikSetProps, LikSetRef | state machine invariants over all call sequences |
| C43 | Normalisation of integrals is a congruence | AmpIntModel, ArrayModel, CGBoxModel, FitErrModel, LikModel, LikParModel, LikSetModel, ParticleModel, PathModel, StrModel | LikNormProps, LikScaleProps, LikSetRef | loop invariant over the matrix update |
| C44 | Merging event files | BinModel, CGBoxModel, DecModel, EventMetaModel, FileMgrModel, PathModel, StrModel | BinProps2, EventMetaProps | induction on the input list |
| C45 | Kinematic bins are half-open and partition events | BinModel, CGBoxModel, DecModel, EventMetaModel, FileMgrModel, PathModel, StrModel | BinProps, BinProps2, GridProps | order reasoning over Z/Q |
| C46 | Ordering of kinematic bins | BinModel, CGBoxModel, DecModel, EventMetaModel, PathModel, StrModel | BinOrdProps | lexicographic order; refutation by computation |
| C47 | Containment and overlap of kinematic bins | BinModel, CGBoxModel, EventMetaModel, PathModel, StrModel | BinProps | order reasoning |
| C48 | Unique bin strings round-trip | BinModel, CGBoxModel, DecModel, EventMetaModel, PathModel, StrModel | BinOrdProps | string split/join |
| C49 | Amplitude file names never collide | BinModel, CGBoxModel, DecModel, EventMetaModel, FileMgrModel, PathModel, StrModel | BinProps2, FileMgrProps | string suffix reasoning |
| C50 | No event file of a bin is missed | BinModel, CGBoxModel, DecModel, EventMetaModel, FileMgrModel, PathModel, StrModel | FileMgrProps | order reasoning |
| C51 | Bose symmetrisation enumerates all permutations once | BoseModel, CGBoxModel, PathModel, StrModel | BoseProps | std::next_permutation modelled; enumeration proved complete |
| C52 | Isobar vertices accepted by the consistency check conserve all quantum numbers | CGModel, CGSpec, ParticleModel, SpinModel, SpinSpec, VertexModel | VertexProps | boolean reflection |
| C53 | Resonance-fit cache writes exactly the addressed cells | AmpIntModel, CGBoxModel, ParticleModel, PathModel, ResCacheModel, StrModel | ResCacheProps | induction on call sequences |
| C54 | Reflectivity is parsed from wave names | DecModel, FitResultModel, ParticleModel, PathModel, RegexModel, StrModel | FitNameProps | string case analysis |
| C55 | Wave-set generation emits only consistent waves | CGModel, CGSpec, ParticleModel, PathModel, PhysModel, SpinModel, SpinSpec, StrModel, VertexModel, WaveSetModel, WaveSetSpec | WaveSetProps, WaveSetProps2 | inductive specification of the waves of a template (WaveSetSpec); membership and NoDup of the nested loops, induction over the template; vm_compute witnesses for the departures |
| C56 | Factorial cache | CGModel, CGSpec, DFuncModel, DFuncSpec, SpinModel, SpinSpec | DFuncProps | cache invariant by induction over the requests |
| C57 | Two-body breakup momentum conserves energy | PhysModel, PhysSpec, SpinModel, SpinSpec | PhysProps | real algebra (field, nra) |
| C58 | Particle-table queries return exactly the matching entries | DecModel, ParticleModel, PathModel, SpinModel, StrModel | ParticleProps2 | boolean reflection over the filter chain |
| C59 | Reading a particle-table file | DecModel, ParticleModel, PathModel, SpinModel, StrModel | ParticleProps2 | induction over the lines |
| C60 | Renormalisation keeps the normalised matrix elements | AmpIntModel, ParticleModel, PathModel, StrModel | AmpIntProps | field arithmetic over C |
| C61 | Equality of integral matrices is by wave name | AmpIntModel, ArrayModel, CGBoxModel, LikModel, LikParModel, LikSetModel, LikSetRef, ParticleModel, PathModel, StrModel | AmpIntProps, LikIntProps | boolean reflection over wave names |
| C62 | Error propagation uses the true derivatives | CMatModel, DecModel, FitErrModel, FitResultModel, LikParModel, ParticleModel, PathModel, RegexModel, StrModel | FitByNameProps, FitErrProps | calculus (Coquelicot is_derive), exact second-order expansions, sums of squares |
| C63 | On-the-fly binning selects exactly the events of the bin | AmpIntModel, ArrayModel, CGBoxModel, FitResultModel, LikModel, LikParModel, LikSetModel, PathModel, StrModel | LikBinProps | invariant of the file table over call histories, induction over events, files and amplitude files |
| C64 | Grid binnings cover every combination of neighbouring edges once | BinModel, CGBoxModel, EventMetaModel, PathModel, StrModel | GridProps | induction on the axes; refutation by computation |
| C65 | Caching in the resonance fit is transparent | AmpIntModel, CGBoxModel, ParticleModel, PathModel, ResCacheModel, ResTransSpec, StrModel | ResTransProps | invariant: every non-zero cached cell equals the value computed directly from the current parameters; preserved by every import (which zeroes all cells depending on a changed parameter) and every evaluation; two-object refutation by execution |
| C66 | The symmetrised amplitude treats identical particles alike | BoseModel, CGBoxModel, PathModel, StrModel | BoseProps | the relabelling permutes the list of Bose terms (composition is injective on them), and a sum is invariant under permutation |
| C67 | Fit parameters and normalisation integrals by name | CMatModel, DecModel, FitErrModel, FitResultModel, LikParModel, ParticleModel, PathModel, RegexModel, StrModel | FitByNameProps | string induction over replaceAll and contains; refutation by computation |
| C68 | The likelihood's integral matrices belong to its waves | AmpIntModel, ArrayModel, CGBoxModel, LikModel, LikParModel, LikSetModel, LikSetRef, ParticleModel, PathModel, StrModel | LikIntProps | fold invariants of the reordering loops, closed form of finishInit, decomposition of the call history |
| C69 | clebschGordanCoeff returns the Clebsch-Gordan coefficients | CGModel, CGSpec, SpinModel, SpinSpec | CGValProps | ladder relations of the finite Wigner sums (termwise after an index shift), norm of the column M=J by a convolution recursion, other columns by adjointness; completeness by a trace argument; uniqueness by induction along the ladder |
| C70 | The exact Clebsch-Gordan tables hold the Clebsch-Gordan coefficients | ArrayModel, CGBoxModel, CGModel, FracModel, FracSpec, PrimeModel, PrimeSpec, SpinSpec | CGBoxProps2 | loop invariant: finished entries are lam times the coefficient (ladder relations of C69, one sign along m2=J2), the sign loop finds the sign of lam, each column sum is lam^2 (orthonormality) |
| C71 | Evaluating on the GPU gives the same likelihood and gradient as on the CPU | ArrayModel, ArraySpec, CGBoxModel, FitErrModel, GpuModel, GpuSpec, LikModel, LikParModel | GpuProps | every interleaving of the writes of a launch gives the same memory (addresses are pairwise different by injectivity of the row-major offset); strided loops are residue classes that partition the events; the cascade preserves the total; the sums of the kernels are those of LikModel; refutations by execution |
| C72 | Generated phase-space events conserve four-momentum, are on their mass shells and carry phase-space weights | ArrayModel, CGBoxModel, PhaseModel, PhaseSpec, PhysModel | PhaseProps, PhaseProps2, PhaseProps3, PhaseProps4, PhaseProps5 | Lorentz algebra of boosts and rotations, loop invariants of both kinematics algorithms, object invariant over call histories; weights by telescoping products; distribution of the NUPHAZ masses by integration (Coquelicot is_RInt, is_derive) |
| C73 | Decay amplitudes are evaluated in the Gottfried-Jackson and helicity frames | CGBoxModel, FrameModel, FrameSpec, PhaseModel, PhaseSpec, PhysModel | FrameProps, FrameProps2, FrameProps3 | matrix algebra: the elementary rotations and boosts preserve the Minkowski product and have determinant 1; angles by cos/sin of atan2; uniqueness from the rows of the matrix and its determinant; refutations by evaluation |
| C74 | The amplitude of an event is the coherent sum of isobar-model products in the right frames | AmpModel, AmpSpec, CGBoxModel, DFuncSpec, FrameModel, FrameSpec, PhaseModel, PhaseSpec, PhysModel, SpinSpec | AmpProps | induction on the decay tree: loop invariants for the momentum updates (each particle of the subtree is transformed once by each step), the recursion with mutable spin projections equals a pure recursion, which is the flattened sum over assignments; uniqueness of the frames and C73 for the invariances |
| C75 | Amplitudes of parity-conserving decays are eigenstates of space inversion and of the reflection through the production plane | AmpModel, AmpSpec, CGBoxModel, CGSpec, DFuncSpec, FrameModel, FrameSpec, ParityModel, ParitySpec, PhaseModel, PhaseSpec, PhysModel, SpinSpec | ParityProps | symmetries of the d-functions (reversal of both indices, theta -> pi - theta) and of the Clebsch-Gordan coefficients, uniqueness of the helicity frame to follow mirrored momenta down the decay tree, induction on the tree with re-indexed sums over the projections; parity conservation turns the product of (-1)^L into the eigenvalue |
| C76 | A wave written to a key file comes back as the same wave | DecModel, ParticleModel, PathModel, StrModel, WaveDescModel, WaveDescSpec, WaveSetModel | WaveDescProps | structural induction on the decay tree: the reader applied to the written settings computes the stated tree; the exact condition by comparing that tree with the original; refutations by evaluation |
| C77 | A wave name identifies the wave | DecModel, ParticleModel, PathModel, StrModel, WaveDescModel, WaveDescSpec, WaveNameModel, WaveNameSpec, WaveSetModel | WaveNameProps | unique parsing: a name splits at its brackets, spins and parities are prefix codes, labels of isobars and spin pairs cannot be confused; induction on the tree |
| C78 | A key file with binnings stands for one wave per combination of bins | DecModel, ExpandModel, ExpandSpec, ParticleModel, PathModel, StrModel, WaveDescModel, WaveSetModel | ExpandProps | the search returns the parent of the first expand group and a context; induction on the setting shows that plugging in the bins partitions the instances; induction on the number of expand groups for the recursion; disjointness for the absence of duplicates |
| C79 | The built-in mass dependences are unitary two-body amplitudes | ExpandSpec, MassDepModel, MassDepSpec, PhysModel, PhysSpec, SpinModel, WaveDescModel | MassDepProps | S matrix times denominator is the conjugate denominator (one channel); algebra of the 2x2 K matrix for two channels, denominators nonzero by positivity of the phase space; phase-shift identity for LASS; refutations by explicit masses |
| C80 | Generated events of diffractive production conserve four-momentum and have the picked mass and t' | ArrayModel, CGBoxModel, FrameModel, FrameSpec, PhaseModel, PhaseSpec, PhysModel, ProdModel, ProdSpec | ProdProps, ProdProps2, ProdProps3 | invariant Minkowski products in the centre-of-mass frame (Cauchy-Schwarz for the maximal transfer), algebra of the laboratory formulas; object invariant over call histories with C72 for the decay; refutations by evaluation, two-body weights by induction on the trials |
| C81 | Vertices and beam particles follow the target and the entries of the beam file | ArrayModel, BeamModel, BeamSpec, CGBoxModel, PhaseModel, PhaseSpec, PhysModel, ProdModel, ProdSpec | BeamProps, BeamProps2, BeamProps3 | induction on the draws of the depth; object invariant over call histories (mode, connected branches); algebra of the projections, completing the square for the product of Gaussians, matrix identity for the smeared sample; induction on the events for sequential reading; refutations by evaluation |
| C82 | Picked masses and t' follow the ranges and slopes of the configuration | ArrayModel, CGBoxModel, PhaseModel, PhaseSpec, PhysModel, PickModel, PickSpec, ProdModel, ProdSpec | PickProps, PickProps2 | inductions over the rows of the setting and the sorted map; integrals of exponentials (Coquelicot is_RInt) for the quantiles; convexity of the primitive for the monotone convergence of the Newton iteration; refutations by evaluation and, for the range far from zero, a bound of one on every step |
| C83 | The model intensity is the intensity of the fit result, event by event | AmpIntModel, FitResultModel, IntensModel, IntensSpec, ParticleModel, PathModel, StrModel | IntensCases, IntensProps, IntensProps2, IntensProps3 | invariant over all histories of calls that ties every slot to the amplitude added; splitting of the double sum by reflectivity; exchange of sums for the average over the sample; refutations by evaluation of two fit results |
| C84 | Importance sampling of events follows the model intensity times phase space | AmpModel, AmpSpec, ArrayModel, CGBoxModel, FrameModel, FrameSpec, PhaseModel, PhaseSpec, PhysModel, ProdModel, ProdSpec, SampleModel, SampleSpec | SampleProps, SampleProps2, SampleProps3 | point-wise evaluation of the object with the invariants of the phase-space generator (C72), the production kinematics (C80) and the amplitude in its frames (C74); induction over the calls for the file; refutations by evaluation |
| C85 | Breit-Wigner amplitudes with unstable daughters use one lasting table of phase-space integrals per decay | MassDepModel, PhysModel, PsIntModel, PsIntSpec | PsIntCases, PsIntCases2, PsIntProps, PsIntProps2 | invariant over all histories (tables sorted and measured; memory equals file; cached names equal current names), insertion and interpolation by induction on sorted lists, induction on the fill loop; locked-out invariant for damaged files; refutations with a concrete stream of events |
| C86 | The chi-square of the resonance fit compares exactly the matrix elements inside the mass ranges with their covariances | ChiModel, ChiSpec, PhysModel | ChiProps | the loops with their skipping pointers enumerate the used elements as consecutive blocks; every cell is written once, so the reduced matrix is block diagonal and any left inverse restricts to the inverse blocks; induction on the sorted centers for the mass limits; induction over mass bins and bins for the sum; a matrix inversion by columns shows that the hypothesis can be met; refutations by evaluation |
| C87 | The chi-square of the fit to production amplitudes compares the amplitudes in the frame of the anchor wave with propagated covariances | ChiModel, ChiSpec, PaChiModel, PaChiSpec, PhysModel | PaChiProps, PaChiProps3 | the loops with their skipped rows enumerate the used real numbers in order, so the reduced matrix is the used part; the filled Jacobian is shown to hold the derivatives of the rotated amplitudes, the product of the matrices is the linear propagation; any left inverse restricted to the used rows; induction over mass bins and bins; refutations by evaluation |
| C88 | A resonance fit written to a configuration file is read back as the same fit | ResCfgModel, ResCfgSpec | ResCfgProps | the emitter calls of each part of the file are shown to build a tree (invariant for anchors and aliases: the first bin with the same waves), the reading functions are run on these trees; induction over bins, waves, parameters, channels, components and formulas; the maps of channels to couplings are shown to be inverse on owning channels; refutations by evaluation |
| C89 | Weights for phase-space events reproduce the fit result | AmpIntModel, FitResultModel, ParticleModel, PathModel, StrModel, WeightModel, WeightSpec | WeightProps, WeightProps2, WeightProps3 | the coherent sums are split by reflectivity and rank into a sum over pairs; inductions over production amplitudes, samples and files; exchange of sums over events and pairs for the expectation; the fold over the fit results keeps the best one; covariance of a linear map of white random numbers, a diagonal Cholesky factor by induction on rows, strict excess of the first variance for the refutation |
| C90 | Amplitude leaves keep incoherent sub-amplitudes under distinct labels through arithmetic and storage | AmpIntModel, AmpLeafModel, AmpLeafSpec, ParticleModel, PathModel, StrModel | AmpLeafProps | induction over the calls that make a leaf: distinct labels, as many amplitudes as labels, a map that is the one rebuilt from the labels; sums and comparisons by induction over the vectors; refutations by evaluation |
| C91 | The minimiser of the resonance fit releases the parameters step by step and keeps everything else | AmpIntModel, CGBoxModel, DecModel, MinimModel, MinimSpec, ParticleModel, PathModel, ResCacheModel, ResTransSpec, StrModel | MinimProps, MinimProps2, MinimProps3 | induction over components, channels and bins for the layout of the variables; an invariant of the steps (requests so far, parameters after each of them, orders dropped, calls left) over the list of release orders |
| C92 | Text files of events are read as what they contain, and written so that they are read back | DecModel, EvtModel, EvtSpec, ParticleModel, PathModel, StrModel | EvtProps, EvtProps2, EvtProps3 | induction over the lines of a text and the particles of an event: reading is sound and complete for a grammar of good events; writing gives a text in this grammar; table of IDs by cases; refutations by evaluation of the model on general inputs |
| C93 | Integrals put into fit results are those the fit would have stored, and can be removed again | AddIntModel, AddIntSpec, AmpIntModel, CGBoxModel, FitResultModel, LikSetModel, ParticleModel, PathModel, StrModel | AddIntProps | the loops over pairs of waves set every element once: a double fold with closed form; elements by induction-free lookup in the integrals; the set-up of the likelihood through the theorems of C68; failures by showing that one pass of a loop cannot end |
| C94 | A fit starts from reproducible or continued values and its result holds what the minimiser found | ArrayModel, CGBoxModel, DecModel, FitResultModel, LikParModel, PathModel, PwaFitModel, StrModel | PwaFitEx, PwaFitProps | induction over the parameters for the variables, over the entries of the file for the nearest one; the stored amplitudes through the theorems of C36 and C40, found again under the parameter names by C67; refutations on a fit of one wave |
| C95 | Fits with NLopt minimise over the free parameters only and do not influence each other | ArrayModel, CGBoxModel, DecModel, FitResultModel, LikParModel, NloptModel, PathModel, PwaFitModel, StrModel | NloptEx, NloptProps | induction over the parameters for the array with and without fixed ones; the derivative by the chain of one coordinate; induction over the questions of the optimiser and over the fits of a process with the sizes of the static arrays as invariant; refutations by evaluation |
