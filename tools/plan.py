import json
PLAN={}
def a(i,m,h): PLAN["C%02d"%i]=(m,h)
a(1,"SpinModel","case analysis over Z, lia")
a(2,"SpinModel","loop as fuel-free enumeration; membership by induction")
a(3,"SpinModel","witness L constructed from J,P; parity arithmetic")
a(4,"CGCacheModel","flat offset arithmetic: injective and in bounds (Z div/mod); cache invariant by induction on the call history")
a(5,"CGCacheModel","guards evaluated before the sum")
a(6,"ArrayModel","induction on the list of extents")
a(7,"PathModel","induction on strings (find_last_of as a right fold)")
a(8,"SumAccModel","induction on samples; ring over Z")
a(9,"DFuncModel","cache as a map from keys to term lists; invariant by induction; refutation by computation")
a(10,"PhysModel","Z arithmetic")
a(11,"PhysRealModel","real polynomials: nonnegativity by nra/field_simplify")
a(12,"PhysRealModel","real algebra")
a(13,"FracModel","exponent vectors over the primes; value in Q; induction on vectors")
a(14,"FracModel","refutations by computation, positive part by induction")
a(15,"PrimeModel","trial division correctness (Znumtheory); generation invariant by induction")
a(16,"CGBoxModel","Z div/mod")
a(17,"ParticleModel","string lemmas")
a(18,"ParticleModel","record equality")
a(19,"ParticleModel","multiset equality of daughters; refutation by computation")
a(20,"DataTableModel","induction on addEntry sequences")
a(21,"ParticleModel","token lists; refutation and corrected round trip")
a(22,"AmpIntModel","sum-of-squares argument over R, induction on events")
a(23,"AmpIntModel","case analysis of the failing paths")
a(24,"AmpIntModel","pointwise on wave names")
a(25,"AmpIntModel","token streams; refutation + corrected round trip")
a(26,"AmpIntModel","induction on events; refutation by computation")
a(27,"AmpIntModel","list/set reasoning; refutation by computation")
a(28,"FitResultModel","Cauchy-Schwarz over R by induction on the rank")
a(29,"FitResultModel","bilinear sums over R")
a(30,"FitFillModel","state machine; refutations by computation")
a(31,"ProdAmpNameModel","decimal printing/parsing round trip on strings")
a(32,"ProdAmpNameModel","substring reasoning")
a(33,"EscapeModel","induction on strings")
a(34,"BestFitModel","fold invariant")
a(35,"ComplexMatModel","matrices as functions; refutation by computation")
a(36,"LikelihoodParModel","closed form of the parameter index; induction over rank/reflectivity/wave loops")
a(37,"LikelihoodModel","Coquelicot/stdlib derivatives, induction over the sums")
a(38,"LikelihoodModel","as C37, second derivatives")
a(39,"LikelihoodCacheModel","history invariant; refutation by computation")
a(40,"LikelihoodModel","algebraic invariance of the sums")
a(41,"LikelihoodSetupModel","counting lemma; refutation by computation")
a(42,"LikelihoodSetupModel","state machine invariants over all call sequences")
a(43,"LikelihoodSetupModel","loop invariant over the matrix update")
a(44,"EventMetaModel","induction on the input list")
a(45,"BinningModel","order reasoning over Z/Q")
a(46,"BinningModel","lexicographic order; refutation by computation")
a(47,"BinningModel","order reasoning")
a(48,"BinningModel","string split/join")
a(49,"FileManagerModel","string suffix reasoning")
a(50,"FileManagerModel","order reasoning")
a(51,"BoseModel","std::next_permutation modelled; enumeration proved complete")
a(52,"VertexModel","boolean reflection")
a(53,"ResCacheModel","induction on call sequences")
a(54,"ReflectivityModel","string case analysis")
a(55,"WaveSetModel","inductive specification of the waves of a template (WaveSetSpec); membership and NoDup of the nested loops, induction over the template; vm_compute witnesses for the departures")
a(56,"DFuncModel","cache invariant by induction over the requests")
a(57,"PhysModel","real algebra (field, nra)")
a(58,"ParticleModel","boolean reflection over the filter chain")
a(59,"ParticleModel","induction over the lines")
a(60,"AmpIntModel","field arithmetic over C")
a(61,"AmpIntModel","boolean reflection over wave names")
a(62,"FitErrModel","calculus (Coquelicot is_derive), exact second-order expansions, sums of squares")
a(63,"LikSetModel","invariant of the file table over call histories, induction over events, files and amplitude files")
a(64,"BinModel","induction on the axes; refutation by computation")
a(65,"ResCacheModel","invariant: every non-zero cached cell equals the value computed directly from the current parameters; preserved by every import (which zeroes all cells depending on a changed parameter) and every evaluation; two-object refutation by execution")
a(66,"BoseModel","the relabelling permutes the list of Bose terms (composition is injective on them), and a sum is invariant under permutation")
a(67,"FitResultModel","string induction over replaceAll and contains; refutation by computation")
a(68,"LikSetModel","fold invariants of the reordering loops, closed form of finishInit, decomposition of the call history")
a(69,"CGModel","ladder relations of the finite Wigner sums (termwise after an index shift), norm of the column M=J by a convolution recursion, other columns by adjointness; completeness by a trace argument; uniqueness by induction along the ladder")
a(70,"CGBoxModel","loop invariant: finished entries are lam times the coefficient (ladder relations of C69, one sign along m2=J2), the sign loop finds the sign of lam, each column sum is lam^2 (orthonormality)")
a(71,"GpuModel","every interleaving of the writes of a launch gives the same memory (addresses are pairwise different by injectivity of the row-major offset); strided loops are residue classes that partition the events; the cascade preserves the total; the sums of the kernels are those of LikModel; refutations by execution")
a(72,"PhaseModel","Lorentz algebra of boosts and rotations, loop invariants of both kinematics algorithms, object invariant over call histories; weights by telescoping products; distribution of the NUPHAZ masses by integration (Coquelicot is_RInt, is_derive)")
a(73,"FrameModel","matrix algebra: the elementary rotations and boosts preserve the Minkowski product and have determinant 1; angles by cos/sin of atan2; uniqueness from the rows of the matrix and its determinant; refutations by evaluation")
a(74,"AmpModel","induction on the decay tree: loop invariants for the momentum updates (each particle of the subtree is transformed once by each step), the recursion with mutable spin projections equals a pure recursion, which is the flattened sum over assignments; uniqueness of the frames and C73 for the invariances")
a(75,"ParityModel","symmetries of the d-functions (reversal of both indices, theta -> pi - theta) and of the Clebsch-Gordan coefficients, uniqueness of the helicity frame to follow mirrored momenta down the decay tree, induction on the tree with re-indexed sums over the projections; parity conservation turns the product of (-1)^L into the eigenvalue")
a(76,"WaveDescModel","structural induction on the decay tree: the reader applied to the written settings computes the stated tree; the exact condition by comparing that tree with the original; refutations by evaluation")
a(77,"WaveNameModel","unique parsing: a name splits at its brackets, spins and parities are prefix codes, labels of isobars and spin pairs cannot be confused; induction on the tree")
a(78,"ExpandModel","the search returns the parent of the first expand group and a context; induction on the setting shows that plugging in the bins partitions the instances; induction on the number of expand groups for the recursion; disjointness for the absence of duplicates")
a(79,"MassDepModel","S matrix times denominator is the conjugate denominator (one channel); algebra of the 2x2 K matrix for two channels, denominators nonzero by positivity of the phase space; phase-shift identity for LASS; refutations by explicit masses")
a(80,"ProdModel","invariant Minkowski products in the centre-of-mass frame (Cauchy-Schwarz for the maximal transfer), algebra of the laboratory formulas; object invariant over call histories with C72 for the decay; refutations by evaluation, two-body weights by induction on the trials")
a(81,"BeamModel","induction on the draws of the depth; object invariant over call histories (mode, connected branches); algebra of the projections, completing the square for the product of Gaussians, matrix identity for the smeared sample; induction on the events for sequential reading; refutations by evaluation")
a(82,"PickModel","inductions over the rows of the setting and the sorted map; integrals of exponentials (Coquelicot is_RInt) for the quantiles; convexity of the primitive for the monotone convergence of the Newton iteration; refutations by evaluation and, for the range far from zero, a bound of one on every step")
a(83,"IntensModel","invariant over all histories of calls that ties every slot to the amplitude added; splitting of the double sum by reflectivity; exchange of sums for the average over the sample; refutations by evaluation of two fit results")
a(84,"SampleModel","point-wise evaluation of the object with the invariants of the phase-space generator (C72), the production kinematics (C80) and the amplitude in its frames (C74); induction over the calls for the file; refutations by evaluation")
a(85,"PsIntModel","invariant over all histories (tables sorted and measured; memory equals file; cached names equal current names), insertion and interpolation by induction on sorted lists, induction on the fill loop; locked-out invariant for damaged files; refutations with a concrete stream of events")
a(86,"ChiModel","the loops with their skipping pointers enumerate the used elements as consecutive blocks; every cell is written once, so the reduced matrix is block diagonal and any left inverse restricts to the inverse blocks; induction on the sorted centers for the mass limits; induction over mass bins and bins for the sum; a matrix inversion by columns shows that the hypothesis can be met; refutations by evaluation")
a(87,"PaChiModel","the loops with their skipped rows enumerate the used real numbers in order, so the reduced matrix is the used part; the filled Jacobian is shown to hold the derivatives of the rotated amplitudes, the product of the matrices is the linear propagation; any left inverse restricted to the used rows; induction over mass bins and bins; refutations by evaluation")
a(88,"ResCfgModel","the emitter calls of each part of the file are shown to build a tree (invariant for anchors and aliases: the first bin with the same waves), the reading functions are run on these trees; induction over bins, waves, parameters, channels, components and formulas; the maps of channels to couplings are shown to be inverse on owning channels; refutations by evaluation")
a(89,"WeightModel","the coherent sums are split by reflectivity and rank into a sum over pairs; inductions over production amplitudes, samples and files; exchange of sums over events and pairs for the expectation; the fold over the fit results keeps the best one; covariance of a linear map of white random numbers, a diagonal Cholesky factor by induction on rows, strict excess of the first variance for the refutation")
a(90,"AmpLeafModel","induction over the calls that make a leaf: distinct labels, as many amplitudes as labels, a map that is the one rebuilt from the labels; sums and comparisons by induction over the vectors; refutations by evaluation")
a(91,"MinimModel","induction over components, channels and bins for the layout of the variables; an invariant of the steps (requests so far, parameters after each of them, orders dropped, calls left) over the list of release orders")
a(92,"EvtModel","induction over the lines of a text and the particles of an event: reading is sound and complete for a grammar of good events; writing gives a text in this grammar; table of IDs by cases; refutations by evaluation of the model on general inputs")
a(93,"AddIntModel","the loops over pairs of waves set every element once: a double fold with closed form; elements by induction-free lookup in the integrals; the set-up of the likelihood through the theorems of C68; failures by showing that one pass of a loop cannot end")
a(94,"PwaFitModel","induction over the parameters for the variables, over the entries of the file for the nearest one; the stored amplitudes through the theorems of C36 and C40, found again under the parameter names by C67; refutations on a fit of one wave")
a(95,"NloptModel","induction over the parameters for the array with and without fixed ones; the derivative by the chain of one coordinate; induction over the questions of the optimiser and over the fits of a process with the sizes of the static arrays as invariant; refutations by evaluation")
json.dump(PLAN,open('/verif/tools/plan.json','w'))
