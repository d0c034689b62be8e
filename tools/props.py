import json
P=[]
def p(title, statement, quantifier, why, anchors):
    P.append(dict(id="C%02d"%(len(P)+1),title=title,statement=statement,quantifier=quantifier,why_tests_cant=why,anchors=anchors))
INF="infinitely many inputs; a test only samples a few of them"
HIST="it ranges over all call histories, which are unbounded; a test replays a few"

p("Spin coupling obeys the triangle rule",
  "spinStatesCanCouple(j1,j2,J) (all in units of hbar/2) returns true exactly if j1,j2,J are non-negative, |j1-j2| <= J <= j1+j2 and J has the same parity as j1+j2; getSpinRange(j1,j2) returns exactly the end points of that set, and reports an invalid, empty range for a negative spin.",
  "all integers j1, j2, J", INF, ["utilities/spinUtils.hpp: getSpinRange, spinStatesCanCouple"])
p("Looping over a restricted spin range visits exactly the allowed couplings",
  "for (tie(S,SMax)=getSpinRange(j1,j2,demanded); S<=SMax; S+=2) visits exactly those S that couple to j1,j2 and lie inside the demanded range, each once and in increasing order.",
  "all spins j1,j2 >= 0 and all demanded ranges", INF, ["utilities/spinUtils.hpp: getSpinRange, spinQnLargerEqual, spinQnSmallerEqual","decayAmplitude/waveSetGenerator.cc: generateWaveSet"])
p("Spin-exotic test agrees with the quark model",
  "jpcIsExotic(J,P,C) returns true exactly if no quark-antiquark state with orbital angular momentum L and total quark spin S in {0,1} has spin J, parity (-1)^(L+1) and C parity (-1)^(L+S); igjpIsExotic(I,G,J,P) does the same with G=(-1)^(I+L+S). Negative or half-integer spins and undefined parities are reported as not exotic. particleProperties::isSpinExotic answers true exactly for particles with meson quantum numbers that no quark-antiquark state has.",
  "all spins, isospins and parity signs", "L is unbounded: the quark-model criterion quantifies over all orbital angular momenta", ["utilities/spinUtils.hpp: jpcIsExotic, igjpIsExotic"])
p("Clebsch-Gordan cache never aliases and never changes an answer",
  "With the cache switched on or off, in any order and for any history of calls, clebschGordanCoeff returns for each argument tuple the value the direct formula gives; different admissible argument tuples use different cache cells and all cells lie inside the cache object.",
  "all admissible argument tuples (spins below the cache limit) and all call histories", HIST, ["utilities/spinUtils.hpp: clebschGordanCoeffCached"])
p("Clebsch-Gordan selection rules",
  "clebschGordanCoeff returns exactly 0 unless every projection is compatible with its spin, m1+m2=M and the three spins fulfil the triangle rule.",
  "all integer arguments", INF, ["utilities/spinUtils.hpp: clebschGordanCoeffCached, spinAndProjAreCompatible"])
p("Pseudo-n-dimensional array addressing is a bijection",
  "For every list of positive extents, indicesToOffset maps the in-range index tuples one-to-one onto [0, product of extents) and offsetToIndices is its inverse in both directions; the order is row-major.",
  "all dimensions, all extents, all index tuples", "unbounded dimension and extents", ["utilities/arrayUtils.hpp: nmbElements, indicesToOffset, offsetToIndices"])
p("Path splitting loses nothing",
  "directoryFromPath(p)+fileNameFromPath(p)=p for every path; fileNameNoExtFromPath, extensionFromPath and changeFileExtension are mutually consistent for every path whose file name contains a dot; for a file name without dot extensionFromPath returns the whole file name instead of an empty extension.",
  "all strings", INF, ["utilities/fileUtils.hpp: directoryFromPath, fileNameFromPath, fileNameNoExtFromPath, extensionFromPath, changeFileExtension"])
p("Cascaded and compensated sums return the exact sum",
  "In exact arithmetic the cascaded accumulator returns the sum of all samples as long as no more samples than announced are added, and writes outside its buffer as soon as more samples than announced are added; the compensated accumulator returns initial value plus sum for every number of samples.",
  "all sample sequences and announced counts", "unbounded sequence length", ["utilities/sumAccumulators.hpp: cascadedSumImpl, compensatedSumImpl"])
p("d-function cache is transparent only if never switched off",
  "For any history of calls with the cache switched on, dFunction returns the value of the direct formula. If the cache is switched off after an entry has been filled, calling dFunction with the same quantum numbers corrupts the entry and later cached calls return a wrong value.",
  "all call histories, all admissible (j,m,n,theta)", HIST, ["utilities/dFunction.hpp: dFunctionCached"])
p("Reflectivity factor is a sign with the documented symmetries",
  "For admissible arguments reflectivityFactor returns refl*P*(-1)^(J-M), always +1 or -1, it flips when the reflectivity or the parity flips, and it returns 0 for inadmissible arguments.",
  "all integers J,P,M,refl", INF, ["utilities/physUtils.hpp: reflectivityFactor"])
p("Blatt-Weisskopf barrier factors are normalised, bounded and monotone",
  "For L=0..7 barrierFactorSquared equals 1 at q=q_R, vanishes at q=0 for L>0, is non-negative, strictly increasing in the breakup momentum and bounded; for larger or odd L the function returns 0.",
  "all real breakup momenta >= 0 and all L", "real-valued quantifier", ["utilities/physUtils.hpp: barrierFactorSquared"])
p("Breit-Wigner respects unitarity",
  "breitWigner returns the T with T*(M0^2-M^2-i*M0*Gamma(M)) = M0*Gamma0 where Gamma(M) is the mass-dependent width; it equals exactly i at the nominal mass, obeys the unitarity relation Gamma0*Im T = Gamma(M)*|T|^2, and Gamma(M)/Gamma0*|T| never exceeds 1 (|T| itself may); it is 0 for q0 = 0 and not a number for M = 0 or an unsupported L.",
  "all real masses, momenta, widths", "real-valued quantifier", ["utilities/physUtils.hpp: breitWigner"])
p("Rational prime-exponent numbers implement rational arithmetic",
  "TFracNum built from integers represents numerator/denominator; multiplication, inversion, sign flip, absolute value, square and addition of finite numbers represent the corresponding rational operations; 0/0 is undetermined, x/0 infinite, and products, inverses and the sign follow the rules of the extended numbers.",
  "all finite values", "unbounded numerators and exponents", ["relativisticAmpCorrections/TFracNum.cc"])
p("TFracNum equality and value cache",
  "Equal representations have equal values, but operator== distinguishes equal values (2*(1/2) vs 1), a double value asked once with square root and then without returns the square root, and adding a finite number to infinity yields a finite number.",
  "all operation histories", HIST, ["relativisticAmpCorrections/TFracNum.cc: operator==, Dval, operator+="])
p("Prime number cache generation yields exactly the primes in order",
  "The prime cache produced for n entries consists of the first n primes in increasing order and nothing else; the primality test is correct for every number >= 2 (and wrongly accepts 1).",
  "all n", "unbounded n", ["relativisticAmpCorrections/primeNumbers.cc","relativisticAmpCorrections/generatePrimeNumberCache.cc"])
p("Clebsch-Gordan box index is a bijection",
  "The position of (m1,m2) in the Clebsch-Gordan box of (J1,J2) is a bijection between the (2J1+1)(2J2+1) projection pairs and [0,(2J1+1)(2J2+1)).",
  "all J1,J2 >= 0 and all projections", INF, ["relativisticAmpCorrections/ClebschGordanBox.cc: CGIndex"])
p("Particle names carry their charge",
  "chargeFromName(nameWithCharge(bare,q)) = (bare,q) for |q|<=9 and every bare name that is non-empty and does not end in a digit; chargeFromName reads before the start of the string for the empty name and for a bare sign.",
  "all names and charges", INF, ["particleData/particleProperties.cc: chargeFromName, nameWithCharge"])
p("Charge conjugation of a particle is an involution",
  "antiPartProperties() applied twice gives back the original properties and flips charge, baryon number, strangeness, charm, beauty and isospin projection while it keeps mass, width, spin, parity, isospin and G/C parity; it is undefined if no antiparticle name has been set.",
  "all particle property records with an antiparticle name", INF, ["particleData/particleProperties.cc: antiPartProperties"])
p("Decay-mode comparison with wildcards",
  "decayMode::operator== is reflexive and symmetric and insensitive to the order of the daughters, but not transitive because of the wildcard quantum numbers.",
  "all decay modes", INF, ["particleData/particleProperties.cc: decayMode::operator=="])
p("Particle-data table: first definition wins",
  "For every sequence of addEntry calls, entry(name) returns the properties of the first successfully added particle with that name, duplicates are refused and leave the table unchanged, and isInTable is true exactly for added names. Filling a particle by name takes over the properties of the table entry of that name (a name without charge suffix means the neutral particle).",
  "all sequences of additions", HIST, ["particleData/particleDataTable.cc: addEntry, isInTable, entry"])
p("Writing particle properties and reading them back",
  "What particleProperties::dump writes cannot be read back by operator>>: the mass square is written too, so every later field is shifted; a corrected writer would round-trip for every record.",
  "all property records", INF, ["particleData/particleProperties.cc: dump, read"])
p("Amplitude integral matrices stay Hermitian and positive semi-definite",
  "After any sequence of addEvent calls on a matrix that started from zero, the integral matrix is Hermitian, its diagonal is real and non-negative, and every quadratic form v^dagger I v is non-negative; the same holds for sums of such matrices.",
  "all event sequences, all wave sets, all complex coefficient vectors", "unbounded number of events and waves", ["decayAmplitude/ampIntegralMatrix.cc: addEvent, operator+="])
p("addEvent is all-or-nothing",
  "If addEvent reports failure the stored matrix, wave names and event count are unchanged; if it succeeds exactly one event is counted.",
  "all matrices and all maps of amplitudes", INF, ["decayAmplitude/ampIntegralMatrix.cc: addEvent"])
p("Adding and subtracting integral matrices is by wave name",
  "operator+= adds entries belonging to the same pair of wave names independently of the wave order of the right-hand side, adds the event counts, refuses different wave sets, and operator-= undoes it.",
  "all integral matrices", INF, ["decayAmplitude/ampIntegralMatrix.cc: operator+=, operator-="])
p("ASCII round trip of integral matrices is broken",
  "writeAscii followed by readAscii does not restore the matrix, because wave names go to standard output instead of the given stream; with wave names in the stream the round trip would be exact.",
  "all integral matrices with at least one wave", INF, ["decayAmplitude/ampIntegralMatrix.cc: writeAscii, readAscii"])
p("On-the-fly binning and importance weights",
  "integrate() with on-the-fly binning uses, for the k-th accepted event, the k-th weight of the weight file rather than the weight written for that event; without rejected events each event gets its own weight.",
  "all event sequences, bins and weight files", "unbounded event sequences", ["decayAmplitude/ampIntegralMatrix.cc: integrate"])
p("Merging integral metadata",
  "mergeIntegralMatrix either returns true with the hull of the multibin boundaries, all amplitude hashes of both sides exactly once and the summed matrix, or returns false; on failure it may leave the left-hand side modified.",
  "all pairs of metadata objects", INF, ["decayAmplitude/ampIntegralMatrixMetadata.cc: mergeIntegralMatrix, addAmplitudeHash, mergeMultibinBoundaries"])
p("Spin density matrix is Hermitian and positive semi-definite, coherences lie in [0,1]",
  "For every fit result the spin density matrix is Hermitian with non-negative real diagonal, every quadratic form is non-negative, |rho_ij|^2 <= rho_ii rho_jj and hence the coherence of two waves lies in [0,1]; elements between different reflectivities are 0.",
  "all production amplitudes, ranks and wave sets", "unbounded ranks and wave sets, complex values", ["partialWaveFit/fitResult.cc: spinDensityMatrixElem, coherence"])
p("Intensities and overlaps add up",
  "The intensity of a set of waves equals the sum of single-wave intensities plus the sum of the overlaps of all pairs, is real, and non-negative whenever the normalisation integral matrix is positive semi-definite.",
  "all fit results and all wave sets", "unbounded wave sets", ["partialWaveFit/fitResult.cc: intensity, overlap"])
p("Refilling and copying a fit result",
  "fitResult::fill on a fresh object stores exactly the given data; on an already filled object wave names and normalisation-integral indices of the previous fit survive; fill(result) loses the hasHessian flag when the covariance matrix is empty.",
  "all sequences of fill/reset/copy calls", HIST, ["partialWaveFit/fitResult.cc: fill, reset"])
p("Production-amplitude names encode rank and wave name",
  "waveNameForProdAmp and rankOfProdAmp recover wave name and rank from the names the likelihood generates, for every rank and wave name.",
  "all ranks and wave names", INF, ["partialWaveFit/fitResult.h: waveNameForProdAmp, rankOfProdAmp","partialWaveFit/pwaLikelihood.cc: buildProdAmpArrays"])
p("Wave selection by name matches the wave and possibly others",
  "prodAmpIndicesForWave(w) always includes all production amplitudes of w; it returns amplitudes of another wave exactly if that wave's production-amplitude name contains w as substring.",
  "all wave lists", INF, ["partialWaveFit/fitResult.cc: prodAmpIndicesForWave, prodAmpIndicesMatchingPattern"])
p("Escaping of regular-expression characters",
  "unescapeRegExpSpecialChar(escapeRegExpSpecialChar(s)) = s for every s without backslash, and the escaped form of s matches s literally for every s free of the characters the function forgets.",
  "all strings", INF, ["partialWaveFit/fitResult.h: escapeRegExpSpecialChar, unescapeRegExpSpecialChar"])
p("Best-fit selection",
  "getFitResultsFromFilesInMultibins returns exactly the bins that occur among the (converged, if requested) results; per bin either the first result of minimal negative log-likelihood, or all results stably sorted by it, where stripping removes the matrices from all but the first best result and, if that one did not converge, the first best converged one; without ties the best result does not depend on the order of files and entries; a NaN likelihood that comes first is wrongly kept as best.",
  "all collections of fit results", INF, ["partialWaveFit/fitResult.cc: getFitResultsFromFilesInMultibins"])
p("Complex matrix adjoint and comparison",
  "complexMatrix::dagger() returns the complex conjugate without transposition (so it is the adjoint only of symmetric matrices); operator== compares all elements for square matrices only. Products, sums and transposition obey the matrix laws; storing and reading restores the matrix; no block is deleted twice in any history in which no matrix that has been written is copied, but a copy of a written matrix deletes its data twice.",
  "all complex matrices", INF, ["partialWaveFit/complexMatrix.cc: dagger, operator==, equalToPrecision"])
p("Fit parameters and production amplitudes correspond one-to-one",
  "For every number of waves per reflectivity and every rank, the number of fit parameters equals the number of free real components plus the flat wave, every parameter index belongs to exactly one real or imaginary component, amplitudes with wave index below the rank index are zero and those with equal index are real, and copying parameters to amplitudes and back is the identity.",
  "all ranks, all wave numbers, all parameter values", "unbounded ranks and wave numbers", ["partialWaveFit/pwaLikelihood.cc: buildParDataStruct, copyFromParArray, copyToParArray, buildProdAmpArrays"])
p("The likelihood gradient is the derivative of the likelihood",
  "For a Hermitian acceptance matrix and every parameter point at which every event has non-zero probability, the value Gradient()/FdF() returns for parameter k is the partial derivative of the value DoEval()/FdF() returns, and FdF and DoEval return the same value.",
  "all events, waves, ranks, parameter points", "real-valued quantifier and unbounded sums", ["partialWaveFit/pwaLikelihood.cc: FdF, DoEval, Gradient"])
p("The Hessian is the derivative of the gradient",
  "Under the same conditions Hessian()[k][l] is the partial derivative of gradient component k with respect to parameter l for free parameters, and the matrix is symmetric.",
  "all events, waves, ranks, parameter points", "real-valued quantifier and unbounded sums", ["partialWaveFit/pwaLikelihood.cc: Hessian"])
p("Derivative cache of the likelihood",
  "For every history of FdF/Gradient/DoDerivative calls, DoDerivative(par,i) equals component i of the gradient at par; this breaks if the prior or the normalisation mode is changed between calls, because the cache is not invalidated.",
  "all call histories", HIST, ["partialWaveFit/pwaLikelihood.cc: DoDerivative, Gradient, FdF","partialWaveFit/pwaLikelihood.h: setPriorType, useNormalizedAmps"])
p("Sign correction leaves the likelihood invariant",
  "CorrectParamSigns returns parameters with the same likelihood value, non-negative flat amplitude and non-negative anchor amplitudes, and is idempotent, provided the rank does not exceed the larger number of waves.",
  "all parameter points, ranks and wave numbers", "unbounded", ["partialWaveFit/pwaLikelihood.cc: CorrectParamSigns"])
p("Bookkeeping of fixed parameters",
  "After init the counter of fixed parameters equals the number of parameters marked fixed, so the reduced Hessian is square with one row per free parameter; addAmplitude breaks this when it fixes a vanishing wave, because the counter is not updated.",
  "all wave lists and amplitude sequences", HIST, ["partialWaveFit/pwaLikelihood.cc: buildParDataStruct, addAmplitude, CovarianceMatrix"])
p("Likelihood set-up protocol",
  "The set-up calls succeed only in the order init, addNormIntegral, addAccIntegral, addAmplitude*, finishInit; finishInit succeeds exactly if an amplitude has been added for every wave of the wave list; calling init twice accesses the wave list out of range.",
  "all sequences of set-up calls", HIST, ["partialWaveFit/pwaLikelihood.cc: init, addNormIntegral, addAccIntegral, addAmplitude, finishInit"])
p("Normalisation of integrals is a congruence",
  "finishInit rescales acceptance and normalisation integrals to I_ij/sqrt(I_ii I_jj) with unit diagonal independent of loop order, leaves zero waves untouched and preserves Hermiticity.",
  "all integral matrices", "unbounded wave sets", ["partialWaveFit/pwaLikelihood.cc: finishInit"])
p("Merging event files",
  "eventMetadata::merge returns the concatenation of all events in input order with the hash over exactly this sequence, requires identical particle names, and with bin merging returns the hull; the events type is dropped and binning variables present only in later files are silently ignored. Recalculating the hash of a file gives the digest of its events, or the empty string if its tree lacks a needed branch.",
  "all lists of input files", "unbounded list of files", ["storageFormats/eventMetadata.cc: merge"])
p("Kinematic bins are half-open and partition events",
  "inBoundaries / multiBin.inBin accept an event exactly if every boundary variable lies in [lower,upper); an event lies in at most one of a set of pairwise non-overlapping bins and in exactly one bin of a gap-free binning. A sub-bin accepts the events whose remaining variables are in their intervals, and the bin centers lie in the bin.",
  "all bins and all variable values", "real-valued quantifier", ["storageFormats/eventMetadata.cc: additionalTreeVariables::inBoundaries","pyInterface/module/utils/_binning.py: multiBin.inBin","partialWaveFit/pwaLikelihood.cc: setOnTheFlyBinning"])
p("Ordering of kinematic bins",
  "multiBin '<' is a strict weak order on bins with equal variables, but '>' is not asymmetric: two bins with equal centres and different widths are each greater than the other.",
  "all bins", INF, ["pyInterface/module/utils/_binning.py: multiBin.__lt__, __gt__"])
p("Containment and overlap of kinematic bins",
  "'in' between bins is reflexive and transitive and implies that every event of the inner bin (restricted to the outer bin's variables) lies in the outer one; overlap is symmetric, and two non-degenerate bins overlap with strict=False exactly if some event lies in both.",
  "all bins", INF, ["pyInterface/module/utils/_binning.py: multiBin.__contains__, overlap, overlapInVariable"])
p("Unique bin strings round-trip",
  "multiBin.fromUniqueStr(b.uniqueStr()) = b for every bin whose variable names contain neither ',' nor '='.",
  "all bins", INF, ["pyInterface/module/utils/_binning.py: uniqueStr, fromUniqueStr"])
p("Amplitude file names never collide",
  "Different (wave, event-file id, events type) triples get different default amplitude file names, for every wave name that does not start with a slash; integral file names are distinct per (bin, events type). A merged wave uses the file of its merge tag; a wave merged under several tags is refused.",
  "all wave names, ids and types", INF, ["pyInterface/module/_fileManager.py: _getAmplitudeFilePaths, _getIntegralFilePaths"])
p("No event file of a bin is missed",
  "The list of event files selected for an integral bin contains every file that can hold an event of that bin.",
  "all bins and files", INF, ["pyInterface/module/_fileManager.py: _getEventFileIdsForIntegralBin"])
p("Bose symmetrisation enumerates all permutations once",
  "getBoseSymmetrization returns every permutation of the final state that maps each particle to one of the same species, each exactly once, the identity first, with factors whose squares sum to 1.",
  "all final states", "factorially many permutations for unbounded final states", ["decayAmplitude/isobarDecayTopology.cc: getBoseSymmetrization, genBoseSymTermMaps"])
p("Isobar vertices accepted by the consistency check conserve all quantum numbers",
  "isobarDecayVertex::checkConsistency returns true exactly if charge, baryon number, strangeness, charm, beauty, G parity and parity are conserved, L is integer, the spins couple s1+s2->S, L+S->J, the isospins couple, and C is consistent with G and isospin.",
  "all quantum numbers", INF, ["decayAmplitude/isobarDecayVertex.cc: checkConsistency"])
p("Resonance-fit cache writes exactly the addressed cells",
  "setCoupling/setComponent/setProdAmp change exactly the cells selected by the indices, where the special index 'all' selects the whole dimension, and every later read returns the last value written to that cell.",
  "all sequences of set calls", HIST, ["resonanceFit/cache.cc: setCoupling, setComponent, setProdAmp"])
p("Reflectivity is parsed from wave names",
  "getReflectivity returns the sign at the documented position for every name in the new or old naming scheme and throws otherwise.",
  "all wave names", INF, ["partialWaveFit/partialWaveFitHelper.cc: getReflectivity"])
p("Wave-set generation emits only consistent waves",
  "Every wave emitted by the wave-set loops obeys the triangle rules, conserves the additive quantum numbers, obeys the parity, G-parity and Bose rules (particles of equal properties, spin projection, index and reflectivity counting as identical), lies within the requested ranges, and has a non-vanishing amplitude for its reflectivity; and every such combination is emitted, once, with every isobar of the particle table that fits. (For demanded ranges of L that start at an integer, and integer spin if reflectivities are used; the _refuted theorems show what happens otherwise.)",
  "all template quantum numbers and ranges", INF, ["decayAmplitude/waveSetGenerator.cc: generateWaveSet"])
p("Factorial cache",
  "For every history of requests factorial(n) returns n!, and it aborts exactly when n! exceeds the largest value of the number type.",
  "all sequences of requests and all number types", HIST, ["utilities/factorial.hpp: factorialCached::operator()"])
p("Two-body breakup momentum conserves energy",
  "For M >= m1+m2 the breakup momentum q fulfils sqrt(m1^2+q^2)+sqrt(m2^2+q^2)=M, is symmetric in the daughters and vanishes at threshold; below threshold breakupMomentum aborts and breakupMomentumComplex returns the purely imaginary analytic continuation.",
  "all masses", INF, ["utilities/physUtils.hpp: breakupMomentumSquared, breakupMomentum, breakupMomentumComplex"])
p("Particle-table queries return exactly the matching entries",
  "entriesMatching returns exactly the table entries that agree with the prototype in every quantum number named in the selector (or all of them for allQn), respect the mass bound, are on the white list (if any), not on the black list, and have the requested decay.",
  "all tables, prototypes, selectors and lists", INF, ["particleData/particleDataTable.cc: entriesMatching", "particleData/particleProperties.cc: operator =="])
p("Reading a particle-table file",
  "Every well-formed line adds the particle and its antiparticle (unless it is its own) under first-definition-wins, comment and empty lines are skipped; a malformed line is not skipped but leads to undefined behaviour.",
  "all files", INF, ["particleData/particleDataTable.cc: read", "particleData/particleProperties.h: operator >>"])
p("Renormalisation keeps the normalised matrix elements",
  "renormalize(n) sets the number of events to n and leaves every normalised element element(i,j) = integral/nmbEvents unchanged.",
  "all well-formed matrices with events and all n > 0", INF, ["decayAmplitude/ampIntegralMatrix.cc: renormalize, operator *=, element"])
p("Equality of integral matrices is by wave name",
  "operator == returns true exactly if both matrices have the same set of waves, the same event count, and equal elements for every pair of wave names, irrespective of the order of the waves; setWaveNames fixes the names once, later calls succeed exactly for the same names in the same order and change nothing; with repeated wave names a matrix need not equal itself.",
  "all pairs of well-formed matrices", INF, ["decayAmplitude/ampIntegralMatrix.h: operator ==", "decayAmplitude/ampIntegralMatrix.cc: hasIdenticalWaveSet"])
p("Error propagation uses the true derivatives",
  "The Jacobians with which fitResult propagates the covariance matrix of the fit parameters are the derivatives of the spin-density matrix element, the phase, the overlap and the intensity; all variances are non-negative if the covariance matrix is positive semi-definite; the Jacobian of the coherence equals the derivative divided by the normalisation number of events.",
  "all amplitudes, integral matrices and covariance matrices", INF, ["partialWaveFit/fitResult.cc: prodAmpCov, spinDensityMatrixElemCov, phaseErr, overlapErr, coherenceErr, intensityErr"])
p("On-the-fly binning selects exactly the events of the bin",
  "After setOnTheFlyBinning, the entries recorded for an event file are exactly those whose binning variables lie in the half-open intervals, in increasing order, and addAmplitude stores exactly the amplitudes of these events, file after file, for amplitude files computed from registered event files; an amplitude file that also names an unregistered event file is accepted and its entries are misread.",
  "all histories of set-up calls, event files, bins and amplitude files", HIST, ["partialWaveFit/pwaLikelihood.cc: setOnTheFlyBinning, addAmplitude"])
p("Grid binnings cover every combination of neighbouring edges once",
  "A binning given as one edge list per variable becomes exactly the bins formed by one pair of neighbouring edges per variable, each once; an axis given as (first, last, number of bins) has equidistant edges; a list of explicit bins is taken over unchanged. An axis with an edge at zero does not yield its bins.",
  "all edge lists, ranges and explicit bin lists", INF, ["pyInterface/module/_config.py: _readBinning, _binningInputHandlingForCaseTwoAndThree, _roundToNSignificantDigits"])
p("Caching in the resonance fit is transparent",
  "For every sequence of parameter imports and amplitude evaluations by one function object in one thread, every production amplitude returned is the one of the last imported parameter vector, computed without any cache; the vector's elements are the couplings, then the free branchings, then the component and final-state mass-dependence parameters. (The caches are thread_local to the method, so a second function object in the same thread gets the cached amplitudes of the first one: shown as a refutation.)",
  "all fit models, bins, parameter vectors and call histories", HIST,
  ["resonanceFit/function.cc: chiSquare", "resonanceFit/model.cc: importParameters, productionAmplitude", "resonanceFit/components.cc: importCouplings, importBranchings, importParameters, val", "resonanceFit/fsmd.cc: importParameters, val"])
p("The symmetrised amplitude treats identical particles alike",
  "With Bose symmetrisation switched on, exchanging the momenta of final-state particles of the same species leaves the amplitude unchanged, for every decay and every isospin symmetrisation.",
  "all final states, decays, isospin terms, momenta and relabellings of identical particles", INF,
  ["decayAmplitude/isobarAmplitude.cc: initSymTermMaps, amplitude, symTermAmp", "decayAmplitude/decayTopology.cc: revertMomenta"])
p("Fit parameters and normalisation integrals by name",
  "fitResult::fitParameter(name) returns, for every parameter name of the likelihood whose wave name contains none of the texts RE, IM, flat, the real or imaginary part of the production amplitude of that wave and rank; for the flat wave its real part; for an unknown name 0. normIntegralForProdAmp(i,j) is the element of the stored normalisation matrix belonging to the waves of the two amplitudes (1 or 0 if the flat wave is involved). Waves with an isobar of flat mass dependence have 'flat' in their names and get wrong values (shown as a refutation).",
  "all fit results, parameters, ranks and wave names", INF,
  ["partialWaveFit/fitResult.cc: fitParameter, normIntegralForProdAmp", "partialWaveFit/fitResult.h: prodAmpIndex", "partialWaveFit/pwaLikelihood.cc: buildParDataStruct", "decayAmplitude/massDependence.cc: flatMassDependence::parentLabelForWaveName"])
p("The likelihood's integral matrices belong to its waves",
  "After a complete set-up, getIntegralMatrices returns matrices with one row and column per wave, first the waves of negative, then those of positive reflectivity, in the order of the wave list. Elements of waves of different reflectivity are 0; every other element is the integral stored under the two wave names, in this order, divided by the number of events of the normalisation integral (or by the override given to addAccIntegral) and, with normalised amplitudes, by the norms of the two waves. With the flat wave a last row and column is added holding 1, the total acceptance and phase space 1.",
  "all wave lists, integral matrices (in any order of the waves), overrides and amplitudes for which the set-up succeeds", HIST,
  ["partialWaveFit/pwaLikelihood.cc: addNormIntegral, addAccIntegral, reorderIntegralMatrix, finishInit, getIntegralMatrices"])
p("clebschGordanCoeff returns the Clebsch-Gordan coefficients",
  "The numbers returned by clebschGordanCoeff are those of the coupling of two angular momenta: they satisfy the ladder relations of J- and J+ for all arguments, the states |J M> are orthonormal and complete, the component with the largest m1 of |J J> is positive (Condon-Shortley), exchanging the spins or reversing all projections multiplies by (-1)^(j1+j2-J); and no other numbers satisfy the defining relations. Every answer in every call history, with or without the cache, is this number.",
  "all spins and projections, all call histories", INF,
  ["utilities/spinUtils.hpp: clebschGordanCoeffCached::operator()", "utilities/factorial.hpp: factorialCached"])
p("The exact Clebsch-Gordan tables hold the Clebsch-Gordan coefficients",
  "Every table calculated by TClebschGordanBox (and so every table the box returns, after any other requests) has one entry per pair of projections; read as a number, the entry found with CGIndex is the signed square of the Clebsch-Gordan coefficient, the same number clebschGordanCoeff returns for these arguments.",
  "all spins that couple, projections, prime tables and request histories for which the calculation succeeds", INF,
  ["relativisticAmpCorrections/ClebschGordanBox.cc: GetCG, ClebschGordan", "relativisticAmpCorrections/ClebschGordanBox.h: CGIndex"])
p("Evaluating on the GPU gives the same likelihood and gradient as on the CPU",
  "With CUDA enabled, DoEval and Gradient return, for every device, every schedule of the GPU threads and every parameter array, exactly what they return without CUDA, as long as the decay amplitudes occupy less than 4 GiB and the likelihood is the last one that was initialised: no event is skipped or counted twice by any grid, no thread reads an array element that was not written, and no two threads write the same element. The device arrays belong to the program and not to the object, so that initialising a second likelihood changes the values of the first; and the size of the amplitude array is computed in 32 bits, so that 4 GiB of amplitudes lead to reads outside the array (both shown as refutations).",
  "all CUDA devices, interleavings of the threads, likelihoods, amplitudes, events and parameters", HIST,
  ["cuda/likelihoodKernel.cu: sumKernel, logLikelihoodKernel, logLikelihoodDerivFirstTermKernel, logLikelihoodDerivKernel, logLikelihoodDerivFlatKernel, sumDerivativesKernel", "cuda/likelihoodInterface.cu: estimateOptimumKernelGrid, cascadedKernelSum, loadDecayAmps, logLikelihood, logLikelihoodDeriv", "partialWaveFit/pwaLikelihood.cc: finishInit, DoEval, Gradient"])
p("Generated phase-space events conserve four-momentum, are on their mass shells and carry phase-space weights",
  "After setDecay(masses) and any further calls, generateDecay for a system of positive energy whose mass is at least the sum of the daughter masses always finishes and leaves daughters whose four-momenta add up to that of the system, each with its own mass and positive energy; the effective masses it reports are those of the first 2, 3, ... daughters. The weight is never negative and for GENBOD at most 1. Below threshold, or with fewer than two daughters, it returns 0 and changes nothing. generateDecayAccepted keeps an event exactly if a random number is below weight / maximum weight, and then it is such an event; otherwise the daughters are unchanged. Both kinematics algorithms (BLOCK, RAUBOLD_LYNCH) have these properties, also with masses and angles set by the user. The weight times the density with which the masses were generated is the n-body phase space, times (2 pi)^4 for S_U_CHUNG, exactly for NUPHAZ, whose masses have the stated density; getMaxWeightObserved bounds all weights since the last reset. The cosine of the polar angle and the azimuth are uniform, each random number is used once, and in the rest frame of the system the last daughter flies along (RAUBOLD_LYNCH: opposite to) the direction of its angles. A weight type set after setDecay keeps the old normalisation, and two massless first daughters exactly at threshold give NaN (both shown as refutations).",
  "all numbers of daughters, masses, system momenta, random numbers, weight and kinematics types, and call histories", HIST,
  ["nBodyPhaseSpace/nBodyPhaseSpaceKinematics.cc: setDecay, setMasses, setAngles, calcBreakupMomenta, calcWeight, calcEventKinematics", "nBodyPhaseSpace/nBodyPhaseSpaceGenerator.cc: generateDecay, generateDecayAccepted, pickMasses, estimateMaxWeight", "nBodyPhaseSpace/nBodyPhaseSpaceGenerator.h: pickAngles, eventAccepted"])
p("Decay amplitudes are evaluated in the Gottfried-Jackson and helicity frames",
  "isobarAmplitude::gjTransform returns the proper, orthochronous Lorentz transformation into the Gottfried-Jackson frame: X is at rest, the beam flies along +z and the normal of the production plane points along +y; there is only one such frame, and momenta in it do not change when the whole event is rotated (or transformed so that the normal is kept). isobarHelicityAmplitude::hfTransform leads into the helicity frame: the daughter at rest, its parent flying along -z, y axis z(parent) x momentum. spaceInvertDecay turns p into 2(pX)/M^2 X - p whatever the beam, reflectDecay mirrors the momenta in the laboratory at the production plane; both keep the momentum of X and the masses of all combinations, and done twice restore the event. Exactly collinear momenta are treated wrongly: a daughter along the z axis gets a frame in which its parent moves along y, a beam parallel to X ends up along y, and a beam can end up along -z (shown as refutations).",
  "all beam, X and final-state momenta, all rotations", INF,
  ["decayAmplitude/isobarAmplitude.cc: gjTransform, spaceInvertDecay, reflectDecay", "decayAmplitude/isobarHelicityAmplitude.cc: hfTransform", "utilities/mathUtils.hpp: signum"])
p("The amplitude of an event is the coherent sum of isobar-model products in the right frames",
  "For every decay tree and event, symTermAmp of isobarHelicityAmplitude and isobarCanonicalAmplitude returns the coherent sum, over the spin projections of all isobars and final-state particles, of the products over all decay vertices of the two-body amplitudes of the helicity or canonical formalism (D functions or spherical harmonics, two Clebsch-Gordan coefficients, barrier factor, mass dependence; for X the states of defined reflectivity), whatever projections were set before. The momenta in each factor are those in the rest frame of the decaying particle, reached from the Gottfried-Jackson frame of X by successive transformations along the decay chain; masses and breakup momenta are those of the laboratory event. With massive final-state particles the calculation never fails. The options for space inversion and reflection give the amplitude of the inverted or reflected event, and the amplitude does not depend on the orientation of the laboratory axes.",
  "all decay trees, spins, mass dependences, momenta, beam directions and rotations of the laboratory", INF,
  ["decayAmplitude/isobarAmplitude.cc: symTermAmp, twoBodyDecayAmplitudeSum, spaceInvertDecay, reflectDecay", "decayAmplitude/isobarHelicityAmplitude.cc: transformDaughters, twoBodyDecayAmplitude", "decayAmplitude/isobarCanonicalAmplitude.cc: transformDaughters, twoBodyDecayAmplitude", "decayAmplitude/isobarDecayTopology.cc: calcIsobarLzVec", "utilities/dFunction.hpp: DFunctionConj, DFunctionReflConj, sphericalHarmonic"])
p("Amplitudes of parity-conserving decays are eigenstates of space inversion and of the reflection through the production plane",
  "For every decay in which every vertex conserves parity, the amplitude calculated with the space-inversion option equals spaceInvEigenValue() (parity of X divided by the product of the parities of the final-state particles) times the amplitude of the original event, and in the reflectivity basis the amplitude calculated with the reflection option equals reflectionEigenValue() (-1 / (reflectivity times the product of the parities)) times the original one. This holds for all events, depths of the decay chain and mass dependences: in the canonical formalism space inversion needs no restriction of the spins or of the event, in the helicity formalism and for the reflection the spins are integer, the final state is spinless and no momentum lies exactly along the z axis of its frame.",
  "for all decay trees, spins, parities, mass dependences, beam and final-state momenta, spin projections of X, both formalisms",
  INF, ["decayAmplitude/decayTopology.cc:spaceInvEigenValue","decayAmplitude/decayTopology.cc:reflectionEigenValue","decayAmplitude/decayTopology.cc:fsParticlesIntrinsicParity","decayAmplitude/isobarAmplitude.cc:spaceInvertDecay","decayAmplitude/isobarAmplitude.cc:reflectDecay","decayAmplitude/checkKeyFile.cc:main","utilities/dFunction.hpp:DFunctionRefl"])
p("A wave written to a key file comes back as the same wave",
  "For every wave whose particles are in the particle-data table and whose charges add up, reading the key file written by waveDescription::writeKeyFile gives the decay topology and amplitude options that were written exactly if: X has the flat mass dependence, every isobar next to a final-state particle is the first daughter, no isobar has the GLASS mass dependence, a Palano-Pennington isobar has the default upper limit, and in a lepton production vertex the recoil is the target. In all other cases what comes back is stated: the isobar moves to first place, the mass dependence of X becomes flat, the Palano-Pennington limit becomes 2.4, a lepton vertex loses its recoil particle, and a GLASS wave aborts the reader (all shown as refutations). Amplitude options always survive.",
  "all decay trees, particle tables, production vertices, mass dependences and amplitude options", INF,
  ["decayAmplitude/waveDescription.cc: writeKeyFile, setXDecayKeys, setMassDependence, setProductionVertexKeys, constructDecayTopology, constructDecayVertex, readXQuantumNumbers, readParticleKeys", "decayAmplitude/massDependence.cc: createMassDependence", "decayAmplitude/isobarDecayTopology.cc: calcIsobarCharges", "decayAmplitude/leptoProductionVertex.cc: leptoProductionVertex"])
p("A wave name identifies the wave",
  "For waves with known parities and particle names without the characters [ ] = and comma, waveNameFromTopology gives two waves the same name exactly if they have the same quantum numbers of X and the same decay chain: same order of the daughters, L and S of every vertex, same isobars (by name, for flat and binned isobars by quantum numbers and bin) with the same mass dependence. Reading a key file back keeps the name exactly if every isobar next to a final-state particle was the first daughter. Not in the name are the mass dependence of X and the GLASS parameters apart from the tag; unknown parities make names ambiguous (shown as refutations).",
  "all pairs of decay trees, mass dependences and quantum numbers", INF,
  ["decayAmplitude/waveDescription.cc: waveNameFromTopology", "decayAmplitude/massDependence.cc: parentLabelForWaveName", "utilities/conversionUtils.hpp: spinQn, parityQn"])
p("A key file with binnings stands for one wave per combination of bins",
  "parseKeyFile and parseKeyFileContent replace every group 'expand' of type 'binning', wherever it is in the key file, by one bin of neighbouring edges: the waves returned are exactly the key files obtained by choosing one bin for every binning, each combination once (if edges increase), with no binning left over; a key file without binning stands for itself. The bins of a binning cover the range from the first to the last edge without gap or overlap, and a binned mass dependence built from them has exactly these bounds. An 'expand' group without edges makes the program read outside an array, and an edge written as an integer terminates it (both shown as refutations).",
  "all key files, with any number of binnings at any depth and any edges", INF,
  ["decayAmplitude/waveDescription.cc: expand, findExpand, getBinning, parseKeyFile, parseKeyFileContent", "decayAmplitude/massDependence.cc: binnedMassDependence::Create"])
p("The built-in mass dependences are unitary two-body amplitudes",
  "massDependence::amp: constant-width, relativistic, rho and f0(980) Breit-Wigner amplitudes satisfy A/(M0^2 - M^2 - i M0 Gamma) with the documented width and are purely elastic (|1 + 2 i rho f| = 1) at every mass above threshold; below threshold the calculation aborts. The Flatte amplitude is elastic below the KK threshold, above it the flux lost from pi pi is exactly that into KK. The Au-Morgan-Pennington pi pi S waves are elastic with the stated M matrix (the VES form minus a fixed fraction of an elastic f0), the generalised LASS K pi S wave is elastic for F = R = 1 and bounded otherwise, the Palano-Pennington amplitude is two-channel unitary and elastic below K eta, the rho' amplitude is bounded by 1, and binned amplitudes of neighbouring bins add up to 1. Shown as refutations or exceptions: below the KK thresholds a singular matrix makes the AMP amplitude return the one of the previous event, f0(980) is undefined exactly at threshold, Palano-Pennington exactly at the K-matrix pole, and operator == calls binned mass dependences with different bounds equal.",
  "all masses of parent, daughters and resonances, widths, angular momenta and parameters, and any previous event", INF,
  ["decayAmplitude/massDependence.cc: binnedMassDependence::amp, relativisticBreitWigner::amp, constWidthBreitWigner::amp, rhoBreitWigner::amp, f0980BreitWigner::amp, f0980FlatteBesII::amp, piPiSWaveAuMorganPenningtonM::amp, piPiSWaveAuMorganPenningtonVes::amp, piPiSWaveAuMorganPenningtonKachaev, KPiSGLASS::amp, KPiSPalanoPennington::amp, rhoPrimeMassDep::amp", "utilities/mathUtils.hpp: invertMatrix", "decayAmplitude/massDependence.h: operator =="])
p("Generated events of diffractive production conserve four-momentum and have the picked mass and t'",
  "Whatever decay products were set before and whatever the random numbers, an event that diffractivePhaseSpace::event returns consists of a beam particle from the beam generator, decay products with their own masses whose four-momenta add up to a system X, and a recoil particle with its mass, and beam + target = X + recoil; X has the picked mass and physUtils tPrime of it is the picked t', which is the difference between the largest possible four-momentum transfer squared and that of X, in any frame. For every t' below 4 p q (p, q the centre-of-mass momenta) X can be generated, its azimuth around the beam is uniform. A decay is accepted with probability weight m q / (maximal weight mMax qMax), and for the first set of decay products the maximal weight is 1.01 times the largest weight in a number of trials at the upper end of the mass slice. Shown as refutations: t' above the maximum is not rejected and gives NaN, a picked mass below the threshold aborts, a second setDecayProducts or addDecayProduct keeps the maximal weights of the first decay (which can be below every weight of the new one), and every decay is accepted whatever its weight if the mass range ends at the kinematic limit.",
  "all beams, targets, masses, t', decay products, mass ranges, pickers, random numbers and call histories", HIST,
  ["generators/diffractivePhaseSpace.cc: setDecayProducts, addDecayProduct, buildDaughterList, calculateXSystemLab, event", "utilities/physUtils.hpp: tPrime"])
p("Vertices and beam particles follow the target and the entries of the beam file",
  "beamAndVertexGenerator::event without a beam file gives a vertex inside the cylindrical target, with exponentially distributed depth and uniform position across it, and an on-shell beam particle whose momentum and slopes are Gaussian. With a beam file each event follows one entry: vertex on the line of flight of the entry, at a depth in the target or at the position of the entry, and the momentum of the entry, moved by its scaled uncertainties or by Gaussian numbers with its scaled covariance matrix; with resolution correction the momentum is drawn from the product of resolution and beam distribution along the direction of the entry. Sequential reading uses each entry once per turn from any starting position, random reading gives each entry the same share. loadBeamFile reports which files it accepts. Shown as refutations: an entry flying against z is turned around by the correction, the random number 1 selects no entry, an empty file is accepted, a missing branch deletes the tree twice, a correction set after loading has no effect.",
  "all targets, beams, files, entries, random numbers and histories of calls", HIST,
  ["generators/beamAndVertexGenerator.cc: loadBeamFile, loadBeamFileWithMomenta, loadBeamFileWithInclinations, randomizeBeamfileStartingPosition, check, event, eventSimple, eventFromMomenta, eventFromMomentaCorrectMomentumResolution, eventFromInclinations, loadNextEventFromBeamfile, getVertexZ, multivariateGauss", "generators/generatorParameters.hpp: Beam, Target"])
p("Picked masses and t' follow the ranges and slopes of the configuration",
  "uniformMassExponentialTPicker::init accepts exactly the settings with ordered ranges and, for every mass, an odd number of parameters with negative slopes and non-negative coefficients, all as many as in the first row; it then holds these ranges (t' from 0 to the largest number if not set) and for each mass the parameters of the first row with it. The picked mass is uniform in its range; t' with one exponential is inside its range and distributed exactly like the exponential with the slope interpolated linearly between the neighbouring masses (constant outside); with several exponentials it approaches the quantile of the random number from below, to the stated accuracy, and a failure is reported after five attempts. uniformMassAndTPicker gives both numbers uniformly, polynomialMassAndTPrimeSlopePicker the first of a sequence of exponential numbers that is inside the range. A picker can be initialised once, and its ranges can be asked for or changed only afterwards. Shown as refutations: a negative slope polynomial makes the polynomial picker loop for ever, a mass equal to the smallest listed one accesses the element before the first, parameter lists of 2n-1 and 2n numbers are accepted together and then abort, with a negative lower limit t' piles up at 0, a range far from zero always fails, a failed init leaves its slopes behind, a slope written as an integer terminates the program.",
  "all configurations, masses, random numbers and histories of initialisations and changes of the range", HIST,
  ["generators/generatorPickerFunctions.cc: massAndTPrimePicker::initTPrimeAndMassRanges, overrideMassRange, massRange, tPrimeRange, uniformMassExponentialTPicker::init, operator(), pickTPrimeForMass, polynomialMassAndTPrimeSlopePicker::init, operator(), pickTPrimeForMass, uniformMassAndTPicker::init, operator()", "utilities/libConfigUtils.hpp: checkIfAllVariablesAreThere"])
p("The model intensity is the intensity of the fit result, event by event",
  "modelIntensity gives for the momenta of an event the sum over all pairs of selected waves with the same reflectivity of (production amplitude times decay amplitude over the square root of the phase-space integral) times the conjugate of the other one; it is not negative. Every decay amplitude is the one the user added for the wave, for the particle names of the last initialisation, and the integrals are those of the last matrix loaded (before that those of the fit result). It is defined after a successful initialisation with all integrals known and not zero, otherwise the program stops. addDecayAmplitude accepts the first amplitude of every wave and nothing else, loadPhaseSpaceIntegral exactly the matrices with all waves, initDecayAmplitudes succeeds exactly if every wave has an amplitude that accepts the names. For rank 1 the average over the events of the integrals times the number of normalisation events is the intensity of the fit result. For higher rank only the amplitudes of the first rank count, the flat wave contributes nothing, and amplitudes initialised to start at X cannot be used with production momenta again (all three shown as refutations).",
  "all fit results, amplitudes, integral matrices, selections of waves, momenta and histories of calls", HIST,
  ["generators/modelIntensity.cc: modelIntensity, addDecayAmplitude, loadPhaseSpaceIntegral, initDecayAmplitudes, getIntensity, getDecayAmplitudes, setProdKinParticleNames", "generators/modelIntensity.h: getIntensity"])
p("Importance sampling of events follows the model intensity times phase space",
  "importanceSampler can be constructed for at least two final-state particles and a mass range that is not empty. The box of parameters it hands to BAT contains every configuration of the decay with a mass of X in the range and no point with a mass of X or an angle outside. The prior of a point is the element of n-body phase space in these parameters (up to one constant) times the mass prior, zero outside phase space and on its border. The likelihood is the model intensity of exactly the event the point describes (X at rest, effective masses and directions as given, every particle on its mass shell), or constant for phase space only; the observables are the squared masses of all pairs. A stored event is the same event in the laboratory: produced by the generated beam on the target with the drawn t' and the mass of the point, four-momentum conserved; the amplitude of every isobar model for the stored event is the one used in the sampling. The file contains exactly the events of the lag-th iterations of the main run. Shown as refutations: exactly at threshold the prior is NaN for more than two particles, masses of X that the beam energy cannot produce are sampled and cannot be stored, and a failed initialisation of the amplitudes goes unnoticed until the likelihood is calculated.",
  "all final states, mass ranges, models, priors, points of the parameter space, beams, t', random numbers and sequences of calls", INF,
  ["generators/importanceSampler.cc: importanceSampler, LogAPrioriProbability, LogLikelihood, CalculateObservables, initializeFileWriter, getProductionKinematics, initializeNBodyPhaseSpace", "generators/importanceSampler.h: setPhaseSpaceOnly, setMassPrior", "decayAmplitude/isobarAmplitude.cc: gjTransform"])
p("Breit-Wigner amplitudes with unstable daughters use one lasting table of phase-space integrals per decay",
  "After any history of amplitude calls, destroyed vertices, changes of directory and mass bound and restarts of the program, every table of phase-space integrals, in memory or in its file, has strictly increasing masses, starts with zero at threshold, and every other point is the mean of weight times squared amplitude over one or ten million events, with its error. A new table has 50 equal steps from threshold to the upper mass bound and the peak of the resonance. As long as vertices keep their decay until they are destroyed, the table in memory is the one in the file, no point of a file is lost, and the amplitude is M0 Gamma0 / (M0^2 - M^2 - i M0 Gamma) with Gamma = Gamma0 times the ratio of the linear interpolations at M and M0 in the table of the decay of that vertex; it is i at the peak and its imaginary part is its squared modulus times the relative width. A resonance whose peak is in the table gets the same answer in any process, without new events and without writing. It does not end the program if the peak lies in the range of the table. Not guaranteed: the first answer for a new peak differs from the second; asking for another resonance of the same decay changes answers; no finite amplitude at the upper mass bound; a bound at or below threshold ends the program; two processes lose each other's points; a program that ends while writing leaves a file with which no later program gets an answer; a vertex changed in place is answered from the table of its old decay.",
  "all decays, events, tables, histories of calls over several processes, and points at which a process ends", HIST,
  ["decayAmplitude/phaseSpaceIntegral.cc: phaseSpaceIntegral::operator(), removeVertex, integralTableContainer, operator(), dyn, interpolate, getInt0, evalInt, readIntegralFile, writeIntegralTableToDisk, fillIntegralTable, addToIntegralTable", "decayAmplitude/phaseSpaceIntegral.h: setDirectory, setUpperMassBound", "decayAmplitude/massDependence.cc: relativisticBreitWigner::amp", "decayAmplitude/isobarDecayVertex.cc: ~isobarDecayVertex"])
p("The chi-square of the resonance fit compares exactly the matrix elements inside the mass ranges with their covariances",
  "In a fit to spin-density matrices, with the covariance options 'diagonal' and 'complex diagonal', the value minimised is the sum over all bins, all mass bins and all elements of the upper triangle of which both waves have the mass bin inside their mass limits (a negative limit means none): squared deviation of the real part over its variance for an intensity, squared deviations of real and imaginary part over their variances or their quadratic form with the inverse 2x2 covariance for an interference term. It is defined for every model amplitude. It is not negative, is zero exactly if all these elements agree, does not change with a common phase of all waves of a mass bin, and is divided by s if the covariances are multiplied by s. The number of data points is the number of these real numbers as long as any two waves share a mass bin. Shown as refutations: waves with mass ranges apart from each other reduce the number of data points; a wave whose range lies below all mass bins is fitted in all of them; one whose range lies above them ends the program; a wave without data in one mass bin of its range makes the fit use the covariances of this and all following mass bins in place of their inverses.",
  "all numbers of bins, mass bins and waves, mass limits, data, covariances, models and correct matrix inversions", INF,
  ["resonanceFit/resonanceFitReadData.cc: prepareSpinDensityMatrices, prepareMassLimit, readData", "resonanceFit/data.cc: data", "resonanceFit/function.cc: function, getNrDataPoints, chiSquareSpinDensityMatrix"])
p("The chi-square of the fit to production amplitudes compares the amplitudes in the frame of the anchor wave with propagated covariances",
  "In a fit to production amplitudes the value minimised is the sum over all bins and mass bins of the quadratic form of the deviations between model and data with the inverse of the covariance matrix: the deviations are those of the real and imaginary parts of all waves whose mass limits contain the mass bin (of the anchor wave only the real part), after model and data have been multiplied with the phase that makes the anchor wave real and positive. If the anchor wave is complex in the data, the covariance is the linear propagation of the measured one to this frame, with the derivatives of the rotated amplitudes; if it was real and positive already, the measured one. Of it the full matrix, the diagonal, or the 2x2 blocks of the waves are inverted as set. Chi-square is not negative, is zero exactly if all rotated amplitudes agree, and does not depend on a common phase of the model amplitudes of a mass bin; the number of data points is the number of these real numbers. Shown as refutations: an anchor wave that is complex and outside of its mass range does not propagate its errors; a model without an anchor amplitude has no chi-square; a real negative anchor amplitude gives a large chi-square for equal amplitudes; a second real-valued wave makes the fit use the covariance matrix in place of its inverse.",
  "all numbers of bins, mass bins and waves, anchor waves, mass limits, amplitudes, covariances, models, options and correct matrix inversions", INF,
  ["resonanceFit/resonanceFitReadData.cc: prepareProductionAmplitudes, readData", "resonanceFit/data.cc: data", "resonanceFit/function.cc: getNrDataPoints, chiSquareProductionAmplitudes"])
p("A resonance fit written to a configuration file is read back as the same fit",
  "writeConfig of the resonance fit followed by reading the file gives the same fit quality, the same free parameters, the same bins (name, mean t', rescaling of errors, systematics, waves with mass limits, also where bins share their waves through an alias of the file), the same anchor waves, the same components (type, decay channels with bins, extra decay channels, phase-space integrals, which channel owns which coupling and branching), the same formula of the final-state mass dependence for all bins or for each bin; parameters keep name, fixing, limits and step, and start with the values and errors the fit gave; the couplings of all owning decay channels in all their bins and the branchings are the fitted ones. Components made by the constructor meet the condition on normalised branching ratios. Shown as refutations: a model without final-state mass dependence, which the program accepts, cannot be written (the program ends after the minimisation); decay channels that share couplings in some of their bins only are accepted, so that a bin has no coupling; errors of couplings are not in the file.",
  "all inputs, models with all types of components and any number of channels, bins, waves, integrals and formulas, all fit results, and all numbers that are read as they were written", INF,
  ["resonanceFit/resonanceFitWriteConfig.cc: writeFitQuality, writeFreeParameters, writeInput, writeModelAnchors, writeModelParameter, writeModelComponent, writeModelFsmd, writeConfig", "resonanceFit/resonanceFitReadConfig.cc: readFitQuality, readFreeParameters, readInput, readModelAnchors, readModelParameter, readModelComponent, readModelFsmd, readModel", "resonanceFit/components.cc: component", "resonanceFit/resonanceFitExe.cc: main"])
p("Weights for phase-space events reproduce the fit result",
  "weightEvents takes the fit result with the mass closest to the one asked for (of equally close ones that with the smallest -log likelihood, none outside of the bin) and writes for every event the sum over all pairs of production amplitudes with equal reflectivity and rank of the products of decay amplitude times production amplitude over the square root of the diagonal integral, plus the flat wave. This weight is the sum of the parts of the two reflectivities and of the flat wave, none of them negative, is column W0, and the weight of a wave is the sum over its ranks. If the integrals are those of the same events, the weights of all events add up to the sum over the pairs with normalised overlaps, and those of one production amplitude to its absolute square. Every wave has one amplitude for each event. The samples of the production amplitudes are centred on the fit result and leave fixed parts alone; they have its covariance matrix if the parameters are not correlated. Refuted: with correlations the samples do not have the covariances of the fit, and with samples the branches for single production amplitudes are written for fits of rank one, too.",
  "all fit results, integral matrices, amplitude files, numbers of events, waves, ranks and samples, Cholesky factors and random numbers", INF,
  ["generators/weightEvents.cc: openRootAmpFiles, main", "partialWaveFit/fitResult.cc: variedProdAmps"])
p("Amplitude leaves keep incoherent sub-amplitudes under distinct labels through arithmetic and storage",
  "In every amplitude leaf a program can get by defining labels (not an empty list), setting sub-amplitudes, adding, subtracting, multiplying, dividing, assigning, clearing, and writing and reading files, labels are distinct, there is one amplitude for each label (one without labels), and index and label belong together. defineIncohSubAmps refuses labels that are not distinct, keeps the amplitudes there are and adds zeros. Setting a sub-amplitude changes only this one. Sums and differences exist exactly for leaves with equal labels and are those of the sub-amplitudes; a sum minus a term is the other term; sums do not depend on the order; factors act on each sub-amplitude and are undone by division; a stored leaf is read back as the same leaf into whatever object. Leaves with equal labels are equal exactly if their amplitudes are. Refuted: leaves of different sizes can compare equal (or the comparison reads outside of a vector), leaves with different labels compare equal, and an empty list of labels leaves no amplitude at all.",
  "all histories of calls on leaves, labels, amplitudes and factors", HIST,
  ["storageFormats/amplitudeTreeLeaf.h: amplitudeTreeLeaf, operator ==, operator *=, operator /=, setIncohSubAmp, incohSubAmp", "storageFormats/amplitudeTreeLeaf.cc: defineIncohSubAmps, operator =, operator +=, operator -=, clear, incohSubAmpIndex, incohSubAmpName, containsIncohSubAmp, rebuildSubAmpLabelMap", "storageFormats/linkdef.h: rebuildSubAmpLabelMap"])
p("The minimiser of the resonance fit releases the parameters step by step and keeps everything else",
  "Each step of the minimisation gives the minimiser exactly one variable for each parameter of the fit, in the order in which results are read back, starting at the values the previous step gave; it is free exactly if one of the blank-separated words of the release order names it ('*', its group, its bin, its component, the parameter or its full name) and it is not fixed, with its step and limits. In each bin of an accepted model exactly one coupling is that of the anchor wave; its imaginary part is zero and fixed in every step. If the minimiser changes nothing, the parameters stay. Steps follow the list of release orders (by default couplings and branchings, then masses, then all, then the Hessian matrix), each with the calls that are left, and stop early exactly if none are left. Only a list that starts with the Hessian matrix ends the program; the orders kept for a continuation start with the last one carried out that is not the Hessian matrix, so continuing works. Reported are chi-square at the final values, data points minus variables free in the last minimisation, and the status of the Hessian matrix exactly if it was the last order and was reached. With a minimiser that keeps fixed variables, parameters that are fixed or that no order names have their start values at the end, anchor couplings are real and fixed branchings one. Shown as refutations: with fewer data points than free variables the degrees of freedom wrap around; parameters of the final-state mass dependence are free in every step, even if the order does not name them.",
  "all accepted models, numbers of bins, waves and components, parameters, lists of release orders, numbers of calls and minimisers", INF,
  ["resonanceFit/minimizerRoot.cc: minimize, initParameters", "resonanceFit/model.cc: model, importParameters, getNrParameters", "resonanceFit/model.h: isAnchor", "resonanceFit/parameter.h"])
p("Text files of events are read as what they contain, and written so that they are read back",
  "Reading a text file of events succeeds exactly if it consists of complete events (number of particles, beam, at least one final-state particle) that all have the same particles, known by their GEANT ID and with the charge of that ID, perhaps followed by the first line of another event; the tree then has the momenta of exactly these events in this order, and the names of these particles. With a maximum number of events exactly that many are read, whatever follows. A tree with a beam and known particles is written and read back with its names and with the momenta its text gives; what was read can be written and is read back the same. ID, name and charge belong together in both directions. processTree appends one amplitude for each of the first events in order, and fails exactly if an event has none. The program ends if an event has fewer lines than particles, a line has no positive number of particles (e.g. an empty line at the end), or the particles change. Shown as refutations: a file cut after the first line of an event is read without complaint; production particles beside the beam are lost; particles without ID are written without complaint and come back as unknown; an event that cannot be read shifts the following amplitudes; as soon as the names are known, every further text file is reported as inconsistent even if it has the same particles, so that two text files can never be opened.",
  "all texts, numbers of events and particles, names, momenta, particle tables, formats of numbers that can be read, amplitudes and lists of files", INF,
  ["decayAmplitude/evtTreeHelper.cc: fillTreeFromEvt, writeEvtFromTree, processTree, openRootEvtFiles, checkParticleCharge, getParticleMass", "particleData/particleDataTable.cc: particleNameFromGeantId, geantIdAndChargeFromParticleName, initNameGeantIdTranslator"])
p("Integrals put into fit results are those the fit would have stored, and can be removed again",
  "addIntegralsToFitResult writes for every fit result of the file, in order, one with the same numbers of events, amplitudes, names, waves, covariance matrix and flags, in which normalisation and acceptance matrix are those of the two integral files looked up by wave name, divided by the number of events of the normalisation integral, zero between waves of different reflectivity and divided by the square roots of the diagonal elements of the normalisation integral, which are also the phase-space integrals; the last wave has 1 in the normalisation matrix and 1 as phase space, and every production amplitude points to its wave. For the first fit result, with the flat wave last, these are exactly the matrices and phase-space integrals the likelihood with normalised amplitudes hands out after a set-up with the same two integrals. Fit results that have integrals, a flat wave that is not the last one, a wave name without reflectivity and a wave missing in one of the integrals stop the program without any output (the first only without -f). stripIntegralsFromFitResult removes the integrals and keeps everything else; with -c also the covariance matrix and the Hessian flag go. Shown as refutations: from the second fit result of a file on the acceptance of the flat wave is 1, because the number of accepted events is overwritten in the first pass; a fit result without a flat wave has its last wave treated as the flat one, whatever its integral.",
  "all lists of fit results, wave names, integral matrices and numbers of events", INF,
  ["partialWaveFit/addIntegralsToFitResult.cc: main", "partialWaveFit/stripIntegralsFromFitResult.cc: main", "partialWaveFit/fitResult.cc: fill, reset", "partialWaveFit/pwaLikelihood.cc: getIntegralMatrices"])
p("A fit starts from reproducible or continued values and its result holds what the minimiser found",
  "pwaFit without usable start values gives the minimiser one variable per parameter, in order, each starting at a random number between 0.01 and the square root of the number of events with random sign, never zero, fixed by the seed alone; parameters of waves below threshold are fixed at zero. With a file of fit results the one nearest in mass (the last of several) provides the values found under the names of the parameters, provided it is at least as near as the mass zero; missing or zero values are replaced by random ones. A fit with the same waves, also in another bin, that starts from the result of a fit starts exactly at the parameters this fit has found. The fit result holds the minimum, the numbers of events, bin and rank, the amplitudes at the minimum after the choice of signs, with names and indices of their parameters, and unless they are left out half the covariance matrix of the minimiser, and the integrals; if the choice of signs changes the value of the likelihood there is no result. It is marked as converged exactly if the minimiser converged, no eigenvalue is not positive (if checked), and the Hessian matrix was calculated (unless matrices are left out). Shown as refutations: if all results of the file are further away than the mass zero the first one is used, whatever its mass; a result says that it has a Hessian matrix although its calculation failed; the covariance matrix is not adapted when signs are flipped, so that covariances between a flipped and another group of parameters have the wrong sign.",
  "all likelihoods, waves, seeds, bins, files of fit results, options and outcomes of the minimiser", INF,
  ["highLevelInterface/pwaFit.cc: pwaFit", "partialWaveFit/pwaLikelihood.cc: CorrectParamSigns, buildProdAmpArrays", "partialWaveFit/fitResult.cc: fill, fitParameter"])
p("Fits with NLopt minimise over the free parameters only and do not influence each other",
  "In pwaNloptFit the function the optimiser minimises is the likelihood at its parameters with zeros put in for the parameters fixed below threshold, and the gradient it gets is the gradient of this function with respect to the free parameters if the likelihood has the right one; a wrong number of parameters ends the program. The free parameters start at the values pwaFit gives them for the same seed. The fit result holds the parameters at which the optimiser stopped (zeros for the fixed ones, signs chosen by convention, names and indices of the parameters), the likelihood at these, and the covariance matrix of the likelihood at exactly these; it is marked as converged exactly if the optimiser reports success and no eigenvalue of the Hessian matrix is not positive (if they are needed). A start value file ends the program. Fits in one process give what they would give in separate processes as long as all have the same number of parameters. Shown as refutations: after a fit with fixed parameters, another one with fixed parameters and more parameters writes outside of an array; a result says that it has a Hessian matrix although an eigenvalue is negative.",
  "all likelihoods, waves, fixed parameters, seeds, options, optimisers that choose their points from the answers, and sequences of fits in one process", HIST,
  ["highLevelInterface/pwaNloptFit.cc: pwaNloptFit, rpwaNloptFunc, addFixedParams", "partialWaveFit/pwaLikelihood.cc: CorrectParamSigns, buildProdAmpArrays", "partialWaveFit/fitResult.cc: fill"])
if __name__=="__main__":
    with open("/verif/properties.jsonl","w") as f:
        for x in P: f.write(json.dumps(x)+"\n")
    print(len(P))
