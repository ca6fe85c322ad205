{"id": "C01", "title": "Every dispatched tasklet runs exactly as often as requested", "statement": "A tasklet dispatched to the runner with an invocation count n >= 1 is executed exactly n times, whether the runner has no worker thread (synchronous) or any number of them, and never more than n times at any moment.", "quantifier": "every number of worker threads, every sequence of dispatches and barriers, every thread interleaving, every pattern of tasklets that throw", "why_tests_cant": "Tests see a few schedules; lost or duplicated executions show up only in particular interleavings of queue accesses.", "anchors": ["opm/models/parallel/tasklets.hh: TaskletRunner::dispatch, TaskletRunner::run_, TaskletInterface::dereference"]}
{"id": "C02", "title": "A barrier returns only after everything dispatched before it has finished", "statement": "When barrier() returns, all invocations of all tasklets that were dispatched before it have completed (not merely started).", "quantifier": "every number of workers, every history of dispatches and earlier barriers, every interleaving", "why_tests_cant": "A barrier that lets one worker's last tasklet slip is a race that tests hit rarely.", "anchors": ["opm/models/parallel/tasklets.hh: TaskletRunner::barrier, BarrierTasklet"]}
{"id": "C03", "title": "The tasklet runner never deadlocks", "statement": "As long as tasklets themselves return, in every reachable state either some thread can take a step or the main thread has returned from its dispatches, barriers and the destructor and all workers have terminated; every schedule is finite.", "quantifier": "every number of workers, every finite program of dispatches and barriers ending with the destructor, every schedule", "why_tests_cant": "Deadlock freedom and termination quantify over all schedules.", "anchors": ["opm/models/parallel/tasklets.hh: TaskletRunner::barrier, TaskletRunner::~TaskletRunner, TaskletRunner::run_"]}
{"id": "C04", "title": "Tasklet failures are recorded and contained", "statement": "failure() is true exactly if some tasklet invocation threw so far; an exception neither stops a worker nor prevents any other tasklet from running.", "quantifier": "every schedule, every pattern of throwing tasklets", "why_tests_cant": "The combination of which tasklets throw and in which order they run is unbounded.", "anchors": ["opm/models/parallel/tasklets.hh: TaskletRunner::failure, TaskletRunner::dispatch, TaskletRunner::run_"]}
{"id": "C05", "title": "Synchronous and threaded runners agree on the number of executions for every invocation count", "statement": "dispatchFunction(fn, n) executes fn the same number of times with and without worker threads, for every integer n including zero.", "quantifier": "every integer invocation count, every number of workers", "why_tests_cant": "Tests use counts of one or more; the zero count is the corner where both modes differ.", "anchors": ["opm/models/parallel/tasklets.hh: TaskletRunner::dispatchFunction, TaskletRunner::dispatch, TaskletRunner::run_"]}
{"id": "C06", "title": "Worker threads unlock the task queue exactly once per lock", "statement": "A worker releases the mutex protecting the task queue exactly once for each time it acquired it, also on the path where it terminates.", "quantifier": "every worker, every schedule up to termination", "why_tests_cant": "Unlocking a mutex that is not owned is undefined behaviour and usually passes silently in tests.", "anchors": ["opm/models/parallel/tasklets.hh: TaskletRunner::run_"]}
{"id": "C07", "title": "Threaded iteration visits every entity exactly once", "statement": "When any number of threads loop over one shared threaded entity iterator, every entity of the grid view is handed to exactly one thread exactly once unless the iteration is stopped early; a thread is never handed the end position as an entity.", "quantifier": "every number of threads, every number of entities, every interleaving of the iterator operations, stopping at any moment", "why_tests_cant": "A duplicated or lost element is an interleaving bug.", "anchors": ["opm/models/parallel/threadedentityiterator.hh: ThreadedEntityIterator::beginParallel, increment, isFinished, setFinished"]}
{"id": "C08", "title": "Command line options are parsed exactly", "statement": "An argument --some-name=value sets exactly the parameter SomeName to the text value; an option without a value, malformed, or repeated options are rejected and reported, and positional arguments go to the positional callback in order.", "quantifier": "every argument list of arbitrary strings", "why_tests_cant": "The input space is all strings.", "anchors": ["opm/models/utils/parametersystem.hh: parseCommandLineOptions, parseKey_, transformKey_"]}
{"id": "C09", "title": "The option name shown in the help is the one that sets the parameter", "statement": "For every parameter name in CamelCase, the dashed lower-case option printed in the usage message is transformed back to the same parameter name when it is given on the command line.", "quantifier": "every parameter name that starts with an upper-case letter", "why_tests_cant": "Only round trips over all names exclude collisions and corner cases such as adjacent capitals or digits.", "anchors": ["opm/models/utils/parametersystem.hh: printParamUsage_, transformKey_"]}
{"id": "C10", "title": "Parameter files are read exactly and malformed lines are reported", "statement": "A parameter file consisting of well formed `key = value` lines, comments and blank lines defines exactly those keys with exactly those (un-escaped) values, and a line that is not of that form makes the parser report an error instead of continuing.", "quantifier": "every file content", "why_tests_cant": "The input space is all texts.", "anchors": ["opm/models/utils/parametersystem.hh: parseParameterFile, parseKey_, parseQuotedValue_, parseUnquotedValue_"]}
{"id": "C11", "title": "Parameter lookup follows the documented precedence", "statement": "Reading a parameter yields the value given on the command line if there is one, else the one of the parameter file, else the last default set by code, else the compile-time default; reading an unregistered parameter or registering after registration was closed is an error.", "quantifier": "every history of registrations, default changes, file and command line parsing, reads", "why_tests_cant": "Quantifies over all histories.", "anchors": ["opm/models/utils/parametersystem.hh: Get, SetDefault, Register, endRegistration, parseParameterFile, IsSet"]}
{"id": "C12", "title": "Line breaking of help text loses nothing", "statement": "The line-breaking routine of the usage message keeps every non-blank character in order, and no produced line is longer than the requested width unless it consists of a single unbreakable word.", "quantifier": "every text, every indent width and maximum width", "why_tests_cant": "All texts and widths.", "anchors": ["opm/models/utils/parametersystem.hh: breakLines_"]}
{"id": "C13", "title": "Simulation time, step index and call-backs stay consistent", "statement": "During run() the simulation time always equals the start value plus the sum of the sizes of the completed time steps, the step index equals the number of completed steps, and the problem sees the call-backs strictly in the order begin-episode, (begin-step, integrate, end-step, output, advance)*, end-episode with every begin matched.", "quantifier": "every problem (sequence of accepted step sizes, episode decisions, early finish requests)", "why_tests_cant": "Every history of a run.", "anchors": ["opm/models/utils/simulator.hh: Simulator::run, startNextEpisode, setFinished"]}
{"id": "C14", "title": "The simulator never steps over the end of the simulation or of an episode", "statement": "A time step size limited by the simulator's maximum ends at or before the end of the current episode and at or before the end time, and is never negative.", "quantifier": "every time, start time, episode start and length, end time, finished flag", "why_tests_cant": "All real-valued configurations.", "anchors": ["opm/models/utils/simulator.hh: maxTimeStepSize, episodeMaxTimeStepSize, episodeIsOver, finished"]}
{"id": "C15", "title": "The simulation loop terminates", "statement": "If every accepted time step is at least some positive size, run() returns after a number of steps bounded by the simulated time divided by that size.", "quantifier": "every problem, every episode structure", "why_tests_cant": "Termination over unbounded runs.", "anchors": ["opm/models/utils/simulator.hh: Simulator::run, finished"]}
{"id": "C16", "title": "Predetermined time step files are read exactly", "statement": "Reading the file of predetermined time step sizes yields exactly the numbers in the file, in order, for every file content, and always terminates.", "quantifier": "every file content", "why_tests_cant": "All file contents, including trailing newlines and non-numeric junk.", "anchors": ["opm/models/utils/simulator.hh: Simulator::Simulator (PredeterminedTimeStepsFile)"]}
{"id": "C17", "title": "Retrying a failed time step halves it down to the minimum and gives up cleanly", "statement": "A time integration tries at most the configured number of times; each retry uses half the previous size but never less than the minimum step size; it returns normally iff an attempt succeeded (or the minimum is reached and continuing is enabled) and raises an error otherwise.", "quantifier": "every outcome sequence of the nonlinear solver, every initial, minimal step size and retry limit", "why_tests_cant": "All failure patterns.", "anchors": ["opm/models/discretization/common/fvbaseproblem.hh: timeIntegration"]}
{"id": "C18", "title": "The suggested next time step respects the user's maximum", "statement": "The next time step size proposed by the problem never exceeds the configured maximum time step size.", "quantifier": "every current step size, suggestion of the nonlinear solver, and remaining episode time", "why_tests_cant": "All values of the inputs.", "anchors": ["opm/models/discretization/common/fvbaseproblem.hh: nextTimeStepSize"]}
{"id": "C19", "title": "Newton success means convergence", "statement": "The Newton method reports success only if the last computed error is at most the tolerance after at least one full iteration, reports failure otherwise, and the solution it leaves behind is the last accepted iterate.", "quantifier": "every sequence of residuals, linear solver outcomes and exceptions, every tolerance and iteration limit", "why_tests_cant": "All iteration histories.", "anchors": ["opm/models/nonlinear/newtonmethod.hh: NewtonMethod::apply, proceed_, converged, failed_"]}
{"id": "C20", "title": "Newton iterations are bounded", "statement": "The Newton method performs at most the configured maximum number of iterations plus the number of successive error reductions by a factor of four that fit between the largest admissible error and the tolerance.", "quantifier": "every sequence of errors", "why_tests_cant": "Termination over all residual histories.", "anchors": ["opm/models/nonlinear/newtonmethod.hh: NewtonMethod::proceed_, preSolve_"]}
{"id": "C21", "title": "A NaN residual is never accepted as converged", "statement": "If some entry of the residual is not a number the Newton method does not report convergence.", "quantifier": "every residual vector, NaN at any position", "why_tests_cant": "NaN positions and floating point comparison order are not enumerated by tests.", "anchors": ["opm/models/nonlinear/newtonmethod.hh: NewtonMethod::preSolve_, converged"]}
{"id": "C22", "title": "The Newton time step controller is monotone and bounded", "statement": "The time step suggested after a solve shrinks when more than the target number of iterations were needed, grows by at most a factor of 1+1/1.2 otherwise, is always positive, and never is smaller than the problem's minimum step size.", "quantifier": "every old step size, iteration count, target count", "why_tests_cant": "All values.", "anchors": ["opm/models/nonlinear/newtonmethod.hh: NewtonMethod::suggestTimeStepSize"]}
{"id": "C23", "title": "A failed update restores the previous solution", "statement": "After a failed update the current solution and everything cached from it are those of the beginning of the time step, so that a retry starts from the same state as the first attempt.", "quantifier": "every history of updates, every modification made by the failed solve", "why_tests_cant": "All histories.", "anchors": ["opm/models/discretization/common/fvbasediscretization.hh: update, updateFailed"]}
{"id": "C24", "title": "Cached intensive quantities always match the solution", "statement": "A cached intensive quantity that is marked valid for a degree of freedom and time level is the one computed from the solution of that degree of freedom at that level.", "quantifier": "every history of cache fills, invalidations, updates, time level shifts and residual evaluations", "why_tests_cant": "All histories.", "anchors": ["opm/models/discretization/common/fvbasediscretization.hh: cachedIntensiveQuantities, updateCachedIntensiveQuantities, setIntensiveQuantitiesCacheEntryValidity, shiftIntensiveQuantityCache, globalResidual"]}
{"id": "C25", "title": "Advancing the time level keeps the history in order", "statement": "After advancing the time level, time level k+1 holds exactly what level k held before, for solutions and cached quantities alike, for every number of stored time levels.", "quantifier": "every number of stored time levels, every content", "why_tests_cant": "All sizes and contents.", "anchors": ["opm/models/discretization/common/fvbasediscretization.hh: advanceTimeLevel, shiftIntensiveQuantityCache"]}
{"id": "C26", "title": "Auxiliary modules own disjoint, contiguous degree of freedom ranges", "statement": "After any sequence of adding and clearing auxiliary modules, the degrees of freedom of the grid and of the modules partition the range from zero to the total number, and local-to-global maps are injective.", "quantifier": "every sequence of module additions and clearings, every module size", "why_tests_cant": "All histories.", "anchors": ["opm/models/discretization/common/fvbasediscretization.hh: addAuxiliaryModule, clearAuxiliaryModules, numTotalDof", "opm/models/discretization/common/baseauxiliarymodule.hh: localToGlobalDof"]}
{"id": "C27", "title": "A restart file restores exactly what was written", "statement": "Deserializing the restart data written for a set of entities restores every primary variable of every entity, and restores simulation time, episode and step counters; truncated or wrongly structured data is rejected.", "quantifier": "every solution, every number of entities and variables, every truncation", "why_tests_cant": "All contents and all truncation points.", "anchors": ["opm/models/io/restart.hh: Restart::serializeEntities, deserializeEntities, deserializeSectionBegin, deserializeSectionEnd", "opm/models/discretization/common/fvbasediscretization.hh: serializeEntity, deserializeEntity"]}
{"id": "C28", "title": "Distinct simulation states get distinct restart files", "statement": "Restart files written by one simulator at different simulation times, or by different processes, have different names, so that none overwrites another.", "quantifier": "every pair of simulation times and ranks", "why_tests_cant": "All pairs of times.", "anchors": ["opm/models/io/restart.hh: Restart::restartFileName_"]}
{"id": "C29", "title": "Simulator restart round trip", "statement": "Writing the simulator state and reading it back restores every quantity that influences the continuation of the run, in particular the size of the next time step.", "quantifier": "every simulator state", "why_tests_cant": "All states.", "anchors": ["opm/models/utils/simulator.hh: Simulator::serialize, deserialize, serializeOp, run"]}
{"id": "C30", "title": "The visualization collection file is complete and well formed after every write", "statement": "After each completed write the collection (.pvd) file consists of the header, one entry per non-discarded output in order, and the footer, whatever earlier writes did; this holds with asynchronous output too.", "quantifier": "every sequence of writes and discards, every schedule of the output thread", "why_tests_cant": "All histories and schedules.", "anchors": ["opm/models/io/vtkmultiwriter.hh: VtkMultiWriter::beginWrite, endWrite, startMultiFile_, finishMultiFile_, WriteDataTasklet"]}
{"id": "C31", "title": "Gathering strings over processes loses nothing", "statement": "Gathering one string per process on the master yields exactly the non-empty strings in rank order.", "quantifier": "every number of processes, every string per process", "why_tests_cant": "All string lengths and process counts.", "anchors": ["opm/models/parallel/mpiutil.hh: gatherStrings"]}
{"id": "C32", "title": "All processes agree on whether an exception occurred", "statement": "When the construction or initialization of the simulation throws on any process, all processes raise an error, and none does otherwise; no process waits in a collective call that another skips.", "quantifier": "every number of processes, every pattern of failing processes", "why_tests_cant": "All failure patterns over ranks.", "anchors": ["opm/models/utils/simulator.hh: checkParallelException", "opm/simulators/linalg/overlappingpreconditioner.hh: OverlappingPreconditioner::apply"]}
{"id": "C33", "title": "Boundary data exchange computes sum, maximum or minimum over all copies", "statement": "After exchanging with a sum/max/min communication handle every copy of a shared entity holds the sum/maximum/minimum of the values all processes had, or the owner's value for ghost synchronisation.", "quantifier": "every number of processes, every assignment of values", "why_tests_cant": "All message orders and process counts.", "anchors": ["opm/models/parallel/gridcommhandles.hh: GridCommHandleSum, GridCommHandleGhostSync, GridCommHandleMax, GridCommHandleMin"]}
{"id": "C34", "title": "Global indices are a bijection", "statement": "The global numbering of the distributed degrees of freedom assigns to each degree of freedom exactly one number, the same on every process that knows it, and the numbers used are exactly those from zero to the global count.", "quantifier": "every number of processes, every distribution of degrees of freedom, every order of the border lists", "why_tests_cant": "All distributions.", "anchors": ["opm/simulators/linalg/globalindices.hh: GlobalIndices::buildGlobalIndices_, domesticToGlobal, globalToDomestic"]}
{"id": "C35", "title": "The overlap contains exactly the rows within the requested distance", "statement": "The algebraic overlap of a process consists of the degrees of freedom reachable from the process border in at most the requested number of matrix edges, each at its minimal distance.", "quantifier": "every matrix graph, every border list, every overlap size", "why_tests_cant": "All graphs.", "anchors": ["opm/simulators/linalg/foreignoverlapfrombcrsmatrix.hh: ForeignOverlapFromBCRSMatrix::extendForeignOverlap_"]}
{"id": "C36", "title": "Overlapping vector synchronisation agrees with the sequential vector", "statement": "sync() makes all copies of a degree of freedom equal to the value its master had before; syncAdd() makes all copies equal to the sum of the values of all copies.", "quantifier": "every number of processes, every overlap structure, every vector", "why_tests_cant": "All distributions and message orders.", "anchors": ["opm/simulators/linalg/overlappingblockvector.hh: OverlappingBlockVector::sync, syncAdd"]}
{"id": "C37", "title": "The overlapping scalar product counts every degree of freedom once", "statement": "The parallel scalar product of two consistent vectors equals the sequential scalar product of the global vectors.", "quantifier": "every number of processes, every overlap, every vector", "why_tests_cant": "All distributions.", "anchors": ["opm/simulators/linalg/overlappingscalarproduct.hh: OverlappingScalarProduct::dot"]}
{"id": "C38", "title": "The BiCGStab solver returns only true solutions", "statement": "If the BiCGStab solver reports success, the residual b - A x of the vector it returns satisfies the convergence criterion; the internally updated residual always equals the true residual.", "quantifier": "every linear operator, right hand side, initial guess, preconditioner, iteration limit", "why_tests_cant": "All operators and iteration histories.", "anchors": ["opm/simulators/linalg/bicgstabsolver.hh: BiCGStabSolver::apply"]}
{"id": "C39", "title": "Convergence criteria never accept NaN residuals and report failure consistently", "statement": "A residual with a NaN entry is not reported as converged, and converged and failed are never reported together.", "quantifier": "every residual vector", "why_tests_cant": "NaN positions, comparison order.", "anchors": ["opm/simulators/linalg/combinedcriterion.hh: CombinedCriterion::converged, failed, updateErrors_", "opm/simulators/linalg/weightedresidreductioncriterion.hh: WeightedResidualReductionCriterion::converged, failed", "opm/simulators/linalg/residreductioncriterion.hh: ResidReductionCriterion::converged"]}
{"id": "C40", "title": "Block inversion returns the true inverse", "statement": "Inverting a dense block of size one to four yields a matrix whose product with the original on either side is the identity, or reports a singular block; every block with non-zero determinant is inverted.", "quantifier": "every matrix", "why_tests_cant": "All matrices.", "anchors": ["opm/simulators/linalg/matrixblock.hh: invertMatrix, invertMatrix4"]}
{"id": "C41", "title": "Local residuals conserve every quantity", "statement": "Summed over all degrees of freedom, the interior face fluxes cancel exactly, so the global balance equals storage change minus sources plus boundary fluxes.", "quantifier": "every stencil, flux function, number of equations", "why_tests_cant": "All meshes and flux functions.", "anchors": ["opm/models/discretization/common/fvbaselocalresidual.hh: evalFluxes, evalVolumeTerms_, evalBoundary_", "opm/models/discretization/common/fvbasediscretization.hh: globalStorage, checkConservativeness"]}
{"id": "C42", "title": "The two-point flux is the same seen from both sides", "statement": "The phase flux over a face computed from one cell is the negative of the one computed from the other cell, and both use the same upstream cell.", "quantifier": "every pair of cells, pressures, densities, depths, mobilities, volumes, ties included", "why_tests_cant": "All values, with ties.", "anchors": ["opm/models/common/transfluxmodule.hh: TransExtensiveQuantities::calculateGradients_"]}
{"id": "C43", "title": "Diffusive and convective-mixing fluxes are conservative", "statement": "The component flux over a face due to diffusion or convective mixing computed from one side is the negative of the one computed from the other side.", "quantifier": "every pair of cell states, also across regions with different fluid tables", "why_tests_cant": "All values.", "anchors": ["opm/models/blackoil/blackoildiffusionmodule.hh: BlackOilDiffusionModule::addDiffusiveFlux", "opm/models/blackoil/blackoilconvectivemixingmodule.hh: addConvectiveMixingFlux"]}
{"id": "C44", "title": "The assembled system does not depend on the traversal order", "statement": "The global residual and Jacobian obtained by linearizing are the sums of the element contributions, independent of the order in which elements are visited and of which thread visits them.", "quantifier": "every permutation of elements, every interleaving of threads with locked accumulation", "why_tests_cant": "All orders.", "anchors": ["opm/models/discretization/common/fvbaselinearizer.hh: linearize_, linearizeElement_"]}
{"id": "C45", "title": "Linearizing a sub-domain gives the rows of the full system", "statement": "Linearizing only a set of cells yields for those rows the same residual and for those rows and columns the same matrix as linearizing everything, however often it is repeated, and leaves other rows unchanged.", "quantifier": "every grid graph, every sub-domain, every history of linearizations", "why_tests_cant": "All histories and domains.", "anchors": ["opm/models/discretization/common/tpfalinearizer.hh: linearizeDomain, linearize_, resetSystem_", "opm/models/discretization/common/fvbaselinearizer.hh: linearizeDomain, linearize_, resetSystem_"]}
{"id": "C46", "title": "The Jacobian can be erased and rebuilt", "statement": "After eraseMatrix() the next linearization recreates the matrix and produces the same system as before.", "quantifier": "every history of linearizations and erasures", "why_tests_cant": "All histories.", "anchors": ["opm/models/discretization/common/tpfalinearizer.hh: eraseMatrix, createMatrix_, initFirstIteration_", "opm/models/discretization/common/fvbaselinearizer.hh: eraseMatrix, createMatrix_, initFirstIteration_"]}
{"id": "C47", "title": "Finite difference derivatives are exact on affine residuals and leave the state unchanged", "statement": "With any of the three difference methods the derivative of an affine residual is exact, and the evaluation context is the same after as before.", "quantifier": "every affine residual, every variable, every non-zero step, every method", "why_tests_cant": "All residual functions.", "anchors": ["opm/models/discretization/common/fvbasefdlocallinearizer.hh: evalPartialDerivative_"]}
{"id": "C48", "title": "The black-oil Newton update respects its limits", "statement": "One Newton update of a cell changes each phase saturation by at most the configured maximum, changes pressure by at most the configured relative maximum, keeps dissolution factors, concentrations and solvent fractions in range, and keeps pressure within the configured bounds.", "quantifier": "every primary variable vector, every Newton update, every configuration", "why_tests_cant": "All values.", "anchors": ["opm/models/blackoil/blackoilnewtonmethod.hh: updatePrimaryVariables_"]}
{"id": "C49", "title": "Saturation normalisation yields physical saturations", "statement": "After chopping and normalising, every saturation lies between zero and one, they sum to one, and repeating the operation changes nothing.", "quantifier": "every primary variable vector and interpretation", "why_tests_cant": "All values.", "anchors": ["opm/models/blackoil/blackoilprimaryvariables.hh: chopAndNormalizeSaturations"]}
{"id": "C50", "title": "Primary variable switching is reported faithfully and keeps interpretations consistent", "statement": "Adapting the primary variables reports true exactly if the interpretation of some variable changed, and the pressure interpretation always fits the gas interpretation.", "quantifier": "every cell state, every configuration of phases and dissolution", "why_tests_cant": "All combinations of interpretation and values.", "anchors": ["opm/models/blackoil/blackoilprimaryvariables.hh: adaptPrimaryVariables, assignNaive"]}
{"id": "C51", "title": "Equation and variable indices never collide", "statement": "For every combination of enabled black-oil extensions, the primary variable and equation indices are pairwise distinct and cover the range of the vector exactly.", "quantifier": "every combination of enabled extensions and every offset", "why_tests_cant": "Only some of the combinations are instantiated by tests.", "anchors": ["opm/models/blackoil/blackoilindices.hh: BlackOilIndices", "opm/models/blackoil/blackoiltwophaseindices.hh: BlackOilTwoPhaseIndices", "opm/models/blackoil/blackoilonephaseindices.hh: BlackOilOnePhaseIndices"]}
{"id": "C52", "title": "Phase presence bookkeeping round trip", "statement": "Assigning a fluid state to switching primary variables and reading the saturations and mole fractions back gives the original values for every set of present phases, and a state with no present phase is rejected.", "quantifier": "every non-empty set of present phases, every number of phases, every saturation vector", "why_tests_cant": "All subsets and values.", "anchors": ["opm/models/pvs/pvsprimaryvariables.hh: assignNaive, explicitSaturationValue, setPhasePresent, lowestPresentPhaseIdx"]}
{"id": "C53", "title": "Compositional Newton updates respect their limits", "statement": "A Newton update of the PVS or NCP model changes every phase saturation by at most 20 percent, pressure by at most the documented fraction, and keeps fugacities non-negative; one of the Richards model changes the saturation of the liquid by at most 20 percent, one of the PT-flash model every mole fraction by at most 0.2 and the pressure by at most 20 percent; smaller updates are taken unchanged.", "quantifier": "every primary variable vector, every update, every set of present phases", "why_tests_cant": "All values and subsets.", "anchors": ["opm/models/ncp/ncpnewtonmethod.hh: updatePrimaryVariables_", "opm/models/pvs/pvsnewtonmethod.hh: updatePrimaryVariables_"]}
{"id": "C54", "title": "Timers account for every started interval exactly once", "statement": "The elapsed time of a timer is the sum of the lengths of its started-and-stopped intervals plus the running one; the guard stops the timer exactly once on every exit path.", "quantifier": "every history of start, stop, halt and combination operations, every clock", "why_tests_cant": "All histories.", "anchors": ["opm/models/utils/timer.hh: Timer", "opm/models/utils/timerguard.hh: TimerGuard"]}
{"id": "C55", "title": "A guard runs its action exactly once", "statement": "The action of a generic scope guard runs exactly once over the life of the guard and all objects it was moved to, unless it was disabled.", "quantifier": "every history of moves, enabling, disabling and destruction", "why_tests_cant": "All histories.", "anchors": ["opm/models/utils/genericguard.hh: GenericGuard"]}
{"id": "C56", "title": "Aligned allocation never returns less memory than requested", "statement": "The aligned allocator returns memory of at least the size of the requested number of objects at the requested alignment, or throws.", "quantifier": "every alignment, object size and count, including counts whose byte size overflows", "why_tests_cant": "Overflowing counts are never tested.", "anchors": ["opm/models/utils/alignedallocator.hh: aligned_alloc, aligned_allocator::allocate, is_alignment"]}
{"id": "C57", "title": "The fracture mapper is a symmetric set of edges", "statement": "A vertex pair is reported as a fracture edge exactly if it was added in either orientation, and a vertex is a fracture vertex exactly if it belongs to an added edge.", "quantifier": "every history of additions, every pair of vertices", "why_tests_cant": "All histories.", "anchors": ["opm/models/discretefracture/fracturemapper.hh: FractureMapper"]}
{"id": "C58", "title": "Grid conversion preserves elements and orientation", "statement": "The ART to DGF converter outputs each triangle of the input once with counter-clockwise vertex order, each fracture edge once, and recognises every section end mark.", "quantifier": "every input file", "why_tests_cant": "All inputs.", "anchors": ["art2dgf/art2dgf.cc: Art2DGF::convert"]}
{"id": "C59", "title": "The start routine honours help and error requests", "statement": "Asking for help prints the usage and ends the program without running a simulation; unknown or malformed parameters end it with an error status on every process.", "quantifier": "every outcome of parameter parsing on every process", "why_tests_cant": "All combinations over processes.", "anchors": ["opm/models/utils/start.hh: setupParameters_, start"]}
{"id": "C60", "title": "Parallel buffers are freed exactly once", "statement": "The memory of a message buffer is freed exactly once over the life of the buffer and of everything copied or moved from it.", "quantifier": "every history of construction, copy, resize and destruction", "why_tests_cant": "All histories.", "anchors": ["opm/models/parallel/mpibuffer.hh: MpiBuffer"]}
{"id": "C61", "title": "The element-centred stencil lists each neighbour exactly once", "statement": "The stencil of a cell has the cell itself first, then one degree of freedom per neighbouring intersection, with interior faces referring to exactly these, and interior plus boundary faces equal the intersections.", "quantifier": "every element with any number of intersections", "why_tests_cant": "All meshes.", "anchors": ["opm/models/discretization/ecfv/ecfvstencil.hh: EcfvStencil::update"]}
{"id": "C62", "title": "Border lists are exchanged without losing message alignment", "statement": "Each process learns for every shared degree of freedom exactly which processes have it in their interior or border, whatever the shape of the process boundary.", "quantifier": "every partition of every grid", "why_tests_cant": "All partitions.", "anchors": ["opm/simulators/linalg/elementborderlistfromgrid.hh: ElementBorderListFromGrid"]}
{"id": "C63", "title": "A run never steps over the end of the simulation or of an episode", "statement": "Every completed time step of a run ends at or before the end time and at or before the end of the episode it belongs to.", "quantifier": "every problem and every history of a run", "why_tests_cant": "Every history of a run; depends on which call-backs adjust the step size.", "anchors": ["opm/models/utils/simulator.hh: Simulator::run"]}
{"id": "C64", "title": "Predetermined time step sizes are used one after the other", "statement": "If a list of time step sizes is given, the i-th time step of the run has the i-th size of the list.", "quantifier": "every list, every episode structure", "why_tests_cant": "Every history of a run.", "anchors": ["opm/models/utils/simulator.hh: Simulator::run (forcedTimeSteps_)"]}
{"id": "C65", "title": "A run does not end before its end time", "statement": "Unless the problem asks for it, run() returns only when the simulation time has reached the end time up to rounding.", "quantifier": "every end time and sequence of step sizes", "why_tests_cant": "All magnitudes of times; tests use short simulations.", "anchors": ["opm/models/utils/simulator.hh: finished, Simulator::run"]}
{"id": "C66", "title": "A fluid state stored as black-oil primary variables is recovered", "statement": "Assigning a fluid state in equilibrium to the primary variables of a cell and evaluating them gives back the saturations and the phase pressures of the fluid state, whichever phases are present.", "quantifier": "every fluid state, every combination of present phases, every configuration of phases and dissolution", "why_tests_cant": "All saturations and phase combinations.", "anchors": ["opm/models/blackoil/blackoilprimaryvariables.hh: assignNaive", "opm/models/blackoil/blackoilintensivequantities.hh: update"]}
{"id": "C67", "title": "Free-flow boundary conditions carry what the upstream side holds", "statement": "The rate of a component over a free-flow boundary is, phase by phase, the volume flux times the amount of the component which the upstream side (the cell for outflow, the boundary state for inflow) holds per volume, in the unit which the model conserves; the in- and outflow variants never admit the other direction.", "quantifier": "every cell state, boundary state, phase setup, unit of conservation, gravity", "why_tests_cant": "a test checks one boundary value problem in one unit; the claim is about every state on both sides of the boundary and every combination of enabled phases", "anchors": ["opm/models/blackoil/blackoilboundaryratevector.hh: setFreeFlow, setInFlow, setOutFlow", "opm/models/blackoil/blackoillocalresidualtpfa.hh: computeBoundaryFluxFree, evalPhaseFluxes_, adaptMassConservationQuantities_"]}
{"id": "C68", "title": "Rows excluded from the linear system keep their index in the overlap", "statement": "After the overlap is built, the black list translates a native index which another process has announced as black-listed exactly to the index of the same row in the overlap of this process, if that row is in the overlap, and to -1 otherwise.", "quantifier": "every number of processes, every decomposition, every set of black-listed rows, every message order", "why_tests_cant": "All decompositions and schedules; the translation needs the cooperation of all processes.", "anchors": ["opm/simulators/linalg/blacklist.hh: BlackList::updateNativeToDomesticMap, nativeToDomestic", "opm/simulators/linalg/domesticoverlapfrombcrsmatrix.hh: DomesticOverlapFromBCRSMatrix"]}
{"id": "C69", "title": "The assembled matrix is the derivative of the assembled residual", "statement": "If the local residual returns, for a cell, values and their derivatives with regard to the cell's own primary variables, if a term depends only on the two cells of its face, and if what leaves one cell through a face enters the other one, then after a linearization the entry of the matrix in row i and column c is the derivative of the residual of cell i with regard to the variable of cell c, for every pair of cells of the grid.", "quantifier": "all grids, cells, equations, variables, solutions, flux, storage, source, well and boundary functions, and histories of earlier linearizations", "why_tests_cant": "a test compares a handful of entries with difference quotients at one solution; a wrong sign or a missing neighbour shows only for other grids or couplings", "anchors": ["opm/models/discretization/common/tpfalinearizer.hh: TpfaLinearizer::linearizeDomain, linearize_, setResAndJacobi"]}
{"id": "C70", "title": "Constrained degrees of freedom keep their prescribed values", "statement": "After a linearization every degree of freedom with an active constraint has the prescribed value at both time levels and its equation in the linear system is the identity with a zero right-hand side; the set of constraints is asked for in the first iteration of each Newton solve and kept afterwards, and degrees of freedom without constraint are not touched.", "quantifier": "every grid, every set of constraints, every history of linearizations, failures and erasures", "why_tests_cant": "All histories and sets of constraints.", "anchors": ["opm/models/discretization/common/fvbaselinearizer.hh: updateConstraintsMap_, applyConstraintsToSolution_, applyConstraintsToLinearization_"]}
{"id": "C71", "title": "Darcy fluxes obey the law they implement", "statement": "The volume flux of a phase over a face is the permeability times the mobility of the side the phase comes from times the drop of the potential, vanishes when the fluids are at rest, and is the opposite when the two sides of the face change their roles; the same law holds at the boundary of the domain.", "quantifier": "every dimension, position of the degrees of freedom and of the face, pressures, densities, mobilities, gravity and permeability tensor", "why_tests_cant": "A test compares one flow problem with a reference; the law is about every geometry and every tensor, also those where the gradient is not parallel to the normal.", "anchors": ["opm/models/common/darcyfluxmodule.hh: calculateGradients_, calculateFluxes_, calculateBoundaryGradients_, calculateBoundaryFluxes_, calculateFilterVelocity_", "opm/models/common/multiphasebaseproblem.hh: intersectionIntrinsicPermeability"]}
{"id": "C72", "title": "Values and gradients at faces are exact for affine quantities", "statement": "The value and the gradient of an affine quantity which the discretization computes at an integration point from the values at the degrees of freedom are those of the quantity (two-point gradients: in the direction of the two points).", "quantifier": "every dimension, element geometry, integration point and affine quantity", "why_tests_cant": "A test can check a few elements; consistency is a statement about all geometries and all affine functions.", "anchors": ["opm/models/discretization/common/fvbasegradientcalculator.hh: calculateScalarValue, calculateVectorValue, calculateGradient, calculateBoundaryGradient", "opm/models/discretization/vcfv/p1fegradientcalculator.hh: calculateScalarValue, calculateGradient"]}
{"id": "C73", "title": "Rates mean the same however they are given", "statement": "A source or boundary rate given as a mass rate, a molar rate or the volume of a phase is stored as the same amount of every component, in the unit which the model conserves (mass, moles or surface volume), and the entry of the energy is the given one; no other entry of the vector and no memory outside of it is changed.", "quantifier": "all models with their rate vectors, all numbers of components, all molar masses and reference densities, all values", "why_tests_cant": "Tests use one model and one unit; a missing conversion shows as a plausible wrong number and an out-of-range write may go unnoticed.", "anchors": ["opm/models/immiscible/immiscibleratevector.hh: setMassRate, setMolarRate, setVolumetricRate", "opm/models/flash/flashratevector.hh: setVolumetricRate", "opm/models/ncp/ncpratevector.hh: setVolumetricRate", "opm/models/pvs/pvsratevector.hh: setMassRate", "opm/models/richards/richardsratevector.hh: setMolarRate", "opm/models/blackoil/blackoilratevector.hh: setMassRate, setMolarRate, setVolumetricRate"]}
{"id": "C74", "title": "A stored fluid state is recovered", "statement": "Assigning a fluid state to the primary variables of a model and evaluating the intensive quantities gives back the same temperature, pressures, saturations and (NCP) compositions if the state is physical: saturations add up to one, pressures differ by the capillary pressures, fugacities are equal; conservative assignment keeps the moles of every component. Reading the PT-flash model always gives positive mole fractions which add up to one.", "quantifier": "immiscible, NCP, flash, PT-flash and Richards models; any number of phases and components; any capillary pressure and fugacity laws; any state", "why_tests_cant": "Initial and boundary conditions are given as fluid states; whether all of them survive the translation is a statement about all states and laws.", "anchors": ["opm/models/immiscible/immiscibleprimaryvariables.hh: assignNaive, assignMassConservative", "opm/models/ncp/ncpprimaryvariables.hh: assignNaive", "opm/models/flash/flashprimaryvariables.hh: assignNaive", "opm/models/ptflash/flashprimaryvariables.hh: assignNaive", "opm/models/richards/richardsprimaryvariables.hh: assignImmiscibleFromWetting, assignImmiscibleFromNonWetting", "opm/models/immiscible/immiscibleintensivequantities.hh: update", "opm/models/ncp/ncpintensivequantities.hh: update"]}
{"id": "C75", "title": "NCP solutions decide the presence of phases", "statement": "The additional equations of the NCP model hold exactly if every phase either is present with mole fractions adding up to one, or is absent with mole fractions adding up to at most one. They are part of the residual without changing the balance equations, and a state which the Newton method accepts as converged satisfies them up to the tolerance.", "quantifier": "any number of phases and components, all compositions and saturations, all residuals and weights", "why_tests_cant": "Complementarity must hold for all compositions; which equations the error criterion looks at does not show in converged test runs.", "anchors": ["opm/models/ncp/ncplocalresidual.hh: computeSource, phaseNcp_", "opm/models/ncp/ncpnewtonmethod.hh: preSolve_"]}
{"id": "C76", "title": "Storage and flux terms balance the conserved quantities", "statement": "The storage term of every balance equation is the amount of that quantity per volume, and the flux over a face is that amount per volume in the upstream phase times the volume flux, summed over the phases, plus the diffusive part; the energy balance holds the internal energy of fluids and rock, the advected enthalpy and the conducted heat. The flux does not depend on which degree of freedom is in focus, the flux seen from the other side is the negative (fractures included), storage, fluxes, boundary conditions and rates count in the same unit.", "quantifier": "all models with phases as conserved quantities, components in moles and components in mass, Richards and discrete-fracture models; any number of phases and components, dimension, permeability, gravity, states", "why_tests_cant": "The accounting must be right in every equation of every combination of model, energy, diffusion and fracture extension, for all states.", "anchors": ["opm/models/immiscible/immisciblelocalresidual.hh: addPhaseStorage, computeStorage, computeFlux, addAdvectiveFlux", "opm/models/flash/flashlocalresidual.hh: computeStorage, addAdvectiveFlux", "opm/models/ptflash/flashlocalresidual.hh: computeStorage, addAdvectiveFlux", "opm/models/ncp/ncplocalresidual.hh: computeStorage, addAdvectiveFlux", "opm/models/pvs/pvslocalresidual.hh: computeStorage, addAdvectiveFlux", "opm/models/richards/richardslocalresidual.hh: computeStorage, computeFlux", "opm/models/discretefracture/discretefracturelocalresidual.hh: addPhaseStorage, computeFlux", "opm/models/common/energymodule.hh: addAdvectiveFlux, addDiffusiveFlux, addPhaseStorage", "opm/models/common/diffusionmodule.hh: addDiffusiveFlux"]}
{"id": "C77", "title": "Automatic differentiation of storage and flux terms", "statement": "The derivatives carried along with the storage term, and with the flux over a face evaluated with any degree of freedom in focus, are the derivatives of the value with regard to the primary variables of that degree of freedom.", "quantifier": "all models of C76, every equation, any number of phases and components, any differentiable dependence of the quantities on a primary variable, any degree of freedom of the element in focus (at the face or not)", "why_tests_cant": "A wrong derivative changes no converged result, only convergence; finite-difference tests look at single states.", "anchors": ["opm/models/discretization/common/fvbaseadlocallinearizer.hh: linearize", "opm/models/common/darcyfluxmodule.hh: calculateGradients_, calculateFluxes_", "opm/models/common/energymodule.hh: EnergyExtensiveQuantities", "opm/models/common/diffusionmodule.hh: DiffusionExtensiveQuantities", "opm/models/immiscible/immisciblelocalresidual.hh: addAdvectiveFlux"]}
{"id": "C78", "title": "The sub-control volumes of an element of the vertex-centred scheme make up the element and are closed by their faces", "statement": "After VcfvStencil::update(element) the volumes of the sub-control volumes add up to the volume of the element and each is the volume of the region around its vertex (convex triangles and quadrilaterals, tetrahedra); the area vectors of the interior faces of a sub-control volume and of its parts of the faces of the element add up to zero, so that constant fields cause no net flux; there is one interior face for each edge and its normal points from the first to the second vertex. For hexahedra the volumes add up if the four pillars are parallel; otherwise they need not. Pyramids and prisms are rejected by an exception. Normals point the wrong way in negatively oriented elements in space.", "quantifier": "every element of every supported shape with any corner positions (convex in the plane), every norm which vanishes for zero only", "why_tests_cant": "the claim is a family of polynomial identities and inequalities in the corner positions; tests use a few regular grids on which wrong index tables can cancel", "anchors": ["opm/models/discretization/vcfv/vcfvstencil.hh: VcfvStencil::update, fillSubContVolData_, getFaceIndices, getEdgeIndices, hexahedronVolume, prismVolume, quadrilateralArea"]}
{"id": "C79", "title": "Integration points, boundary segments and local geometries of the vertex-centred scheme belong to the right parts of the element", "statement": "Interior integration points are the means of the corners of their face; each intersection on the boundary gives one segment per vertex with the intersection's normal, the area of the vertex's part and its mean as integration point, and together with the interior faces these segments close the sub-control volume; the local geometry of a sub-control volume has exactly the centres of the vertex, its edges, its faces and the element as corners, and is a regular map onto its part of the reference element for lines, quadrilaterals, hexahedra, tetrahedra and the second and third vertex of triangles. The geometry of the first vertex of a triangle is twisted, and the gradients at the centres reproduce linear functions on parallelograms only.", "quantifier": "every element of every supported shape with any corner positions, every list of intersections, every local position in the unit cube", "why_tests_cant": "the index tables must be right for each pair of face and vertex and for all positions at the same time; positivity of the integration element is a statement about a continuum of points", "anchors": ["opm/models/discretization/vcfv/vcfvstencil.hh: VcfvStencil::update, VcfvScvGeometries, updateScvGeometry, updateCenterGradients", "opm/models/utils/quadraturegeometries.hh: QuadrialteralQuadratureGeometry"]}
{"id": "C80", "title": "The distributed matrix holds, for each entry known in the overlap, the sum over all processes", "statement": "After a matrix was built from the native matrices of all processes and their values were added up, each process has an entry for exactly those pairs of its rows and columns for which some process has one, and the value is the sum of the values of all processes.", "quantifier": "every number of processes, every decomposition of vertices or elements with black-listed ghosts, every overlap size, every native matrix, every message order", "why_tests_cant": "The structure and each value depend on the cooperation of all processes; a test runs a few processes on one grid and sees one message order.", "anchors": ["opm/simulators/linalg/overlappingbcrsmatrix.hh: OverlappingBCRSMatrix, assignAdd, assignCopy, assignFromNative, syncAdd, syncCopy, build_, buildIndices_, numIndices_, receiveAddEntries_"]}
{"id": "C81", "title": "The parallel operator is the product with the global matrix", "statement": "Applied to a vector which agrees on all copies of a row, the operator gives on every process, for every row of its overlap, the value of this row of the global matrix times the global vector; the scaled variant adds it to what was there before.", "quantifier": "every number of processes, every decomposition with an overlap of at least one entry, every native matrix and vector, every scaling factor, every message order", "why_tests_cant": "A test compares one product on one decomposition; that the ghosts and copies agree on every decomposition needs the global argument.", "anchors": ["opm/simulators/linalg/overlappingoperator.hh: apply, applyscaleadd", "opm/simulators/linalg/overlappingbcrsmatrix.hh: assignAdd", "opm/simulators/linalg/overlappingblockvector.hh: sync, assignTo"]}
{"id": "C82", "title": "The extensions store what the cell holds", "statement": "With solvent, z-fraction, polymer, foam, salt or biogrout enabled, the storage term of each of their equations is the amount of the substance in the cell: what its carrying phase holds, what is adsorbed or solid, by the documented formula, up to a stated regularization; no other equation changes, and the derivatives are those of the value", "quantifier": "all combinations of extensions, cells and values", "why_tests_cant": "amounts depend on all combinations of enabled extensions and on limits at vanishing phases", "anchors": ["opm/models/blackoil/blackoilsolventmodules.hh: addStorage", "opm/models/blackoil/blackoilextbomodules.hh: addStorage", "opm/models/blackoil/blackoilpolymermodules.hh: addStorage", "opm/models/blackoil/blackoilfoammodules.hh: addStorage", "opm/models/blackoil/blackoilbrinemodules.hh: addStorage", "opm/models/blackoil/blackoilmicpmodules.hh: addStorage", "opm/models/blackoil/blackoillocalresidual.hh: computeStorage"]}
{"id": "C83", "title": "The extensions move their substances with the phases", "statement": "The flux of each substance of an extension through a face is the volume flux of its carrying phase times what the upstream cell holds per volume, seen from both sides it is opposite (nothing is created between two cells), other equations only change as documented, and the derivatives are those of the value", "quantifier": "all combinations of extensions, faces, flow directions and cells", "why_tests_cant": "the flux depends on flow directions of several phases and on which side is looked at", "anchors": ["opm/models/blackoil/blackoilsolventmodules.hh: computeFlux", "opm/models/blackoil/blackoilextbomodules.hh: computeFlux", "opm/models/blackoil/blackoilpolymermodules.hh: computeFlux", "opm/models/blackoil/blackoilfoammodules.hh: computeFlux", "opm/models/blackoil/blackoilbrinemodules.hh: computeFlux", "opm/models/blackoil/blackoilmicpmodules.hh: computeFlux", "opm/models/blackoil/blackoillocalresidual.hh: computeFlux"]}
{"id": "C84", "title": "Solvent flows from high to low potential", "statement": "The volume flux of the solvent is the transmissibility (or the permeability) times the mobility of the cell with the higher potential times the potential difference beyond the threshold pressure, directed to the lower potential, with one upstream cell for both sides and right derivatives", "quantifier": "all pairs of cells, depths, densities and threshold pressures", "why_tests_cant": "signs and ties must be right for every pair of states", "anchors": ["opm/models/blackoil/blackoilsolventmodules.hh: BlackOilSolventExtensiveQuantities::updateVolumeFluxTrans, updateVolumeFluxPerm"]}
{"id": "C85", "title": "Biogrout reactions conserve what they convert", "statement": "The sources of the calcite precipitation extension only convert: attachment and detachment move microbes between water and biofilm, oxygen is used in proportion to growth, calcite precipitates in proportion to used urea, neither oxygen nor urea is produced; the derivatives are those of the value", "quantifier": "all parameters, cells and faces", "why_tests_cant": "balances must hold for every state, not for sampled ones", "anchors": ["opm/models/blackoil/blackoilmicpmodules.hh: addSource"]}
{"id": "C86", "title": "Property lookup along type-tag hierarchies", "statement": "For every set of type tags, inheritance lists, splices and specializations: looking up a property for a tag ends exactly if the tags it inherits or splices in form no infinite chain; it succeeds exactly if one of those tags specializes the property and then yields the specialization of such a tag; the tag's own specialization wins, then the first in its own hierarchy in depth-first left-to-right order, and only then a splice; with single inheritance the nearest specialization wins; and declarations for tags which are not inherited or spliced in have no influence. A base tag's specialization can hide that of a tag derived from it in a diamond, and a tag which declares an empty inheritance list as the last of its hierarchy makes every lookup fail.", "quantifier": "all finite or infinite tag environments, tags and properties", "why_tests_cant": "tests instantiate a handful of concrete tag hierarchies; which specialization wins must hold for every hierarchy an application composes", "anchors": ["opm/models/utils/propertysystem.hh: GetPropImpl, GetSplicePropImpl, Detail::GetDefined, Detail::GetDefinedSplice, Detail::GetNextTypeTag"]}
{"id": "C87", "title": "The parallel linear solver does what the sequential one does", "statement": "When the parallel stabilised BiCG backend solves a linear system that is distributed over several processes, every schedule ends and all processes end in the same way. Either all of them report that the preconditioner could not be prepared, or all of them report that it failed, or they return what the sequential solver returns for the sum of the native matrices and right hand sides: the same verdict, the same number of iterations, and on each process the entries of the same global solution. A reported success bounds the residual of that global solution. The preconditioner used is the one which takes each row from the lowest process that has it. Processes without neighbours are excluded: one of them makes all others wait for ever.", "quantifier": "all numbers of processes, decompositions, overlap sizes, native matrices and right hand sides, preconditioners, tolerances, iteration limits and schedules", "why_tests_cant": "a test runs a few decompositions on a few processes with one MPI implementation; the claim is about every decomposition and every interleaving of messages and collective operations", "anchors": ["opm/simulators/linalg/parallelbasebackend.hh: prepare, setResidual, setMatrix, solve", "opm/simulators/linalg/parallelbicgstabbackend.hh: runSolver_", "opm/simulators/linalg/bicgstabsolver.hh: apply", "opm/simulators/linalg/overlappingpreconditioner.hh: pre, apply, post", "opm/simulators/linalg/overlappingscalarproduct.hh: dot", "opm/simulators/linalg/combinedcriterion.hh: updateErrors_"]}
{"id": "C88", "title": "Mixing with solvent stays between the pure fluids", "statement": "Where the solvent is miscible with the hydrocarbons, the viscosities and densities which the black-oil model uses lie between those of the pure fluids: the viscosity of oil (gas) between its own and that of the solvent, the viscosity of the solvent and all densities in the range of the active fluids; without mixing nothing changes, and fully mixed the solvent has the mean density of the mobile fluids and the viscosity of the quarter-power rule.", "quantifier": "all saturations, residual saturations, viscosities, densities, formation volume factors, dissolution factors, mixing parameters and degrees of miscibility, with and without oil and water", "why_tests_cant": "A test compares one mixture with stored numbers; the range must hold for every composition, including the boundaries where a fluid vanishes or two viscosities agree.", "anchors": ["opm/models/blackoil/blackoilsolventmodules.hh: BlackOilSolventIntensiveQuantities::solventPvtUpdate_, effectiveProperties"]}
{"id": "C89", "title": "Polymer thickens the water", "statement": "Polymer never makes water more mobile: for concentrations up to the given maximum the mobility of water is positive, at most that of pure water and does not grow with the concentration, and polymer is not faster than water; the shear factor is the multiplier of the table at the velocity which results from shearing the water velocity by it.", "quantifier": "all concentrations, viscosity tables, mixing parameters, adsorption tables and histories, shear tables and velocities", "why_tests_cant": "The bounds and the monotonicity are statements about a continuum of concentrations; whether the inner iteration finds the sheared velocity depends on the table.", "anchors": ["opm/models/blackoil/blackoilpolymermodules.hh: BlackOilPolymerIntensiveQuantities::polymerPropertiesUpdate_, BlackOilPolymerModule::computeShearFactor, BlackOilPolymerExtensiveQuantities::updateShearMultipliers"]}
{"id": "C90", "title": "Relative permeabilities with solvent, biogrout and salt", "statement": "With solvent the relative permeabilities of oil, gas and solvent stay between zero and the maximum of the tables, and without miscibility gas and solvent share the one of gas; biogrout lowers the permeability, never below the given minimum; the salt concentration is the one of the primary variable or the solubility where salt has precipitated.", "quantifier": "all saturations, end points, tables with values between zero and one, porosities, parameters and meanings of the primary variables", "why_tests_cant": "Tables are extrapolated outside of their range; whether that happens depends on combinations of residual saturations that a test does not enumerate.", "anchors": ["opm/models/blackoil/blackoilsolventmodules.hh: BlackOilSolventIntensiveQuantities::solventPostSatFuncUpdate_", "opm/models/blackoil/blackoilmicpmodules.hh: BlackOilMICPIntensiveQuantities::MICPPropertiesUpdate_", "opm/models/blackoil/blackoilbrinemodules.hh: BlackOilBrineIntensiveQuantities::updateSaltConcentration_"]}
{"id": "C91", "title": "VTK fields show the quantity their name says", "statement": "For every model, every choice of output parameters and every order in which threads visit the elements, each selected field is in the output under the documented name, and at every corner of every element of the process it shows the value of that quantity at the degree of freedom which belongs to the element or the corner (zero where the quantity does not apply), never something left from an earlier output; nothing else is in the output, and total mass and mole fractions are fractions which sum up to one.", "quantifier": "all models and combinations of modules, parameters, grids with degrees of freedom on elements or vertices, partitions, values, earlier buffer contents and orders of the element loop", "why_tests_cant": "a test compares a few files of a few runs; the correspondence must hold for every grid, partition, selection and thread schedule", "anchors": ["opm/models/io/baseoutputmodule.hh: resizeScalarBuffer_, resizePhaseBuffer_, commitScalarBuffer_, commitPhaseBuffer_, commitTensorBuffer_", "opm/models/io/vtkscalarfunction.hh: evaluate", "opm/models/io/vtkmultiphasemodule.hh: processElement, commitBuffers", "opm/models/io/vtkcompositionmodule.hh: processElement", "opm/models/discretization/common/fvbasediscretization.hh: prepareOutputFields, appendOutputFields"]}
{"id": "C92", "title": "Velocities and gradients in the output are means over the faces", "statement": "The filter velocity shown at a degree of freedom is a mean with positive weights of the velocities at the faces which touch it, the potential gradient one of the gradients at its faces; both exist wherever there is such a face, stay in the range of the values at the faces and do not depend on the order or the threads that visit the faces.", "quantifier": "all lists of faces, fluxes, velocities, gradients, extrusion factors, dimensions, element shapes and interleavings of two threads", "why_tests_cant": "means and races depend on every face list and schedule, a test sees one", "anchors": ["opm/models/io/vtkmultiphasemodule.hh: processElement, commitBuffers, needExtensiveQuantities", "opm/models/discretization/vcfv/vcfvstencil.hh: update"]}
{"id": "C93", "title": "Fracture output shows the fractures", "statement": "The fracture volume fraction shown at a vertex is the part of its volume taken by fractures, and the fracture velocity is a mean of the velocities along the fracture edges which meet there, zero away from fractures, whatever other output is selected.", "quantifier": "all numbers of phases, grids, fracture vertices, volumes, faces and parameters", "why_tests_cant": "the factor depends on the number of phases and the velocity on which other parameters are set; a test fixes both", "anchors": ["opm/models/io/vtkdiscretefracturemodule.hh: processElement, commitBuffers"]}
{"id": "C94", "title": "Output parameters select fields with distinct names", "statement": "Each output parameter a module offers adds exactly its fields, and all fields of one output have different names, so that no field hides another in the file.", "quantifier": "all models, combinations of modules, parameters and names of phases, components and primary variables", "why_tests_cant": "tests select a few fields; a clash appears only for certain combinations of modules and parameters", "anchors": ["opm/models/io/vtkdiffusionmodule.hh: commitBuffers", "opm/models/io/vtkblackoilpolymermodule.hh: registerParameters, waterViscosityCorrectionOutput_", "opm/models/io/baseoutputmodule.hh: commitPhaseComponentBuffer_"]}
{"id": "C95", "title": "Forchheimer velocity: well posed, bounded by Darcy's, and what is returned is close to it", "statement": "For every face (any dimension, non-negative mobility, density, passability ratio and Ergun coefficient, positive diagonal permeability) the Forchheimer relation of the manual has exactly one velocity. Each of its components has the sign of Darcy's velocity and is not larger, and is smaller where there is turbulence and flow. Whatever velocity the flux module returns is within a bound of about 8e-11 (times the square root of the dimension and of the anisotropy) of it. Without turbulence it returns Darcy's velocity exactly.", "quantifier": "all faces, fluids, permeabilities and dimensions; every linear solver that solves", "why_tests_cant": "the relation is non-linear, solved by an iteration with an inexact and transposed Jacobian; tests compare a few fluxes", "anchors": ["opm/models/common/forchheimerfluxmodule.hh: calculateForchheimerFlux_, forchheimerResid_, gradForchheimerResid_"]}
{"id": "C96", "title": "The Forchheimer iteration finds the velocity", "statement": "In one dimension the iteration of the flux module ends with a velocity within 50 iterations for every flow with a Darcy velocity of up to 2.5 mm/s, of up to 1000 m/s if the quadratic term is at most twice the linear one, and of up to 1000 m/s against the direction of the coordinate. It does not always: there are flows for which the velocity exists and the exception is thrown, and whose mirror image is computed.", "quantifier": "all one-dimensional faces, fluids and potential gradients in the stated range", "why_tests_cant": "convergence within a fixed number of iterations for all inputs; the difference quotients use steps of the size of the velocity for positive components only", "anchors": ["opm/models/common/forchheimerfluxmodule.hh: calculateForchheimerFlux_, gradForchheimerResid_"]}
{"id": "C97", "title": "Forchheimer fluxes over faces", "statement": "The volume flux of each considered phase over a face is the flux of the Forchheimer velocity, up to the tolerance times the area, and zero for the other phases. In isotropic rock, mobility, density and passability are those of the side the phase comes from, and the Ergun coefficient is the mean of both sides. The two sides of a face compute opposite fluxes. A phase that leaves over the boundary has the properties of the inside; an entering one is treated with the density and passability of the inside.", "quantifier": "all faces, phases and pairs of control volumes", "why_tests_cant": "upwinding must agree with the sign of a flux that is computed later from a non-linear equation", "anchors": ["opm/models/common/forchheimerfluxmodule.hh: calculateGradients_, calculateBoundaryGradients_, calculateFluxes_, calculateBoundaryFluxes_", "opm/models/common/darcyfluxmodule.hh: calculateGradients_, calculateBoundaryGradients_"]}
{"id": "C98", "title": "Marks for grid adaptation", "statement": "Markers compare, in every element, the largest and the smallest saturation of a phase over the element and its neighbours: the phase asks for refinement if they differ by more than a fifth of their mean and the level is below two, for coarsening if by less than a fortieth. The mark of the element is what its last phase asks for; no wish for refinement is lost if the last of two phases is the scarcer one. All processes get the same number, which is at least the number of marked elements, so an adaptation is never missed.", "quantifier": "all elements, numbers of phases, saturations, partitions over processes", "why_tests_cant": "a test has one front and one fluid pair; the effect of the order of the phases depends on all saturation pairs", "anchors": ["opm/models/common/multiphasebaseproblem.hh: markForGridAdaptation"]}
{"id": "C99", "title": "Data under grid adaptation", "statement": "When the grid is adapted, every leaf element ends with the data of exactly one former leaf: its own, that of the leaf it was cut from, or that of the first of the children it replaces. No values are invented, refinement keeps all volume integrals of the data, and refining elements and coarsening them again restores grid and data.", "quantifier": "all hierarchies of elements, marks, numbers of children, kinds of data", "why_tests_cant": "the walk over hierarchies of any depth with any marks; overwriting depends on the order of the calls", "anchors": ["opm/models/discretization/common/restrictprolong.hh: CopyRestrictProlong", "opm/models/discretization/common/fvbasediscretizationfemadapt.hh: adaptGrid"]}
{"id": "C100", "title": "Adaptive runs", "statement": "Over any number of adaptations the elements never get finer than level two or the initial grid, the elements of level zero stay and the leaves fill the domain. If nothing is marked the grid is left alone and adapting it would not change it; otherwise exactly the leaves with a mark for refinement are cut and exactly the elements all children of which are leaves marked for coarsening become leaves.", "quantifier": "all sequences of adaptations, all saturations at each of them, all orders of the elements", "why_tests_cant": "histories of any length with arbitrary solutions", "anchors": ["opm/models/common/multiphasebaseproblem.hh: markForGridAdaptation", "opm/models/discretization/common/fvbasediscretizationfemadapt.hh: adaptGrid"]}
{"id": "C101", "title": "Prefetch friendly vectors give back what was distributed", "statement": "After PffGridVector::update, get for an element and a local degree of freedom gives what the distribution function made for exactly them, from data of the vector itself. This holds for the first update and for later ones with another number of elements or degrees of freedom, and another vector with its own data keeps its values. The update is defined exactly if the grid has a degree of freedom. A copy of a vector is one of its own only after its own update: before, its pointers are those of the original, so that it follows updates of the original and dangles when the original is gone. A degree of freedom the element does not have is not noticed.", "quantifier": "all element numberings and stencil sizes, data types, distribution functions, heaps and earlier states of the vector", "why_tests_cant": "Whether pointers stay valid depends on when vectors grow and on the life times of copies; a test reads what happens to be in memory.", "anchors": ["opm/models/utils/pffgridvector.hh: PffGridVector::update", "opm/models/utils/pffgridvector.hh: PffGridVector::get"]}
{"id": "C102", "title": "Fracture volumes", "statement": "The intensive quantities of a sub-control volume attribute to it a quarter of width times length of each fracture edge of its element that ends at its vertex, whatever the object held before. So both ends of an edge get the same share, and summed over the grid each edge counts half of width times length for every element next to it: the full volume exactly for fractures with elements on both sides. A fracture on the boundary of the domain gets only half of its volume.", "quantifier": "all grids of elements with distinct corners, sets of fracture edges added in any order and orientation, symmetric widths and lengths, primary variables and previous contents of the objects", "why_tests_cant": "The volume is spread over sub-control volumes of different elements; that the shares add up is a statement about all grids and fracture networks.", "anchors": ["opm/models/discretefracture/discretefractureintensivequantities.hh: DiscreteFractureIntensiveQuantities::update", "opm/models/discretefracture/fracturemapper.hh: FractureMapper"]}
{"id": "C103", "title": "State of the fluids in fractures", "statement": "At a vertex with fractures the saturations sum up to one both in matrix and fracture; the wetting saturation is at most one in the matrix and not negative in the fracture and is the one asked for whenever it respects that limit; pressures and viscosities are those of the matrix, and mobility belongs to the saturations in the fracture. Nothing there depends on the previous content of the object, and fluxes use fracture quantities only where they are fresh. Away from fractures the matrix is as in the immiscible model and the fracture volume is zero. The other limits are not enforced: a negative wetting saturation stays in the matrix, whose mobility is moreover that of the saturation before it was limited.", "quantifier": "all material laws, primary variables, elements, vertices, fracture networks and previous contents", "why_tests_cant": "Objects are reused for other elements and steps, so stale values show only for some histories; the laws are chosen by the user.", "anchors": ["opm/models/discretefracture/discretefractureintensivequantities.hh: DiscreteFractureIntensiveQuantities::update", "opm/models/immiscible/immiscibleintensivequantities.hh: ImmiscibleIntensiveQuantities::update"]}
{"id": "C104", "title": "Convergence output of the Newton method", "statement": "With NewtonWriteConvergence every update the Newton method computes is written exactly once and in order, with the solution it is for, also the update that makes the method fail and whether or not the method ends regularly; nothing stays half written, and there is no file without an update or if it is switched off. The label is the number of the call plus a hundredth per iteration: labels increase strictly as long as no call has more than 100 iterations, and the 101st iteration shares its label with the first one of the next call. The whole part counts calls of the method, failed ones included, not time steps.", "quantifier": "all sequences of calls of the Newton method, numbers of iterations, kinds of failures, updates and update rules", "why_tests_cant": "The collection depends on the whole history of failed and successful calls; a test sees one history.", "anchors": ["opm/models/discretization/common/fvbasenewtonconvergencewriter.hh: FvBaseNewtonConvergenceWriter", "opm/models/nonlinear/newtonmethod.hh: NewtonMethod::writeConvergence_", "opm/models/io/vtkmultiwriter.hh: VtkMultiWriter::beginWrite"]}
{"id": "C105", "title": "Black-oil densities weigh what the storage term stores", "statement": "In every cell the mass of the fluids computed from the reported phase densities (saturation times density times porosity) equals the mass of the components in the storage term of the conservation equations: the stored surface volumes times the reference densities, or the stored masses themselves, for every combination of phases, dissolved gas in oil or water, vaporized oil or water; with the extended black-oil module the fraction z counts with its own density.", "quantifier": "all configurations of phases and dissolution, fluid systems, tables, primary variables, fluid states and cell data", "why_tests_cant": "the configurations multiply and a forgotten term shows up only with one of them and for dissolved ratios which are not zero", "anchors": ["opm/models/blackoil/blackoilintensivequantities.hh: update", "opm/models/blackoil/blackoilextbomodules.hh: zPvtUpdate_", "opm/models/blackoil/blackoillocalresidual.hh: computeStorage"]}
{"id": "C106", "title": "Black-oil mobilities and dissolution of a cell", "statement": "The mobility of a phase, undirected or towards a face, is its relative permeability (that of the direction) divided exactly once by the viscosity of the phase at its final composition; the access fails only for a direction which is none; dissolved and vaporized amounts are the primary variable or else the saturated values cut off at the limits of the problem.", "quantifier": "all configurations, fluid systems, primary variables, relative permeabilities with and without directions, and directions", "why_tests_cant": "the loop divides arrays in place, so that a second division or a missed array is only visible for viscosities other than 1 and anisotropic permeabilities", "anchors": ["opm/models/blackoil/blackoilintensivequantities.hh: update, mobility", "opm/models/common/directionalmobility.hh: DirectionalMobility"]}
{"id": "C107", "title": "Phase changes of the extended black-oil model are continuous", "statement": "When the primary variable of a cell is switched from the gas saturation to the dissolved gas (or the vaporized oil) exactly at saturation, the amount dissolved, the formation volume, the density and the share of the fraction z of the oil (gas) phase do not jump.", "quantifier": "all tables whose bubble point inverts the dissolution, pressures, fractions z, cells and further settings", "why_tests_cant": "needs the exact boundary between two branches for every table and pressure", "anchors": ["opm/models/blackoil/blackoilextbomodules.hh: zFractionUpdate_, zPvtUpdate_"]}
{"id": "C108", "title": "Porosity follows the pressure of the rock", "statement": "With a rock compressibility the porosity stays positive at every pressure (at least half of the porosity given remains) and does not decrease with the pressure of the oil, or else of the water or gas; the salt which precipitates reduces it proportionally.", "quantifier": "all pressures, compressibilities, reference pressures, porosities, multipliers and configurations", "why_tests_cant": "an inequality over all pressures, also those far from the reference pressure", "anchors": ["opm/models/blackoil/blackoilintensivequantities.hh: update"]}
{"id": "C109", "title": "Extension modules and mobilities", "statement": "Polymer, foam, MICP and precipitated salt change the mobilities of a black-oil cell by their factors, each exactly once and only for the phases they concern (foam for its transport phase), and the flow over every face uses the changed mobilities; the update fails exactly for settings of foam which are not supported.", "quantifier": "all combinations of modules, foam parameters and tables, regions, mobilities with and without directions, faces", "why_tests_cant": "combinations of modules with directional mobilities are not run by any test, and factors of 1 hide missing and double multiplications", "anchors": ["opm/models/blackoil/blackoilfoammodules.hh: foamPropertiesUpdate_", "opm/models/blackoil/blackoilpolymermodules.hh: polymerPropertiesUpdate_", "opm/models/blackoil/blackoilbrinemodules.hh: saltPropertiesUpdate_", "opm/models/blackoil/blackoilmicpmodules.hh: MICPPropertiesUpdate_", "opm/models/blackoil/blackoillocalresidualtpfa.hh: calculateFluxes_"]}
{"id": "C110", "title": "Tables of the extended black-oil module", "statement": "For every value of the component z in PVTSOL, the tables of formation volumes, solubilities, viscosities and volatile fractions hold exactly the rows up to which the formation volume of oil grows, and the first row of constant formation volume after them. The table of bubble points inverts that of dissolved gas on the pressures of these rows. The largest z of oil is the last one at which the formation volume falls, 0.7 without any, and the compressibility of oil there is the negative tabulated slope; the compressibility of gas is the tabulated slope, too.", "quantifier": "all tables, with any number of columns and rows of positive formation volume; for bubble points and slopes, with increasing pressures", "why_tests_cant": "The tables come from the user; a test reads one or two decks, where the ends of the columns, repeated values and single rows do not all occur.", "anchors": ["opm/models/blackoil/blackoilextbomodules.hh: initFromState"]}
{"id": "C111", "title": "Initialization of polymer and foam from the deck", "statement": "A polymer or foam run starts for exactly the decks which ask for the features compiled in and give all the keywords these need, with a record for each region; then every saturation, PVT and mixing region has the records which the deck gives for it. Every other deck ends in an error which names something that is wrong with it, and never in an access behind the end of a table.", "quantifier": "all decks: phases, numbers of regions and numbers of records of each keyword, with and without tracking of molecular weights", "why_tests_cant": "The combinations of phases, keywords and record counts are unbounded; tests run a few complete decks and not those where one keyword is missing or too short.", "anchors": ["opm/models/blackoil/blackoilpolymermodules.hh: initFromState", "opm/models/blackoil/blackoilfoammodules.hh: initFromState", "opm/models/blackoil/blackoilpolymerparams.hh: setNumSatRegions, setNumMixRegions"]}
{"id": "C112", "title": "Initialization of brine from the deck", "statement": "A brine run starts for exactly the decks which contain BRINE when it is compiled in and whose tables fit the numbers of regions; it is refused with an error for exactly the decks which disagree with what is compiled in. Then every region has the densities, salt solubilities, permeability factors and capillary pressure factors which the deck gives for it. No deck leads to an access behind the end of a container.", "quantifier": "all decks: numbers of regions and of tables of PVTWSALT, BDENSITY, PERMFACT, SALTSOL and PCFACT, with and without salt precipitation", "why_tests_cant": "The counts of regions and tables are unbounded and independent of each other; tests use complete decks with one region.", "anchors": ["opm/models/blackoil/blackoilbrinemodules.hh: initFromState"]}
{"id": "C113", "title": "Initialization of solvent from the deck", "statement": "A solvent run starts for exactly the decks which ask for the solvent compiled in, not for CO2 and hydrogen at once, and give the tables it needs: SSFN for each saturation region and, in miscible runs, MISC, TLMIXPAR and with oil SOF2. Then every region has the tables of the deck or, for keywords left out, the default, and a defaulted TLPMIXPA those of PMISC. Errors name something which is wrong with the deck.", "quantifier": "all decks: the options, the number of saturation regions and the numbers of tables of nine keywords", "why_tests_cant": "The combinations of options, missing keywords and counts of tables are unbounded; tests use a few complete decks.", "anchors": ["opm/models/blackoil/blackoilsolventmodules.hh: initFromState"]}
{"id": "C114", "title": "Parameters and limits of biogrout", "statement": "A run with calcite precipitation starts for exactly the decks which ask for what is compiled in, and each of its parameters is then the one of the deck. After each Newton update the microbes, oxygen, urea, biofilm and calcite of a cell lie within the limits of the deck, values within them are not changed, and biofilm and calcite leave the pore space which the deck asks for; the check for clogging reports exactly the cells in which they do not.", "quantifier": "all decks, cells, proposed values of the five variables and parameters before the call", "why_tests_cant": "There are seventeen parameters passed by position, and proposed values are arbitrary numbers; tests use one deck whose limits are seldom reached.", "anchors": ["opm/models/blackoil/blackoilmicpmodules.hh: initFromState, setMICPpara, checkCloggingMICP", "opm/models/blackoil/blackoilnewtonmethod.hh: updatePrimaryVariables_"]}
