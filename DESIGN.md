# Formal model of OPM/opm-models in Rocq (Coq 8.16.1)

## 1. Approach

The C++ templates are read as text; nothing is built or run. For every modelled part there are up to four files in
`rocq/theories`:

* `XModel.v`: small, total, computable Gallina functions; every definition cites file and lines in `/repo`, and says
  where it simplifies.
* `XSpec.v`: the vocabulary of the property, independent of the model's helper functions.
* `XProofs.v`: lemmas.
* `XProps.v`: the property theorems `CNN_...`, each followed by `Print Assumptions`, and `Example`s which show that the
  hypotheses are met by concrete non-trivial cases.

Conventions.

* Numbers: exact rationals `Q` (`Num.v` adds infinities and a NaN where they matter, `FloatTextModel.v` decimal
  printing and reading). Rounding is not modelled unless the comment says so. Fixed-width integers are modelled where
  the property depends on them (`unsigned short` face indices, byte counts, `int` lengths).
* Concurrency: small-step transition systems; one step per mutex-protected region or per MPI operation. Theorems
  quantify over all schedules and all numbers of threads or processes.
* Undefined behaviour, exceptions, hanging and aborting are distinct outcomes of the model.
* Externals (fluid systems, material laws, grids, linear operators, DUNE, MPI transport) are arguments or section
  variables, so the theorems hold for all of them; hypotheses about them are written in the theorems.
* A property which the code violates stays in the list as a user would state it. The violation is a theorem
  (`..._refuted`, with a witness), and the true part is proved (`..._partial` if something is missing from the English
  statement). Findings are collected in section 6.

## 2. The properties

For each property: what is modelled (M), how it is proved (P), and what came out (R). The theorems carry the
property's number and are listed in MANIFEST.json. `proved`: the English statement holds of the model in full.
`partial`: the theorems say exactly which part holds; a `_refuted` theorem shows that the rest is false of the code
(most cases) or a `_partial` one that it is not proved.

* **C01 Every dispatched tasklet runs exactly as often as requested** (proved). M: `TaskletRunner` (TaskletModel): queue with reference counts, worker threads, a main program of dispatch, barrier and destruction; one step per mutex-protected region. P: labelled transition system; an inductive invariant over all reachable states and schedules; progress and a decreasing measure for termination.
* **C02 A barrier returns only after everything dispatched before it has finished** (proved). M: `TaskletRunner` (TaskletModel): queue with reference counts, worker threads, a main program of dispatch, barrier and destruction; one step per mutex-protected region. P: labelled transition system; an inductive invariant over all reachable states and schedules; progress and a decreasing measure for termination.
* **C03 The tasklet runner never deadlocks** (proved). M: `TaskletRunner` (TaskletModel): queue with reference counts, worker threads, a main program of dispatch, barrier and destruction; one step per mutex-protected region. P: labelled transition system; an inductive invariant over all reachable states and schedules; progress and a decreasing measure for termination.
* **C04 Tasklet failures are recorded and contained** (proved). M: `TaskletRunner` (TaskletModel): queue with reference counts, worker threads, a main program of dispatch, barrier and destruction; one step per mutex-protected region. P: labelled transition system; an inductive invariant over all reachable states and schedules; progress and a decreasing measure for termination.
* **C05 Synchronous and threaded runners agree on the number of executions for every invocation count** (partial). M: `TaskletRunner` (TaskletModel): queue with reference counts, worker threads, a main program of dispatch, barrier and destruction; one step per mutex-protected region. P: labelled transition system; an inductive invariant over all reachable states and schedules; progress and a decreasing measure for termination. R: Refuted for a count of 0: the worker threads run such a tasklet again and again while the synchronous mode does not run it. Proved for positive counts.
* **C06 Worker threads unlock the task queue exactly once per lock** (partial). M: `TaskletRunner` (TaskletModel): queue with reference counts, worker threads, a main program of dispatch, barrier and destruction; one step per mutex-protected region. P: labelled transition system; an inductive invariant over all reachable states and schedules; progress and a decreasing measure for termination. R: Refuted: when the end marker is found the worker unlocks the mutex explicitly and the lock object's destructor unlocks it again (std::unique_lock would track it; here release is called on the mutex itself). Proved: no other violation.
* **C07 Threaded iteration visits every entity exactly once** (proved). M: the shared iterator (ParLoopModel), any number of threads. P: invariant: handed-out entities are a prefix of the entity list, each owned by one thread; measure for termination.
* **C08 Command line options are parsed exactly** (proved). M: lexer and command line loop of the parameter system on character lists (ParamModel). P: inversion of the parser against an independent grammar of options; injectivity of the transformation of names.
* **C09 The option name shown in the help is the one that sets the parameter** (proved). M: lexer and command line loop of the parameter system on character lists (ParamModel). P: inversion of the parser against an independent grammar of options; injectivity of the transformation of names.
* **C10 Parameter files are read exactly and malformed lines are reported** (partial). M: the parameter file parser (ParamModel). P: the same grammar technique for lines; malformed lines refuted by witnesses. R: Refuted: three syntax errors construct an exception object without throwing it, so malformed lines are accepted. Proved: well formed files are read exactly; form of all accepted lines.
* **C11 Parameter lookup follows the documented precedence** (partial). M: registry and key/value tree as an operation machine (ParRegModel). P: invariant over histories; refinement to a three-layer look-up. R: Refuted for unchecked look-ups of unregistered parameters: Get(false) inserts an empty registry entry. Proved for all histories whose look-ups are checked and whose files do not override.
* **C12 Line breaking of help text loses nothing** (partial). M: `breakLines_` with its position counters (ParamModel). P: induction on the text, measure for termination. R: Refuted for texts with line breaks: after a line break a visible character can be dropped. Proved: termination for all texts; nothing lost and all lines short enough for texts without line breaks; texts that fit are unchanged.
* **C13 Simulation time, step index and call-backs stay consistent** (partial). M: `Simulator::run` as a function emitting a trace of call-backs, for every problem given as an oracle (SimLoopModel), exact arithmetic. P: induction over the iterations: trace grammar, accounting, bound on the number of steps; witnesses computed by `vm_compute`. R: Proved: accounting of time and index for every problem and every prefix of the run; order of the calls as a grammar, also with exceptions. Refuted: a run that ends inside an episode returns without endEpisode.
* **C14 The simulator never steps over the end of the simulation or of an episode** (proved). M: `Simulator::run` as a function emitting a trace of call-backs, for every problem given as an oracle (SimLoopModel), exact arithmetic. P: induction over the iterations: trace grammar, accounting, bound on the number of steps; witnesses computed by `vm_compute`. R: Exact arithmetic (no rounding).
* **C15 The simulation loop terminates** (proved). M: `Simulator::run` as a function emitting a trace of call-backs, for every problem given as an oracle (SimLoopModel), exact arithmetic. P: induction over the iterations: trace grammar, accounting, bound on the number of steps; witnesses computed by `vm_compute`. R: Exact arithmetic. Bound: (max(0,E) - t0)/delta + 1 iterations.
* **C16 Predetermined time step files are read exactly** (partial). M: the extraction loop of the constructor on characters, with the stream's state bits (StepFileModel). P: induction on the text; divergence shown by a loop invariant. R: Refuted: white space at the end of the file adds an uninitialised value; junk or a missing file makes the loop run for ever. Proved: files ending directly after the last number are read exactly.
* **C17 Retrying a failed time step halves it down to the minimum and gives up cleanly** (proved). M: `timeIntegration`, `nextTimeStepSize` (TimeIntegModel) over Q. P: induction on the attempts; linear arithmetic.
* **C18 The suggested next time step respects the user's maximum** (partial). M: `timeIntegration`, `nextTimeStepSize` (TimeIntegModel) over Q. P: induction on the attempts; linear arithmetic. R: Refuted: exceeded by up to 1 per cent when the rest of the episode is split in two. Proved: never by more, and not at all otherwise.
* **C19 Newton success means convergence** (proved). M: `NewtonMethod::apply` with arbitrary problem oracles (NewtonModel); numbers with infinities and NaN (Num). P: induction over the iterations; logarithmic bound; exact acceptance condition. R: If only one iteration is done, the error tested belongs to the initial solution and not to the one left behind; the theorem says so.
* **C20 Newton iterations are bounded** (proved). M: `NewtonMethod::apply` with arbitrary problem oracles (NewtonModel); numbers with infinities and NaN (Num). P: induction over the iterations; logarithmic bound; exact acceptance condition. R: Bound stated for a positive tolerance and a finite largest admissible error; the count in excess of max(2, limit) is bounded by log4(maxError/tolerance).
* **C21 A NaN residual is never accepted as converged** (partial). M: `NewtonMethod::apply` with arbitrary problem oracles (NewtonModel); numbers with infinities and NaN (Num). P: induction over the iterations; logarithmic bound; exact acceptance condition. R: Refuted as stated: std::max(|r|, error) forgets a NaN as soon as a number follows. The partial theorem says exactly which residuals are accepted; non-finite updates are always refused.
* **C22 The Newton time step controller is monotone and bounded** (proved). M: `NewtonMethod::apply` with arbitrary problem oracles (NewtonModel); numbers with infinities and NaN (Num). P: induction over the iterations; logarithmic bound; exact acceptance condition.
* **C23 A failed update restores the previous solution** (proved). M: solutions per time level, cache and validity flags as an operation machine (CacheModel). P: invariant over all histories; witnesses for the refuted parts.
* **C24 Cached intensive quantities always match the solution** (partial). M: solutions per time level, cache and validity flags as an operation machine (CacheModel). P: invariant over all histories; witnesses for the refuted parts. R: Refuted as stated by three histories (residual of another solution, old level read with the storage cache on, PVS switching after an iteration without update); the partial theorem covers all other histories for two time levels.
* **C25 Advancing the time level keeps the history in order** (partial). M: solutions per time level, cache and validity flags as an operation machine (CacheModel). P: invariant over all histories; witnesses for the refuted parts. R: True for two time levels (the only number used by the project); refuted for more: solutions of level two and above are not shifted, cached quantities collapse to level 0.
* **C26 Auxiliary modules own disjoint, contiguous degree of freedom ranges** (proved). M: list of auxiliary modules and their offsets (AuxDofModel). P: induction over histories.
* **C27 A restart file restores exactly what was written** (partial). M: restart files as texts, with printing and reading of decimal numbers (RestartModel, FloatTextModel). P: round trip by induction on the data; a bound on the error of decimal printing. R: Round trip of simulator, writer and solution data through the text file (numbers printed with 20 digits and read back), for every model except black oil with two or more extension variables, where it is refuted (values are written without separators). Truncation before the last line is rejected; truncation inside the last line is refuted. Files of another grid, rank or number of processes are rejected.
* **C28 Distinct simulation states get distinct restart files** (partial). M: restart files as texts, with printing and reading of decimal numbers (RestartModel, FloatTextModel). P: round trip by induction on the data; a bound on the error of decimal printing. R: File names of different ranks or of times differing by more than 1e-5 relative are different; refuted in general because the time has six digits.
* **C29 Simulator restart round trip** (partial). M: the saved members of the simulator (ResumeModel on SimLoopModel). P: comparison of the continued with the uninterrupted run. R: The six saved quantities are restored; continuation equals the original run if step size and episode flag agree. Refuted: the step size is not saved; beginEpisode is not called again after a restart at an episode boundary.
* **C30 The visualization collection file is complete and well formed after every write** (partial). M: the collection file as a character list with a write position, write tasks in a queue (PvdModel). P: invariant over histories and schedules. R: Synchronous output: complete after every write, after the end and across restarts. Asynchronous output: complete at the end if no write task overlaps the writing of the closing tags; refuted otherwise (entry lost), and refuted between writes (closing tags overwritten).
* **C31 Gathering strings over processes loses nothing** (proved). M: gatherStrings and the agreement on exceptions on top of a model of MPI (MpiModel, GatherModel): channels that may or may not buffer, collectives. P: all schedules: confluence and progress of the message system; explicit final states. R: Theorem about every schedule and any number of processes, in the MPI model of MpiModel.v (channels may or may not buffer): the gathered text is the concatenation, in rank order, of the lines of the ranks whose text is not empty. The exact lengths and displacements are part of the model (4-byte integers through the size exchange).
* **C32 All processes agree on whether an exception occurred** (partial). M: gatherStrings and the agreement on exceptions on top of a model of MPI (MpiModel, GatherModel): channels that may or may not buffer, collectives. P: all schedules: confluence and progress of the message system; explicit final states. R: The agreement theorem holds for errors reported through std::exception with non-empty text when every process reaches the same check; refuted (with witnesses) for exceptions outside that class (non-std exceptions leave the other ranks hanging), for empty what() with a single process, and for the preconditioner's agreement when a process has no peers.
* **C33 Boundary data exchange computes sum, maximum or minimum over all copies** (proved). M: communication handles and border lists over any distributed grid (CommModel). P: induction over entities and messages. R: For every grid, every order of entities and messages, exact arithmetic for the sum (with floating point numbers the order of the additions matters). DUNE's communication itself is modelled after its contract: the common entities of the interface, the same order on both sides, gather before scatter.
* **C34 Global indices are a bijection** (partial). M: the protocol of GlobalIndices (GlobalIndexModel on MpiModel). P: invariant over all schedules; bijection by counting. R: Proved for every number of processes and every schedule, whatever MPI buffers, for the master assignment the code makes (lowest rank). C34_other_masters_can_deadlock_refuted shows that the protocol would deadlock without buffering for other consistent master assignments; the code never produces them.
* **C35 The overlap contains exactly the rows within the requested distance** (partial). M: foreign overlap: breadth-first growth with exchange of border lists (ForeignModel, ExchangeModel). P: invariant of the breadth-first search; distances characterised by paths. R: proved for every matrix graph, border list and schedule, given that black-listed rows come last (for common rows) and that the requested size is at least the distance of the border list; without these premises the claim is false (refutation theorems)
* **C36 Overlapping vector synchronisation agrees with the sequential vector** (partial). M: domestic overlap, black list, overlapping vectors and scalar product, end to end from the matrix graph (DomesticModel, PipelineModel, VectorModel). P: composition of the protocol theorems; sums over processes. R: sync: every copy gets the master's value, for every system and schedule, also end to end from matrix graphs, border lists and black lists. syncAdd after assignAddBorder: every copy is the sum over all processes which have the row. The general claim for syncAdd (copies become equal) is refuted: values of copies outside interior and border are not sent; with floating point numbers the order of the additions differs between the processes.
* **C37 The overlapping scalar product counts every degree of freedom once** (proved). M: domestic overlap, black list, overlapping vectors and scalar product, end to end from the matrix graph (DomesticModel, PipelineModel, VectorModel). P: composition of the protocol theorems; sums over processes. R: For exact arithmetic, end to end from the matrix to the number which every process gets.
* **C38 The BiCGStab solver returns only true solutions** (partial). M: the solver over any vector space, operator and preconditioner (BiCGModel). P: loop invariant over Q-vector space laws; counterexamples computed. R: Proved for every linear operator, scalar product, preconditioner, right hand side and criterion that judges the residual only; instantiated for the combined criterion. Refuted: the residual handed to the criterion after a full step is the true one; an exactly solved system counts as success (it ends with failure or with a breakdown exception). Exact arithmetic.
* **C39 Convergence criteria never accept NaN residuals and report failure consistently** (partial). M: the four convergence criteria with NaN (BiCGModel, Num). P: exact acceptance conditions by induction over the residual and over the history of updates. R: Exact acceptance conditions for the combined, weighted and fix point criteria on data free of NaN, all processes. Refuted: NaN is rejected (combined, weighted, fix point), converged and failed exclude each other (weighted). The criterion based on norms rejects NaN.
* **C40 Block inversion returns the true inverse** (partial). M: the 4x4 inversion (BlockInvModel). P: `ring`/`field` over Q. R: 4x4 blocks, whose inversion is in the repository: true two-sided inverse, value returned is the determinant, rejection exactly below 1e-40. Refuted: every regular block is inverted. Blocks of other sizes are inverted by dune-common, outside the repository. Exact arithmetic.
* **C41 Local residuals conserve every quantity** (partial). M: local residual and global balance (ResidualModel) over any stencil. P: sums over lists, permutation invariance. R: The vertex-centred and the cell-centred balance are proved for every grid and flux function, the second one under the condition that both sides of a face see opposite fluxes, which C42 proves for the transmissibility scheme (C41_transmissibility_scheme_conserves). checkConservativeness is characterised exactly; with extrusion factors that change in time it rejects converged steps (refuted).
* **C42 The two-point flux is the same seen from both sides** (partial). M: flux functions of the transmissibility scheme, the two-point method, diffusion, dispersion, convective mixing, heat, boundary rates (FluxModel). P: case analysis and ring reasoning. R: Antisymmetry holds always; the same upstream cell is named only if the phase is mobile somewhere (refuted otherwise, harmless because the flux vanishes). The transmissibility is 0/0 between two impermeable cells (refuted). calculatePhasePressureDiff_ of the TPFA residual lives in opm-simulators and is a parameter.
* **C43 Diffusive and convective-mixing fluxes are conservative** (partial). M: flux functions of the transmissibility scheme, the two-point method, diffusion, dispersion, convective mixing, heat, boundary rates (FluxModel). P: case analysis and ring reasoning. R: Convective mixing and heat conduction are antisymmetric always. Diffusion and dispersion use the conversion factor of the interior cell's region: antisymmetric iff these agree, refuted across regions.
* **C44 The assembled system does not depend on the traversal order** (proved). M: parallel linearization with per-thread scratch data and a lock (ParLoopModel, TpfaModel). P: every interleaving gives a permutation of the same additions; commutation.
* **C45 Linearizing a sub-domain gives the rows of the full system** (partial). M: both linearizers with matrix, residual, caches and sub-domains as state machines (TpfaModel, FvLinModel). P: invariants over histories; sums over cells and faces. R: Proved for both linearizers. Two-point flux: after any history, the rows of the cells hold their balance equations and the blocks of rows and columns of the cells the matching derivatives, the same as those of a linearization of everything if the recycled storage terms agree. Element-wise: after any history, including failed linearizations, the rows of the degrees of freedom of the elements are the sums over the elements, equal to those of the whole system for degrees of freedom all of whose elements are in the domain. False as stated for the other rows: well and boundary terms and off-diagonal blocks are added to rows outside the domain which are never cleared (exact characterisations and counterexamples), and for vertex centered grids a domain with as many elements as there are degrees of freedom resets all rows. With auxiliary degrees of freedom the first two-point flux linearization reads behind the neighbour table.
* **C46 The Jacobian can be erased and rebuilt** (partial). M: both linearizers with matrix, residual, caches and sub-domains as state machines (TpfaModel, FvLinModel). P: invariants over histories; sums over cells and faces. R: Proved for the element-wise linearizer: every linearization after erasing works, recreates exactly the blocks needed at that moment, and gives the same equations for all degrees of freedom of the elements after any history; rows of auxiliary equations are not reset without erasing (counterexample). False for the two-point flux linearizer: once used, eraseMatrix makes every later linearization dereference a null pointer because createMatrix_ returns early (proved for every grid and history).
* **C47 Finite difference derivatives are exact on affine residuals and leave the state unchanged** (partial). M: the finite difference linearizer and the element context with its stash (FdModel). P: algebra over Q; frame reasoning on the context. R: Affine residuals: every matrix entry equals the slope for every difference method and positive step; parabolas: central exact, one-sided off by curvature times step; any residual: the difference quotient. Intensive quantities restored exactly. Refuted: with several primary degrees of freedom (vertex centred) restoreIntensiveQuantities leaves pointers to the stash storage, so the context then returns another degree of freedom's primary variables, and the extensive quantities stay those of the last deflection; a residual that reads primary variables directly gets a wrong matrix. Rounding not modelled.
* **C48 The black-oil Newton update respects its limits** (partial). M: black-oil primary variables, switching, projection, Newton update (BoVarsModel, BoNewtonModel), material laws as oracles. P: case analysis over all interpretations and extensions; linear arithmetic. R: Saturation limit proved without solvent and salt precipitation, also through variable switching, water-filled cells and projection (default thresholds). Refuted with solvent (clipping after scaling) and for a lower water-only threshold. Pressure limit proved for the scaled variable while it stands for the same phase; refuted for the physical pressure with a scale. Dissolution factors, solvent, salt and all extension variables proved in range. Exact rational arithmetic.
* **C49 Saturation normalisation yields physical saturations** (partial). M: black-oil primary variables, switching, projection, Newton update (BoVarsModel, BoNewtonModel), material laws as oracles. P: case analysis over all interpretations and extensions; linear arithmetic. R: The operation itself is proved for all vectors with separate entries. Its return value is wrong in some cases (report_refuted), and with solvent and without oil the saturations evaluated from the normalised variables are still unphysical (evaluated_saturations_refuted).
* **C50 Primary variable switching is reported faithfully and keeps interpretations consistent** (partial). M: black-oil primary variables, switching, projection, Newton update (BoVarsModel, BoNewtonModel), material laws as oracles. P: case analysis over all interpretations and extensions; linear arithmetic. R: Reported switches and the fit of the pressure interpretation hold under the stated restrictions and fail without them (refuted theorems: unreported salt precipitation, perpetual report in water-oil models, gas pressure with gas saturation after the water-filled treatment). Repeated calls are proved to change nothing and phases to appear without a jump. The z fraction variant (extended black-oil) is not modelled.
* **C51 Equation and variable indices never collide** (partial). M: index classes as functions of the enabled extensions (BoIdxModel). P: finite sweep by `vm_compute` over all flags, lifted to a theorem, with counts symbolic where unbounded. R: Distinctness is false for some combinations of extensions; the partial theorems give the exact combinations for which it holds (if and only if).
* **C52 Phase presence bookkeeping round trip** (partial). M: PVS and NCP primary variables and Newton updates for any number of phases (PvsModel). P: induction over phases; linear arithmetic. R: Presence, saturations, pressures and prescribed mole fractions read back exactly for equilibrium states of any number of phases; refuted for states that are not in equilibrium (a phase whose mole fractions sum to too little loses its saturation).
* **C53 Compositional Newton updates respect their limits** (partial). M: PVS and NCP primary variables and Newton updates for any number of phases (PvsModel). P: induction over phases; linear arithmetic. R: NCP limits hold except for four or more phases in the first iterations (refuted there). PVS limits proved for present phases with consecutive indices including the last phase or at most two of them; refuted for phases {0,2} of three (presence tested at the wrong index) and for four phases. Richards limits hold in the first iterations only (refuted later); PT-flash limits hold for all stored fractions and, with up to three components, for the last one (refuted for four); a negative pressure is undefined behaviour.
* **C54 Timers account for every started interval exactly once** (partial). M: timer, guard, allocator, fracture mapper, message buffer as operation machines (TimerModel, GuardModel, AllocModel, FractureModel, MpiBufModel). P: invariants over histories. R: Exact for every history in which the timer is not started while running; refuted otherwise (time since the first start is lost).
* **C55 A guard runs its action exactly once** (partial). M: timer, guard, allocator, fracture mapper, message buffer as operation machines (TimerModel, GuardModel, AllocModel, FractureModel, MpiBufModel). P: invariants over histories. R: Exactly once whenever no guard is enabled again after being moved from; refuted otherwise.
* **C56 Aligned allocation never returns less memory than requested** (partial). M: timer, guard, allocator, fracture mapper, message buffer as operation machines (TimerModel, GuardModel, AllocModel, FractureModel, MpiBufModel). P: invariants over histories. R: For up to max_size() objects; refuted beyond, where the byte count overflows.
* **C57 The fracture mapper is a symmetric set of edges** (proved). M: timer, guard, allocator, fracture mapper, message buffer as operation machines (TimerModel, GuardModel, AllocModel, FractureModel, MpiBufModel). P: invariants over histories.
* **C58 Grid conversion preserves elements and orientation** (partial). M: the converter on the text of the file (ArtModel); reading numbers is a parameter. P: induction over the lines of each section; plane geometry by `ring`. R: Proved for every file with the three sections: vertices in order, each triangle once with counter-clockwise corners, exactly the fracture vertices marked. Refuted: an end mark followed by a blank is not recognised, fracture edges are not written as edges, and the last triangle of a file without final mark and line end is written twice. Reading decimal numbers is a parameter; failing assertions are one outcome.
* **C59 The start routine honours help and error requests** (partial). M: `start` with all exit paths and the reduction over processes (StartModel on ParamModel). P: case analysis; exact condition for running the simulation. R: Without help and without MPI the simulation runs exactly if the command line is well formed, the parameter file can be read and parsed, all parameters are known and the needed values can be used; otherwise the status is 1. Equal processes agree. False: --help prints the usage and then runs the simulation with the default parameters (for every program whose defaults are usable); before MPI is initialised help and malformed command lines call MPI_Allreduce and abort; processes with different files or command lines do not agree or wait for ever.
* **C60 Parallel buffers are freed exactly once** (partial). M: timer, guard, allocator, fracture mapper, message buffer as operation machines (TimerModel, GuardModel, AllocModel, FractureModel, MpiBufModel). P: invariants over histories. R: For histories without copies; refuted for copies (shared block freed twice). Assignment is not modelled.
* **C61 The element-centred stencil lists each neighbour exactly once** (partial). M: the element-centred stencil over any grid (StencilModel). P: induction over the intersections and over histories of calls. R: Every history of calls ending in update(): degrees of freedom, faces, distinctness and mutual neighbourship. Refuted: after updatePrimaryTopology the faces are those of an earlier cell and refer to degrees of freedom that do not exist; with 65536 neighbours the unsigned short index wraps to the cell itself. Geometry data are copied and not interpreted.
* **C62 Border lists are exchanged without losing message alignment** (partial). M: communication handles and border lists over any distributed grid (CommModel). P: induction over entities and messages. R: Vertices: proved in full. Elements: proved if every interior element with copies elsewhere has an interior neighbor; refuted otherwise: the early return of scatter does not read its two items, so the following entries are attributed to the wrong elements, and a process with a single element finds no peers.
* **C63 A run never steps over the end of the simulation or of an episode** (partial). M: `Simulator::run` as a function emitting a trace of call-backs, for every problem given as an oracle (SimLoopModel), exact arithmetic. P: induction over the iterations: trace grammar, accounting, bound on the number of steps; witnesses computed by `vm_compute`. R: Refuted: the initial step and the first step after an episode are not limited. Proved for problems which set a fitting step size when an episode begins.
* **C64 Predetermined time step sizes are used one after the other** (partial). M: `Simulator::run` as a function emitting a trace of call-backs, for every problem given as an oracle (SimLoopModel), exact arithmetic. P: induction over the iterations: trace grammar, accounting, bound on the number of steps; witnesses computed by `vm_compute`. R: Refuted: the first entry of the list is never used, and the entry following the end of an episode is skipped. Proved for all other steps.
* **C65 A run does not end before its end time** (partial). M: `Simulator::run` as a function emitting a trace of call-backs, for every problem given as an oracle (SimLoopModel), exact arithmetic. P: induction over the iterations: trace grammar, accounting, bound on the number of steps; witnesses computed by `vm_compute`. R: Refuted: the tolerance of finished() grows with the square of the time, a simulation of 32 years ends two days early. Proved: the exact tolerance; no step after the end.
* **C66 A fluid state stored as black-oil primary variables is recovered** (partial). M: black-oil primary variables, switching, projection, Newton update (BoVarsModel, BoNewtonModel), material laws as oracles. P: case analysis over all interpretations and extensions; linear arithmetic. R: Proved for models without solvent and salt precipitation, in exact arithmetic; gas dissolved in water requires a model without oil.
* **C67 Free-flow boundary conditions carry what the upstream side holds** (partial). M: flux functions of the transmissibility scheme, the two-point method, diffusion, dispersion, convective mixing, heat, boundary rates (FluxModel). P: case analysis and ring reasoning. R: Black-oil: holds when surface volumes are conserved and gravity does not act between cell centre and face. Refuted otherwise: with mass conservation the reference density is applied twice, and the side is chosen by the bare pressures. Other models: holds without gravity, refuted with it for the same reason.
* **C68 Rows excluded from the linear system keep their index in the overlap** (proved). M: domestic overlap, black list, overlapping vectors and scalar product, end to end from the matrix graph (DomesticModel, PipelineModel, VectorModel). P: composition of the protocol theorems; sums over processes. R: Exact iff for decompositions and mutual black lists; if a process lists a peer which does not list it, the exchange does not end.
* **C69 The assembled matrix is the derivative of the assembled residual** (proved). M: both linearizers with matrix, residual, caches and sub-domains as state machines (TpfaModel, FvLinModel). P: invariants over histories; sums over cells and faces. R: Proved for the two-point flux linearizer; the local residual's own derivatives, locality and equal and opposite fluxes are hypotheses.
* **C70 Constrained degrees of freedom keep their prescribed values** (proved). M: constraints in the element-wise linearizer (FvLinModel). P: induction over the constraint map. R: Constraints in the element-wise linearizer, one thread (the constraint map is filled by several threads without a lock in the code).
* **C71 Darcy fluxes obey the law they implement** (partial). M: the Darcy flux module at interior and boundary faces, two-point and finite element approximations, free-flow conditions of the models other than black-oil (DarcyModel), in any dimension with vectors over Q; square root and harmonic mean are parameters. P: sums over coordinates, `ring`/`field`; refutations with two-dimensional witnesses. R: Holds for permeabilities without preferred direction. Refuted for full tensors: the upstream side is decided by the potential gradient without the tensor, so the mobility can be taken from the downstream side and the flux can differ seen from both sides. Square root and harmonic mean (opm-common) are parameters; derivatives are not modelled.
* **C72 Values and gradients at faces are exact for affine quantities** (partial). M: the Darcy flux module at interior and boundary faces, two-point and finite element approximations, free-flow conditions of the models other than black-oil (DarcyModel), in any dimension with vectors over Q; square root and harmonic mean are parameters. P: sums over coordinates, `ring`/`field`; refutations with two-dimensional witnesses. R: Two-point gradients and finite element approximations are exact. Refuted for interpolated values of the two-point scheme: the weights are square roots of the distances and belong to the wrong sides; exact only half way between the points.
* **C73 Rates mean the same however they are given** (partial). M: all rate vectors with their three setters, the black-oil one with the index maps of its variants (RateModel). P: loops as folds over an index range; conversion factors by `field`; refutations by witnesses. R: Mass and molar rates are right for all models but black-oil. _partial/_refuted: the energy entry is not set by two setters; volumetric rates of flash and PVS have the wrong unit; black-oil molar rates write out of range without the solvent extension, use the wrong molar mass with oil and gas only, and volumetric rates are not converted to surface volumes.
* **C74 A stored fluid state is recovered** (partial). M: primary variables and how intensive quantities read them, for the immiscible, NCP, flash, PT-flash and Richards models; the NCP phase equations and the Newton error; Richards and PT-flash Newton limits (PhVarsModel). Flash calculations, equations of state and capillary pressure laws are parameters. P: loops as folds over an index range with a read-after-write lemma each; monotonicity of the laws; linear arithmetic. R: Exact conditions for immiscible and NCP; moles kept for immiscible and flash under the stated condition on the flash calculation. PT-flash fractions only if every phase holds at least 1e-8 moles of every component (refuted otherwise). Richards from the wetting pressure if the gas is at the reference pressure; from the non-wetting pressure refuted (undefined).
* **C75 NCP solutions decide the presence of phases** (partial). M: primary variables and how intensive quantities read them, for the immiscible, NCP, flash, PT-flash and Richards models; the NCP phase equations and the Newton error; Richards and PT-flash Newton limits (PhVarsModel). Flash calculations, equations of state and capillary pressure laws are parameters. P: loops as folds over an index range with a read-after-write lemma each; monotonicity of the laws; linear arithmetic. R: The equations are equivalent to complementarity and are added to the source term without touching the balances; that a converged state satisfies them is refuted: the error ignores them.
* **C76 Storage and flux terms balance the conserved quantities** (partial). M: storage and flux terms of the immiscible, flash, PT-flash, NCP, PVS, Richards and discrete-fracture local residuals with energy and diffusion modules, over dual numbers (value and derivative), with the Darcy flux evaluated in them (LocResModel); intensive quantities are arbitrary. P: loops as folds with read-after-write lemmas; product, sum and sign-preservation rules of derivatives defined by epsilon-delta over Q; exact difference between the carried and the true derivative; refutations by witnesses. R: All storage and flux terms. Units agree except in the PT flash model (refuted: rates, boundary conditions and diffusion in moles, balances in mass). The flux seen from the other side is the negative if no phase is at rest or the permeability is isotropic; otherwise the sides of a phase at rest are chosen by the anisotropic part.
* **C77 Automatic differentiation of storage and flux terms** (partial). M: storage and flux terms of the immiscible, flash, PT-flash, NCP, PVS, Richards and discrete-fracture local residuals with energy and diffusion modules, over dual numbers (value and derivative), with the Darcy flux evaluated in them (LocResModel); intensive quantities are arbitrary. P: loops as folds with read-after-write lemmas; product, sum and sign-preservation rules of derivatives defined by epsilon-delta over Q; exact difference between the carried and the true derivative; refutations by witnesses. R: Storage terms, advective and Richards fluxes carry their derivatives for every focus (phases at rest excluded: the upstream side changes there). False for energy and diffusive fluxes: exact error, cases without error and witnesses.
* **C78 The sub-control volumes of an element of the vertex-centred scheme make up the element and are closed by their faces** (partial). M: the geometry part of the vertex-centred stencil for all shapes with its index tables, and the quadrature geometries (VcfvModel); the reference elements and the multilinear mapping of dune-geometry are modelled as documented, the square root is a parameter. P: points as explicit means of corners, then `ring`/`field` for each table entry; absolute values by sign conditions from convexity; positivity of the integration element by Bernstein coefficients; refutations by witnesses. R: Hexahedra: each sub-control volume for extruded convex quadrilaterals, the sum for all hexahedra with parallel pillars; refuted in general. Closedness holds for all supported shapes.
* **C79 Integration points, boundary segments and local geometries of the vertex-centred scheme belong to the right parts of the element** (partial). M: the geometry part of the vertex-centred stencil for all shapes with its index tables, and the quadrature geometries (VcfvModel); the reference elements and the multilinear mapping of dune-geometry are modelled as documented, the square root is a parameter. P: points as explicit means of corners, then `ring`/`field` for each table entry; absolute values by sign conditions from convexity; positivity of the integration element by Bernstein coefficients; refutations by witnesses. R: Twisted geometry of the first vertex of triangles and the centre gradients outside of parallelograms are refuted; everything else is proved for all supported shapes.
* **C80 The distributed matrix holds, for each entry known in the overlap, the sum over all processes** (partial). M: construction of the overlapping matrix from the native graphs (exchange of the rows, the structure of each process), assignAdd/assignCopy with their exchange of values, and the operator, on top of the overlap built by PipelineModel (OvMatrixModel); all processes run as MPI programs. P: every schedule of the exchanges has one result; the value at an entry as a fold over the ranks; then sums over Q exchanged with the sum over the columns. R: Exact structure and value for any addition (order of summation given); sums for exact arithmetic if all columns are usable (rows of the process or announced ghosts in the overlap). assignCopy: exact value proved, equality of copies refuted, proved for elements.
* **C81 The parallel operator is the product with the global matrix** (partial). M: construction of the overlapping matrix from the native graphs (exchange of the rows, the structure of each process), assignAdd/assignCopy with their exchange of values, and the operator, on top of the overlap built by PipelineModel (OvMatrixModel); all processes run as MPI programs. P: every schedule of the exchanges has one result; the value at an entry as a fold over the ranks; then sums over Q exchanged with the sum over the columns. R: Proved for exact arithmetic and an overlap of at least one entry; exact result for every overlap; refuted without overlap for common rows. The write back to the native vector is part of the theorem.
* **C82 The extensions store what the cell holds** (partial). M: addStorage, computeFlux and addSource of the solvent, extended black-oil, polymer, foam, brine and MICP modules in the order of the local residual, and the volume fluxes of the solvent (BoExtModel), over dual numbers; intensive quantities, shear factors and pow are arbitrary. P: frame lemmas for each module (which equations it writes), then the value of each entry by `ring`; composition of differentiable functions including max, abs and quotients with an epsilon-delta derivative over Q; refutations by witnesses. R: the unrestricted statement fails at vanishing phases and for the z-fraction (refuted theorems); exact value with the regularization proved for all cells
* **C83 The extensions move their substances with the phases** (partial). M: addStorage, computeFlux and addSource of the solvent, extended black-oil, polymer, foam, brine and MICP modules in the order of the local residual, and the volume fluxes of the solvent (BoExtModel), over dual numbers; intensive quantities, shear factors and pow are arbitrary. P: frame lemmas for each module (which equations it writes), then the value of each entry by `ring`; composition of differentiable functions including max, abs and quotients with an epsilon-delta derivative over Q; refutations by witnesses. R: exact for all substances; dissolved solvent only if water and solvent have the same upstream cell; derivatives of shear factors only if the water comes from the interior cell (refuted otherwise)
* **C84 Solvent flows from high to low potential** (partial). M: addStorage, computeFlux and addSource of the solvent, extended black-oil, polymer, foam, brine and MICP modules in the order of the local residual, and the volume fluxes of the solvent (BoExtModel), over dual numbers; intensive quantities, shear factors and pow are arbitrary. P: frame lemmas for each module (which equations it writes), then the value of each entry by `ring`; composition of differentiable functions including max, abs and quotients with an epsilon-delta derivative over Q; refutations by witnesses. R: proved for transmissibilities; the variant with permeabilities has the wrong sign and ignores the permeability (refuted)
* **C85 Biogrout reactions conserve what they convert** (partial). M: addStorage, computeFlux and addSource of the solvent, extended black-oil, polymer, foam, brine and MICP modules in the order of the local residual, and the volume fluxes of the solvent (BoExtModel), over dual numbers; intensive quantities, shear factors and pow are arbitrary. P: frame lemmas for each module (which equations it writes), then the value of each entry by `ring`; composition of differentiable functions including max, abs and quotients with an epsilon-delta derivative over Q; refutations by witnesses. R: derivatives only if those of the mobilities are right, which fails for upstream cells out of focus (refuted)
* **C86 Property lookup along type-tag hierarchies** (partial). M: the lookup of properties along inheritance lists and splices, instantiations as calls with a bound on their depth (PropSysModel); what a specialization contains is not modelled. P: the work list against the depth-first order given as a relation; termination by well-foundedness in both directions; refutations by witnesses. R: Termination, success, precedence and locality proved for all environments. The claims that the most derived specialization wins in a diamond and that a tag with an empty inheritance list can be used are refuted with witnesses; the exact conditions are proved instead.
* **C87 The parallel linear solver does what the sequential one does** (partial). M: prepare, setResidual, setMatrix and solve of the parallel backend, the stabilised BiCG iteration with its operator, scalar product, preconditioner and criterion as they run on one of several processes (ParSolverModel); blocks have one entry, arithmetic is exact, the preconditioner of a process is an arbitrary function of its overlapping matrix. P: simulation: after each collective phase the lists of the processes are the parts of one global vector and their scalars are equal to those of the sequential solver; C38 then bounds the residual; the hang of a process without neighbours by executing the model. R: Proved for scalar blocks and exact arithmetic, if every process has a border (or there is only one process) and the preconditioner respects equality of numbers. If the preconditioner throws for some arguments the theorem says that all processes fail together or all go on, not which. The full statement is refuted: with a process without neighbours the others hang.
* **C88 Mixing with solvent stays between the pure fluids** (partial). M: the Todd-Longstaff mixing of the solvent module, its relative permeabilities, the viscosities of the polymer module with adsorption and resistance, the Newton iteration for the shear factor, the factor of the biogrout module, the salt concentration (BoMixModel), over the real numbers of the standard library; tables are functions, derivatives are left out. P: the reciprocals of the fourth roots of the viscosities mix linearly, so each rule is a convex combination in one of the transformed values; ranges by a lemma on convex combinations, monotonicity from Rpower; refutations by closed cells with fourth powers as viscosities and by a table on which Newton's method runs in a circle (induction on the number of steps). R: Effective viscosities and densities of the solvent module. Derivatives and the CO2/H2 variants are not modelled; the range of the densities needs mobile fluids above the cut-off (refuted otherwise), oil only has the range of all fluids (refuted for oil and solvent).
* **C89 Polymer thickens the water** (partial). M: the Todd-Longstaff mixing of the solvent module, its relative permeabilities, the viscosities of the polymer module with adsorption and resistance, the Newton iteration for the shear factor, the factor of the biogrout module, the salt concentration (BoMixModel), over the real numbers of the standard library; tables are functions, derivatives are left out. P: the reciprocals of the fourth roots of the viscosities mix linearly, so each rule is a convex combination in one of the transformed values; ranges by a lemma on convex combinations, monotonicity from Rpower; refutations by closed cells with fourth powers as viscosities and by a table on which Newton's method runs in a circle (induction on the number of steps). R: Without rounding. The shear factor is right if the iteration ends (partial, refuted in general); the velocity is right only if the cell with the number of the face has the critical saturation of the upstream cell; SHRATE is not modelled.
* **C90 Relative permeabilities with solvent, biogrout and salt** (partial). M: the Todd-Longstaff mixing of the solvent module, its relative permeabilities, the viscosities of the polymer module with adsorption and resistance, the Newton iteration for the shear factor, the factor of the biogrout module, the salt concentration (BoMixModel), over the real numbers of the standard library; tables are functions, derivatives are left out. P: the reciprocals of the fourth roots of the viscosities mix linearly, so each rule is a convex combination in one of the transformed values; ranges by a lemma on convex combinations, monotonicity from Rpower; refutations by closed cells with fourth powers as viscosities and by a table on which Newton's method runs in a circle (induction on the number of steps). R: Relative permeabilities for oil saturations above the residual ones (refuted below); salt concentration of the fluid state (the one returned by the intensive quantities is refuted).
* **C91 VTK fields show the quantity their name says** (proved). M: the tables of fields of all VTK modules, allocation, the writes of the element loop in any order, names and attachment, evaluation at the corners (VtkOutModel). P: each write of a place stores the same value, so any permutation of the writes ends with it; checks of the tables by `vm_compute` over all models and switches; names by a common prefix analysis. R: The conversion to single precision and the file format are not modelled; intensive quantities are given values.
* **C92 Velocities and gradients in the output are means over the faces** (partial). M: the sums over faces of the multi-phase and the fracture module, with two threads as interleaved reads and writes (VtkOutModel). P: closed forms of the sums by induction; bounds of weighted means; disjoint threads commute; refutations by a schedule and by the edge tables of the stencil. R: Refuted in general for vertex-centred gradients and for threads which share a degree of freedom; proved otherwise.
* **C93 Fracture output shows the fractures** (partial). M: the sums over faces of the multi-phase and the fracture module, with two threads as interleaved reads and writes (VtkOutModel). P: closed forms of the sums by induction; bounds of weighted means; disjoint threads commute; refutations by a schedule and by the edge tables of the stencil. R: Refuted: volume fraction too large by the number of phases, velocities need another parameter; the strongest true statements are proved.
* **C94 Output parameters select fields with distinct names** (partial). M: the tables of fields of all VTK modules, allocation, the writes of the element loop in any order, names and attachment, evaluation at the corners (VtkOutModel). P: each write of a place stores the same value, so any permutation of the writes ends with it; checks of the tables by `vm_compute` over all models and switches; names by a common prefix analysis. R: Refuted for the diffusion module and one polymer parameter; proved for all other fields. Velocity and gradient names are not part of the table.
* **C95 Forchheimer velocity: well posed, bounded by Darcy's, and what is returned is close to it** (proved). M: the residual of the Forchheimer relation, the matrix of difference quotients, the loop with its 50 iterations and tolerance, the choice of the quantities at interior and boundary faces, the loops over the phases, over real numbers and any number of dimensions; the small linear solver is a parameter P: existence by the intermediate value theorem for the length of the velocity, uniqueness and the error bound by strong monotonicity in a norm weighted with the permeability and a bound on the difference quotients; in one dimension an exact formula for the error after one step, for each direction; the failing flow by a lower bound on the shrinkage, its mirror image by halving and then squaring the error R: Returned velocity: C95_error for any dimension and anisotropy. Derivatives of the velocity are not modelled.
* **C96 The Forchheimer iteration finds the velocity** (partial). M: the residual of the Forchheimer relation, the matrix of difference quotients, the loop with its 50 iterations and tolerance, the choice of the quantities at interior and boundary faces, the loops over the phases, over real numbers and any number of dimensions; the small linear solver is a parameter P: existence by the intermediate value theorem for the length of the velocity, uniqueness and the error bound by strong monotonicity in a norm weighted with the permeability and a bound on the difference quotients; in one dimension an exact formula for the error after one step, for each direction; the failing flow by a lower bound on the shrinkage, its mirror image by halving and then squaring the error R: Partial: one dimension and the stated speeds; the general statement is false (C96_velocity_found_refuted, C96_direction_refuted).
* **C97 Forchheimer fluxes over faces** (proved). M: the residual of the Forchheimer relation, the matrix of difference quotients, the loop with its 50 iterations and tolerance, the choice of the quantities at interior and boundary faces, the loops over the phases, over real numbers and any number of dimensions; the small linear solver is a parameter P: existence by the intermediate value theorem for the length of the velocity, uniqueness and the error bound by strong monotonicity in a norm weighted with the permeability and a bound on the difference quotients; in one dimension an exact formula for the error after one step, for each direction; the failing flow by a lower bound on the shrinkage, its mirror image by halving and then squaring the error R: C97_upstream_refuted and C97_boundary_inflow_refuted show where the general statement fails: anisotropic rock and inflow over the boundary.
* **C98 Marks for grid adaptation** (partial). M: the marks with their loops over processes, elements and phases, the copy operator for restriction and prolongation, the order of restriction, adaptation and prolongation, and sequences of adaptations (AdaptModel); the hierarchic grid and the walk over it are modelled as Dune and dune-fem document them, without closure. P: restriction and prolongation as sequences of copies whose sources are never targets; membership in these sequences and the new hierarchy by induction over trees; sums by induction; refutations by witnesses. R: Missing: the wishes of the phases before the last one are lost in general (C98_every_phase_refuted), and the number is not that of the marked elements (C98_number_refuted); proved are the exact mark, the case of a scarcer last phase and the bounds of the number.
* **C99 Data under grid adaptation** (partial). M: the marks with their loops over processes, elements and phases, the copy operator for restriction and prolongation, the order of restriction, adaptation and prolongation, and sequences of adaptations (AdaptModel); the hierarchic grid and the walk over it are modelled as Dune and dune-fem document them, without closure. P: restriction and prolongation as sequences of copies whose sources are never targets; membership in these sequences and the new hierarchy by induction over trees; sums by induction; refutations by witnesses. R: Integrals are kept by refinement and, if removed siblings agree, by coarsening; C99_coarsening_refuted shows that the condition is needed. The rest holds without conditions.
* **C100 Adaptive runs** (proved). M: the marks with their loops over processes, elements and phases, the copy operator for restriction and prolongation, the order of restriction, adaptation and prolongation, and sequences of adaptations (AdaptModel); the hierarchic grid and the walk over it are modelled as Dune and dune-fem document them, without closure. P: restriction and prolongation as sequences of copies whose sources are never targets; membership in these sequences and the new hierarchy by induction over trees; sums by induction; refutations by witnesses. R: All runs on one process; grids without closure.
* **C101 Prefetch friendly vectors give back what was distributed** (partial). M: the prefetch friendly grid vector with its data in blocks of a heap, its pointers, growth of the data with and without a new block, the implicit copy constructor and the destructor P: induction over the loops with the places of the elements, disjointness of blocks for other vectors, witnesses for the copies R: Values, definedness and independence for every heap and history of one vector; copies refuted with witness, with the exact remainder in C101_copy_partial and C101_copy_updated.
* **C102 Fracture volumes** (partial). M: the update of the intensive quantities of the discrete fracture model on top of the immiscible ones, with two phases in either order, the loop over the edges of the element, the limits of the saturations and what keeps its old value; material laws, widths and lengths are parameters P: double counting over elements, vertices and edges, case analysis, and the theorems about the fracture mapper (C57) R: Exact shares per sub-control volume, vertex and grid; the full volume only for fractures with elements on both sides (C102_interior_partial), boundary refuted.
* **C103 State of the fluids in fractures** (partial). M: the update of the intensive quantities of the discrete fracture model on top of the immiscible ones, with two phases in either order, the loop over the edges of the element, the limits of the saturations and what keeps its old value; material laws, widths and lengths are parameters P: double counting over elements, vertices and edges, case analysis, and the theorems about the fracture mapper (C57) R: Missing limits and the mobility of the matrix are refuted with witnesses.
* **C104 Convergence output of the Newton method** (partial). M: the convergence writer, the part of the VTK writer it needs, and the control flow of the Newton method with its failures P: induction over the iterations and calls with the list of what is written R: Labels unique up to 100 iterations per call (C104_labels_partial), refuted beyond.
* **C105 Black-oil densities weigh what the storage term stores** (partial). M: the second half of the update of the black-oil intensive quantities (compositions, mobilities with directions, densities, porosity), the hooks of the extended black-oil module and the storage of the components; fluid system, tables and problem are arbitrary functions P: each step described pointwise, then ring identities for all configurations; witness for vaporized water R: Proved for all configurations without the extended module; with it the theorem is partial (no vaporized water, z without regularisation) and the case of vaporized water is refuted.
* **C106 Black-oil mobilities and dissolution of a cell** (partial). M: the second half of the update of the black-oil intensive quantities (compositions, mobilities with directions, densities, porosity), the hooks of the extended black-oil module and the storage of the components; fluid system, tables and problem are arbitrary functions P: each step described pointwise, then ring identities for all configurations; witness for vaporized water R: Mobilities, errors of the access and saturated values proved exactly; the limits hold only for ratios which are not primary variables (refuted otherwise).
* **C107 Phase changes of the extended black-oil model are continuous** (partial). M: the branches of the extended black-oil module for saturated and undersaturated phases; the porosity P: both branches evaluated at saturation with an inverse of the table; inequalities about 1 + x + x^2/2; witnesses beyond the restrictions R: Partial: needs z up to its limit, a limit of Rs or Rv above saturation, a cell not full of water (oil), equal phase pressures (gas); two of these restrictions are shown necessary by refutations. For oil the remaining hypothesis, that the bubble points invert dissolved gas, is proved for the tables read from a deck (C110) at the values of z in it.
* **C108 Porosity follows the pressure of the rock** (partial). M: the branches of the extended black-oil module for saturated and undersaturated phases; the porosity P: both branches evaluated at saturation with an inverse of the table; inequalities about 1 + x + x^2/2; witnesses beyond the restrictions R: Positivity proved for all pressures without MICP (refuted with MICP); monotonicity from the vertex of the parabola on (refuted below).
* **C109 Extension modules and mobilities** (partial). M: the changes of mobilities by polymer, foam, MICP and salt after the update of C105/C106, the errors of the foam module, the flux of the TPFA residual; factors and tables are arbitrary P: composition of the steps for each phase; exact characterisation of errors; a universal theorem and a witness for directional mobilities R: Factors, errors and members proved exactly; the flow over faces is right only without directional mobilities (partial), with them no module has an effect (refuted).
* **C110 Tables of the extended black-oil module** (partial). M: initFromState of the extended black-oil module for PVTSOL: loop over columns and rows, samples of the tables, bubble points, compressibilities and zLim P: invariant of the loop over the rows; the inverse of a strictly rising piecewise linear function by induction over its samples; witness with constant vaporized oil R: The slope of gas is proved where vaporized oil differs between the two rows; with equal values the code divides by zero (refuted). Positive formation volumes are assumed throughout.
* **C111 Initialization of polymer and foam from the deck** (partial). M: initFromState of the polymer and foam modules: checks, assertions and loops over regions, with an outcome of its own for accesses behind the end; records and tables are opaque P: loop lemma for assignments by index; one lemma with a complete characterisation of each outcome, from which both directions of the equivalences follow; witness for PLMIXPAR R: For polymer, freedom from accesses behind the end is proved for decks whose record counts agree with the regions (partial); PLMIXPAR shorter than PLYMAX is refuted. Foam is proved in full.
* **C112 Initialization of brine from the deck** (partial). M: initFromState of the brine module with the outcomes of C111; tables are opaque P: loop lemmas for reading and for writing by index; complete characterisation of each outcome; witnesses for BDENSITY without PVTWSALT and for PERMFACT R: Freedom from accesses behind the end is proved for decks whose counts fit (partial); BDENSITY without PVTWSALT and more PERMFACT tables than PVT regions are refuted.
* **C113 Initialization of solvent from the deck** (partial). M: initFromState of the solvent module with the outcomes of C111; tables and PVT objects are opaque P: complete characterisation of each outcome by the pattern of each keyword; the default of TLPMIXPA is refuted for all decks R: Proved except for the default of TLPMIXPA, which is refuted: the code never uses PMISC for it.
* **C114 Parameters and limits of biogrout** (partial). M: initFromState, setMICPpara with its seventeen positional arguments, the clogging check and the limits of the Newton method, over the rationals P: unfolding of the initialization; case lemma for clamp; the limits of biofilm and calcite refuted as a guard against clogging for all decks with room R: That biofilm and calcite leave the pore space is proved for cells with one of them (partial) and refuted for cells with both, since each is limited on its own. Limits which are negative or a porosity below the tolerance are excluded; there std::clamp is undefined.

## 3. Trusted base

* Coq 8.16.1's kernel (and `vm_compute` for the evaluation of closed terms; `coqchk` re-checks everything without it).
* `Print Assumptions` prints "Closed under the global context" for every theorem `CNN_...` up to C87 and from C91 to C94.
  The theorems of C88, C89 and C90 are about real numbers (`Coq.Reals`, for powers with real exponents) and rest on
  axioms of the standard library: `ClassicalDedekindReals.sig_forall_dec` (all of them),
  `FunctionalExtensionality.functional_extensionality_dep` (all but `C90_salt_concentration`),
  `ClassicalDedekindReals.sig_not_dec` and `Classical_Prop.classic` (those of C88 and C89 and
  `C90_biogrout_permeability`; not `C89_shear_velocity_partial` and `C89_shear_velocity_refuted`). Those of C95, C96 and
  C97 are about real numbers as well and rest on `ClassicalDedekindReals.sig_forall_dec`,
  `ClassicalDedekindReals.sig_not_dec` and `FunctionalExtensionality.functional_extensionality_dep`. No other axiom is
  used. The context of the loaded libraries contains seven constants of
  `Coq.ssr.ssrunder` (parameters of a module type of the standard library, which come with the library files that are
  imported); `coqchk` and `vcheck` list them, no theorem depends on them.
* No axioms, `Admitted`, functors, module types, plugins or kernel switches in this development. Section variables are
  discharged: each theorem is closed.
* That the Gallina functions do what the cited C++ lines do. This was done by reading only. Each definition states its
  lines and its simplifications; section 5 lists what is left out.
* For the concurrent parts: that mutex-protected regions and MPI operations are atomic and that the memory model of
  C++ gives sequentially consistent behaviour to programs without data races.
* For the MPI parts (`MpiModel.v`): messages between two processes with one tag arrive in order, sends may or may not
  be buffered, collectives complete when all processes take part.
* For `CommModel.v`: DUNE's `communicate` gathers and scatters according to its documented contract.

## 4. Modelled code

| model | source |
|-------|--------|
| TaskletModel | models/parallel/tasklets.hh |
| ParLoopModel | models/parallel/threadedentityiterator.hh, the parallel loops of fvbaselinearizer.hh and fvbasediscretization.hh |
| ParamModel, ParRegModel | models/utils/parametersystem.hh (names, values, lines, files, command line, registry, look-up, usage text) |
| StartModel | models/utils/start.hh, models/parallel/threadmanager.hh (init) |
| SimLoopModel, StepFileModel, ResumeModel | models/utils/simulator.hh (constructor's step file, episodes, run, time step control, serialize) |
| TimeIntegModel | fvbaseproblem.hh (timeIntegration, nextTimeStepSize) |
| NewtonModel | models/nonlinear/newtonmethod.hh (apply, preSolve_, proceed_, converged, suggestTimeStepSize, time step reaction) |
| CacheModel, AuxDofModel | fvbasediscretization.hh (solutions, intensive quantity cache, update, advanceTimeLevel, auxiliary modules), fvbasenewtonmethod.hh, pvsmodel.hh (switching) |
| RestartModel, FloatTextModel | models/io/restart.hh, serializeEntity/deserializeEntity of the models |
| PvdModel | models/io/vtkmultiwriter.hh (collection file, task queue) |
| VtkOutModel | models/io/baseoutputmodule.hh, models/io/vtk*module.hh, vtkscalarfunction.hh, vtkvectorfunction.hh, vtktensorfunction.hh, prepareOutputFields/appendOutputFields of fvbasediscretization.hh |
| MpiModel, GatherModel | models/parallel/mpiutil.hh, mpibuffer.hh (protocol), simulator.hh (exception agreement), overlappingpreconditioner.hh (agreement) |
| MpiBufModel | models/parallel/mpibuffer.hh (memory) |
| CommModel | models/parallel/gridcommhandles.hh, linalg/elementborderlistfromgrid.hh, vertexborderlistfromgrid.hh |
| GlobalIndexModel, ForeignModel, ExchangeModel, DomesticModel, PipelineModel | linalg/globalindices.hh, foreignoverlapfrombcrsmatrix.hh, domesticoverlapfrombcrsmatrix.hh, blacklist.hh, overlaptypes.hh |
| VectorModel | linalg/overlappingblockvector.hh, overlappingscalarproduct.hh |
| OvMatrixModel | linalg/overlappingbcrsmatrix.hh (build_, buildIndices_, assignAdd, assignCopy, sync; not resetFront, print), overlappingoperator.hh |
| BiCGModel | linalg/bicgstabsolver.hh, combinedcriterion.hh, weightedresidreductioncriterion.hh, fixpointcriterion.hh, residreductioncriterion.hh, convergencecriterion.hh |
| BlockInvModel | linalg/matrixblock.hh (4x4) |
| ResidualModel | fvbaselocalresidual.hh, fvbasediscretization.hh (globalResidual, checkConservativeness) |
| FluxModel | common/transfluxmodule.hh, blackoillocalresidual(tpfa).hh (fluxes), diffusion, dispersion, convective mixing, energy modules, blackoilboundaryratevector.hh |
| TpfaModel | discretization/common/tpfalinearizer.hh, linalg/istlsparsematrixadapter.hh |
| FvLinModel | discretization/common/fvbaselinearizer.hh, istlsparsematrixadapter.hh |
| FdModel | fvbasefdlocallinearizer.hh, fvbaseelementcontext.hh (stash) |
| StencilModel | ecfv/ecfvstencil.hh |
| BoIdxModel | blackoilindices.hh, blackoiltwophaseindices.hh, blackoilonephaseindices.hh |
| BoVarsModel, BoNewtonModel | blackoilprimaryvariables.hh, blackoilintensivequantities.hh (saturations, pressures), blackoilnewtonmethod.hh |
| PvsModel | pvs/*.hh, ncp/*.hh (primary variables, Newton methods, saturations) |
| TimerModel, GuardModel, AllocModel, FractureModel | utils/timer.hh, timerguard.hh, genericguard.hh, alignedallocator.hh, discretefracture/fracturemapper.hh |
| ArtModel | art2dgf/art2dgf.cc |
| DarcyModel | common/darcyfluxmodule.hh, common/multiphasebaseproblem.hh (face permeability), discretization/common/fvbasegradientcalculator.hh, discretization/vcfv/p1fegradientcalculator.hh, {immiscible,flash,ncp,pvs,richards}boundaryratevector.hh |
| RateModel | {immiscible,flash,ncp,pvs,richards,blackoil}ratevector.hh, blackoiltwophaseindices.hh (component map), common/energymodule.hh (enthalpy rate) |
| PhVarsModel | {immiscible,ncp,flash,ptflash,richards}primaryvariables.hh, the parts of {immiscible,ncp,flash,ptflash,richards}intensivequantities.hh which read them, ncp/ncplocalresidual.hh (phase equations), ncp/ncpnewtonmethod.hh (error), richards/richardsnewtonmethod.hh, ptflash/flashnewtonmethod.hh |
| LocResModel | {immiscible,flash,ptflash,ncp,pvs,richards,discretefracture}localresidual.hh (storage and flux), common/energymodule.hh and common/diffusionmodule.hh (storage, fluxes, extensive quantities), the evaluation arithmetic of common/darcyfluxmodule.hh, discretefractureextensivequantities.hh (volume flux) |
| VcfvModel | discretization/vcfv/vcfvstencil.hh (VcfvScvGeometries, update, fillSubContVolData_, index tables, updateCenterGradients in the plane), utils/quadraturegeometries.hh (cubes) |
| BoExtModel | blackoil/blackoil{solvent,extbo,polymer,foam,brine,micp}modules.hh (addStorage, computeFlux, addSource of MICP, the volume fluxes of the solvent), the calls in blackoillocalresidual.hh |
| PropSysModel | utils/propertysystem.hh |
| ParSolverModel | linalg/parallelbasebackend.hh (prepare, setResidual, setMatrix, solve; not the set up of one preconditioner), parallelbicgstabbackend.hh, bicgstabsolver.hh on several processes, overlappingpreconditioner.hh, overlappingscalarproduct.hh, combinedcriterion.hh (maxima over the processes) |
| ForchModel | common/forchheimerfluxmodule.hh (except derivatives and isDiagonal_), the choice of the upstream side and mobility in common/darcyfluxmodule.hh |
| AdaptModel | common/multiphasebaseproblem.hh (markForGridAdaptation), discretization/common/restrictprolong.hh (CopyRestrictProlong), discretization/common/fvbasediscretizationfemadapt.hh (order of the steps in adaptGrid; the transfer of the solution itself is dune-fem's and not modelled) |
| PffModel | utils/pffgridvector.hh (prefetch has no effect on values and is not modelled; the element mapper does not change) |
| FracIqModel | discretefracture/discretefractureintensivequantities.hh, immiscible/immiscibleintensivequantities.hh (two phases, without energy; rational numbers, lengths are given) |
| ConvWModel | discretization/common/fvbasenewtonconvergencewriter.hh, nonlinear/newtonmethod.hh (order of calls and failures), io/vtkmultiwriter.hh (begin and end of a data set) |
| BoIqModel | blackoil/blackoilintensivequantities.hh 299-483 and the mobilities, blackoilextbomodules.hh (zFractionUpdate_, zPvtUpdate_), common/directionalmobility.hh, blackoillocalresidual.hh (storage of the components, adaptMassConservationQuantities_); values in Q without derivatives, one PVT region, other modules' hooks left out |
| BoModModel | blackoil/blackoilfoammodules.hh (foamPropertiesUpdate_), the statements of blackoilpolymermodules.hh, blackoilmicpmodules.hh and blackoilbrinemodules.hh which change mobilities, blackoillocalresidualtpfa.hh 372-382; factors given |
| ExtTabModel | blackoil/blackoilextbomodules.hh 119-238 (initFromState: the tables of PVTSOL); rational values |
| DeckInitModel | blackoil/blackoilpolymermodules.hh and blackoilfoammodules.hh (initFromState); records opaque, tables by number left out |
| BrineInitModel | blackoil/blackoilbrinemodules.hh (initFromState); tables opaque |
| SolvInitModel | blackoil/blackoilsolventmodules.hh (initFromState); tables and PVT objects opaque |
| BoMixModel | blackoil/blackoilsolventmodules.hh (pre- and postSatFuncUpdate_ except pressures, effectiveProperties), blackoilpolymermodules.hh (polymerPropertiesUpdate_, computeShearFactor, updateShearMultipliers without SHRATE), blackoilmicpmodules.hh (MICPPropertiesUpdate_), blackoilbrinemodules.hh (updateSaltConcentration_) |

## 5. Code that is not modelled

* Floating point rounding in all numerical parts; automatic differentiation (`Opm::MathToolbox`, part of opm-common).
* Material laws, fluid systems, PVT tables, the flash solvers (opm-common): arguments.
* Of the black-oil extension modules: initialization from the deck (except PVTSOL, polymer, foam, brine and solvent: ExtTabModel, DeckInitModel, BrineInitModel, SolvInitModel), the CO2 and H2 variants of solvent, the capillary
  pressure with solvent, SHRATE; how directional relative permeabilities are computed; hysteresis.
* the bytes of VTK files (Dune::VTKWriter), grid creation (`io/*vanguard.hh`), the adaptation algorithms of Dune and
  dune-fem beyond their documentation.
* Wrappers of external solvers and preconditioners (`istlsolverwrappers.hh`, `istlpreconditionerwrappers.hh`,
  `parallelamgbackend.hh`, `superlubackend.hh`).
* Template mechanics, `FlowProblem`s and everything in opm-simulators; tests and examples.


## 6. Findings

Each of these was found by reading the code against a property; those with a theorem are marked with its number.

Simulator and time stepping
* A run that ends inside an episode does not call endEpisode (C13).
* The initial step and the first step after an episode end are not limited by the end time or the episode (C63).
* The first entry of a list of predetermined step sizes is never used; the one after an episode end is skipped (C64).
* The tolerance of finished() grows with the square of the time: a 32 year run ends two days early (C65).
* The file of step sizes: trailing white space gives an uninitialised entry, junk or a missing file an endless loop (C16).
* nextTimeStepSize exceeds the maximum by up to one per cent (C18); setNextTimeStepSize ignores the maximum.
* ContinueOnConvergenceError continues with the old solution.
* After a restart the step size is not restored and beginEpisode can be missed (C29).

Newton method and cache
* std::max(|r|, error) forgets NaN (C21); with a single iteration the error tested belongs to the initial solution (C19).
* globalResidual(dest, u) leaves stale cache entries; storage cache plus recycling gives stale old levels; PVS switching
  changes the solution without invalidating the cache (C24).
* More than two time levels: levels two and above are not shifted (C25).
* clearAuxiliaryModules does not shrink solution vectors. Thermodynamic hints have no effect without the cache.

Restart and output
* Values of black-oil extensions are written without separators; a truncated last line is accepted; the polymer module
  can use an invalid index; interpretations for brine and solvent are not serialized; level-1 values are all set from one
  entry (C27). File names carry six digits of the time (C28).
* Collection file with asynchronous output: lost entries, closing tags missing between writes (C30).
* art2dgf: the loop that removes trailing blanks looks one character too far, so "$ " ends no section; fracture edges
  are not written; the last line of a file without line end is processed twice (C58).

Utilities
* TaskletRunner: a count of zero runs for ever with threads and never without (C05); the mutex is unlocked twice at the
  end (C06).
* Parameter files: three syntax errors construct an exception without throwing it (C10); unchecked look-ups insert
  registry entries (C11); breakLines_ loses characters after line breaks (C12).
* start(): --help does not end the program, the simulation runs with default parameters; MPI_Allreduce is called before
  MPI is initialised, and only by processes with an error (C59).
* Timer.start on a running timer loses time (C54); a guard enabled after it was moved from runs twice (C55); byte counts
  overflow in the aligned allocator (C56); copies of MpiBuffer free memory twice (C60).

Linear algebra and parallelism
* BiCGStab: the check after a full step uses the half-step residual; exactly solved systems end in failure or breakdown
  (C38). Criteria accept NaN; the weighted criterion reports converged and failed together; a combined criterion with the
  default largest residual 0 fails whenever it has not converged (C39). Blocks with |det| < 1e-40 are rejected; a NaN
  determinant is not detected (C40).
* Exceptions which are not std::exception leave the other processes hanging; empty messages; a process without peers
  skips the agreement of the preconditioner (C32).
* Element border lists: an early return of scatter leaves its items unread, later entries belong to wrong elements
  (C62). Foreign overlap: local and native indices are mixed with black lists; overlap size zero (C35). An asymmetric
  matrix graph gives asymmetric peer sets and a deadlock; a peer without common rows makes updateMasterRanks_
  dereference an end iterator. Peer black lists which are not mutual hang; an entry whose own native index is
  black-listed looks up index -1.
* syncAdd does not make all copies equal (C36). The protocol of GlobalIndices needs no buffering only because the master
  is the lowest rank (C34). isFront looks only at the lowest-ranked peer.
* Distributed matrix: assignCopy swaps the entries of common rows between the processes instead of making them equal
  (C80; it is never called). numEntries counts a column twice if two native columns of a row are the same global row, so
  that the message would be longer than the receiver expects (hypothesis columnsOnce of C80). Without an overlap, the
  operator of the vertex-centred scheme is not the global matrix: the master of a row lacks columns (C81). Every process
  adds the values in another order (its own first), so that with rounding the copies of an entry can differ.

Discretization
* eraseMatrix of the two-point flux linearizer makes the next linearization dereference a null pointer (C46); the
  element-wise one keeps adding to auxiliary rows (C46).
* Linearizing a sub-domain adds to rows outside which are never cleared; the number of elements is compared with the
  number of degrees of freedom (C45). With auxiliary degrees of freedom neighborInfo_ is read behind its end (C45).
* constraintsMap_ is filled by several threads without a lock; initFirstIteration_ leaks element contexts.
* restoreIntensiveQuantities leaves a pointer to the stash (C47). updatePrimaryTopology keeps the faces of an earlier
  cell; the exterior index is an unsigned short (C61).
* checkConservativeness does not advance its boundary intersection and disagrees with the residual for changing
  extrusion factors (C41). evalStorage with the storage cache returns unscaled values.
* Transmissibility 0/0 between impermeable cells; both sides of a face of an immobile phase call themselves upstream
  (C42). Diffusion and dispersion use the region of the interior cell (C43). Boundary rates: reference density applied
  twice with mass conservation, side chosen by bare pressures (C67). transmissibilityBoundary_ uses the interior face.
  setThermalFlow lacks the energy scaling factor. Convective mixing drops derivatives when the upstream cell is the
  exterior one. updateBoundaryConditionData keeps the old type when the new one is NONE;
  updateStoredTransmissibilities refreshes only the transmissibilities.

Black-oil, PVS, NCP
* Index collisions for several combinations of extensions; default EnableMICP gives one variable (C51).
* adaptPrimaryVariables: unreported switches, perpetual reports, gas saturation with gas pressure (C50). Gas dissolved in
  water with oil is not recovered (C66). Chopping reports false though values changed; negative oil saturation with
  solvent (C49). Newton update: bounds applied to the scaled pressure, saturation change beyond the limit with solvent or
  a low water-only threshold, the number of switched cells summed twice (C48).
* energy module: `priVars[temperatureIdx] = temperatureIdx`.
* PVS Newton: presence tested at the wrong index; four phases; NCP early clamps with four phases (C53). assignNaive drops
  phases of states that are not in equilibrium; phase presence 0 gives ffs - 1 = 2^32 - 1 (C52).


Fluxes and boundary conditions
* Darcy fluxes: the upstream side is decided by the potential gradient without the permeability tensor (C71).
* Rate vectors (C73): the black-oil setMolarRate writes to the entry of the solvent even if there is none (index -1000: outside of the vector); with two phases it takes the molar mass of the wrong component; setVolumetricRate never converts to surface volumes.
* Rate vectors (C73): setMolarRate of the immiscible model and setMassRate of the PVS model leave the energy entry as it was; the volumetric setters of flash and PVS multiply a mass density with mole fractions.
* Two-point values at a face: weights are square roots of distances and belong to the wrong sides (C72).
* Richards: assignImmiscibleFromNonWetting sets the pressure of the gas twice and never that of the liquid; the primary variable is undefined (C74).
* PT-flash: assignNaive floors the moles of each phase at 1e-8, so an absent phase changes the fractions (C74); with four or more components the last fraction is not limited and may become negative, and from a negative pressure std::clamp gets its bounds in the wrong order (C53).
* NCP: the error of the Newton method ignores the phase equations, so a converged state may violate them by any amount (C75).
* Free-flow conditions of all models choose the side by the bare pressures although the flux knows gravity (C67).
- PT flash model: storage and advective fluxes count masses, but rates given by mass are converted to moles, free-flow boundary conditions and diffusive fluxes count moles (`C76_units_refuted`).
- Advected enthalpy keeps the derivatives of the enthalpy and density of an upstream side which is not in focus, the thermal conductivity and the effective diffusion coefficients those of both sides: the derivatives belong to another degree of freedom's variables but are used as those of the focused one (`C77_energy_error`, `C77_energy_refuted`, `C77_diffusion_error`, `C77_diffusion_refuted`). The mean molar density of diffusive fluxes carries the derivative of the interior side whatever the focus is.
- Discrete fractures: the energy of the rock is counted for the whole sub-control volume, the fractured part included (`C76_fracture_storage`).


- Vertex-centred stencil (C78, C79): the sub-control volumes of a hexahedron without parallel pillars need not add up to its volume (`C78_hexahedron_volumes_refuted`: 109/96 for 9/8), because neighbouring sub-control volumes split a shared non-planar face along different diagonals; normals in space point the wrong way in negatively oriented elements (`C78_space_normals_refuted`); the corners of the local geometry of the first vertex of a triangle are listed in cyclic order although a tensor order is needed, so that its integration element changes sign (`C79_triangle_geometries_refuted`); `updateCenterGradients` passes a global position to `jacobianInverseTransposed` (`C79_center_gradients_refuted`); volumes and face tables for pyramids and prisms exist, but `update` always throws for them.

- Extensions of the black-oil model (C82-C85): the equation of the z-fraction stores something in a cell without the injected substance and that of the last component gets 1e-6 of the z-fraction (`C82_extbo_storage_refuted`, `C82_other_equations`); if masses are conserved, the solvent dissolved in water is counted with the density of the water (`C82_solvent_mass_refuted`); cells without water store polymer and salt in 1e-10 of water (`C82_dry_storage_refuted`); the dissolved solvent is taken from the upstream cell of the free solvent, not of the water (`C83_dissolved_solvent_refuted`); salt moves with the water before the shear factor is applied (`C83_salt_with_water_refuted`); derivatives of shear factors are lost if the water comes from outside (`C83_flux_derivatives_refuted`); updateVolumeFluxPerm has the wrong sign and ignores the permeability (`C84_solvent_perm_direction_refuted`, `C84_solvent_perm_impermeable_refuted`); the MICP source keeps the derivatives of the mobility of another cell (`C85_source_derivatives_refuted`).
- Property system (C86): with several parents the lookup is depth-first, so in a diamond a base tag's specialization hides
  that of a tag derived from it (`C86_diamond_refuted`). A tag with `InheritsFrom = std::tuple<>` which comes last in its
  hierarchy makes the lookup fail to compile even for properties specialized for the tag itself, because both arms of
  std::conditional_t are instantiated (`C86_empty_inheritance_refuted`, exact condition in
  `C86_empty_inheritance_exact`). The static_assert of GetSplicePropImpl compares with std::tuple<> and can never fail.
- Parallel solver (C87): a process without neighbours does not take part in the agreement on the preconditioner (overlappingpreconditioner.hh, early branch for an empty set of peers), so the others wait for ever at its first application although nothing failed (`C87_every_decomposition_is_solved_refuted`, three processes).

* Solvent mixing computes the oil density with a reference to the solvent density that the function has overwritten
  before: mixed oil can leave the range of oil and solvent (C88). Where all fluids are residual, the density of the
  solvent leaves the range of all fluids (C88).
* Water gets a negative mobility for polymer concentrations far above PLYMAX, which nothing prevents; the search for
  the sheared velocity can run in a circle and throw although there is exactly one; the critical water saturation and
  the table region of a face are read at the degree of freedom with the number of the face (C89).
* The relative permeability of oil can become negative if there is less oil than the miscible residual saturation; the
  intensive quantities return an old salt concentration where salt has precipitated (C90).

- VTK output (C92): potential gradients are added only to the interior side of a face, so with vertex-centred finite volumes an element other than a quadrilateral leaves its last vertex with 0/0 unless a neighbour fills it (`C92_gradient_everywhere_refuted`); filter velocities of a degree of freedom which touches no face are 0/0 as well.
- VTK output (C92): the element loop of prepareOutputFields runs on several threads and `+=` on the velocity and weight buffers is not protected, so an update can get lost (`C92_shared_threads_refuted`: all faces have velocity one, the file shows two).
- VTK output (C93): vtkdiscretefracturemodule.hh adds the fracture volume once per phase, so the fraction is too large by the number of phases (`C93_volume_fraction_refuted`); and it does not ask for extensive quantities, so fracture velocities alone are computed from whatever the element context holds (`C93_fracture_velocity_refuted`).
- VTK output (C94): the patterns of vtkdiffusionmodule.hh have no place for the names, so all phases and components share one field name (`C94_diffusion_names_refuted`); `VtkWriteWaterViscosityCorrection` is registered but never read, the accessor reads `VtkWritePolymerViscosityCorrection` (`C94_parameter_ignored_refuted`).
- baseoutputmodule.hh: `commitEqBuffer_` calls `commitScalarBuffer`, which does not exist (a compile error once it is instantiated; the primary variable output does not use it).

* Forchheimer (`forchheimerfluxmodule.hh:523`): the step of the difference quotients is about the velocity itself for
  positive components (`velocity * (1 + eps)` instead of `abs(velocity) * eps`) and 1e-11 for negative ones. The slope
  is then 1 + 3cv instead of 1 + 2cv: the iteration is not Newton's in one of the two directions, converges linearly
  and can run out of its 50 iterations for a flow whose mirror image is computed (C96). Row i of the matrix is the
  derivative by component i, the transposed Jacobian; the result is the same if the iteration ends (C95).
* Forchheimer: an entering phase at the boundary gets its mobility from the boundary, its density and passability from
  the inside (C97). Where the permeability depends on the direction, the upstream side, which is chosen by the
  potential gradient along the normal, need not be the side the phase comes from (C97).
* Grid adaptation (`multiphasebaseproblem.hh:331-358`): each phase overwrites the mark of the previous one. Where a
  first phase just appears it asks for refinement and the other phase has the element coarsened
  (C98_every_phase_refuted). The returned number counts phases, not elements, and can be positive with nothing marked
  (C98_number_refuted).
* `CopyRestrictProlong` gives a coarsened element the data of its first child; sums over the grid change
  (C99_coarsening_refuted).

* `PffGridVector` (C101): the implicit copy constructor copies the pointers into the data of
  the original.  A copy that was not updated itself follows updates of the original and
  dangles when the original is destroyed.  `update` takes the address of the first entry also
  when the vector is empty, which a process without elements meets.

* Discrete fractures (C102, C103): a fracture on the boundary of the domain has half of its
  volume, since each element contributes half of it.  The wetting saturation is limited from
  above only in the matrix and from below only in the fracture, and the mobility of the matrix
  is the one of the saturation before the limit.  Away from fractures all fracture quantities
  but the volume keep what they were (Valgrind would report a use).

* Convergence output (C104): labels are numbers of calls of the Newton method, not of time
  steps, and iteration 101 collides with the first iteration of the next call.

- C105: with the extended black-oil module and vaporized water the density of the gas phase does not contain the water
  which the storage term contains (zPvtUpdate_ overwrites it): `C105_vaporized_water_refuted`.
- C106: the limits RsMax, RvMax and RswMax are not applied if the ratio is a primary variable: `C106_limits_refuted`.
- C107: above the limit of z the bubble point is looked up at the limit although the formation volume is looked up at z,
  so that the oil jumps when the gas disappears: `C107_above_limit_refuted`. With a capillary pressure the gas jumps when
  the oil disappears, because the saturated gas uses the pressure of the gas and the undersaturated gas the pressure of
  the oil: `C107_capillary_pressure_refuted`.
- C108: far below the reference pressure the porosity grows when the pressure falls (`C108_monotone_refuted`), and
  biofilm and calcite together can make it negative (`C108_micp_refuted`).

- C109: the modules change only mobility_ and not the directional mobilities which the TPFA residual reads; with
  directional relative permeabilities polymer, foam, MICP and salt have no effect on the flow
  (`C109_directions_ignore_modules`, `C109_faces_refuted`).

- C110: the compressibility of gas divides by the difference of vaporized oil of two rows, both with the offset of the
  same row; with equal vaporized oil in the deck this is a division by zero, which the offsets are there to avoid
  (blackoilextbomodules.hh 209).

- C111: PLMIXPAR is read for every region of PLYMAX without a check of its number of records, not even an assertion
  (blackoilpolymermodules.hh 215-217); the sizes of the other polymer keywords are checked by assertions only, those of
  foam by exceptions.

- C112: BDENSITY without PVTWSALT reads behind the end of the tables of PVTWSALT; PERMFACT and PCFACT are written for
  each table into containers with an entry for each PVT or saturation region, so that more tables than regions write
  behind the end and with fewer the remaining regions keep an empty table (blackoilbrinemodules.hh 123, 132-135, 153-156).

- C113: a defaulted TLPMIXPA never gets the tables of PMISC: the test for it stands inside a test for the opposite, so
  that it and its error are never reached (blackoilsolventmodules.hh 319-340); the error about MISC is unreachable, too.

- C114: the Newton method keeps biofilm and calcite each below the porosity less the tolerance, not their sum; an update
  can fill more than the pore space (blackoilnewtonmethod.hh 406-409). checkCloggingMICP, which would notice, is called
  nowhere in this repository. With a porosity below the tolerance the precondition
  of std::clamp is violated.

## 7. Wrong programs

`seeded/LOG.jsonl` has one line per edited model: the definition, the edit, the claim it breaks, the theorems that
failed, and the theorems that were tightened because they did not. The edits are made in a scratch copy; a theorem
counts as broken if its proof, or the proof of a lemma it needs, no longer compiles.
