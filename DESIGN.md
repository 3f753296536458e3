# Formal model of AMPE: design

The model is a set of Coq 8.16.1 files in `rocq/theories`. It is read from the
sources in `/repo` (LLNL/AMPE) by hand; the code is not built or run.

## Layout

For each topic `X`:

* `X_Model.v`  – total Gallina definitions, one per modelled routine, each with
  the file and lines it models and the simplifications made. No proofs.
* `X_Spec.v`   – the specification vocabulary (what a user would say), written
  without using the helpers of the model.
* `X_Proofs.v` – lemmas.
* `X_Props.v`  – only the property theorems, each closed by `exact`, followed by
  `Print Assumptions`, and `Example`s showing that hypotheses are satisfiable.

A theorem ending in `_refuted` exhibits a concrete input for which the code as
modelled violates the property. A theorem ending in `_partial` proves a part of
the property; the missing part is named in the comment and in `MANIFEST.json`.

## Common conventions

* Fortran/C++ `double` is modelled by the exact reals `R` of the standard
  library unless a file says otherwise: theorems are about the algorithm in
  exact arithmetic, not about rounding. Comparisons use `Rlt_dec`/`Rle_dec`.
* `int` is `Z` (unbounded) unless the property is about overflow.
* Arrays are total functions on indices (`Z -> Z -> R`) when bounds are not the
  point; when they are, an access outside the declared bounds is a distinct
  outcome (`None`/`UB`).
* Fortran `stop`, `TBOX_ERROR`, failing `assert` are the distinct outcome
  `Abort` (or `None`), never a normal value.
* Calls into SAMRAI, SUNDIALS, hypre, MPI, Thermo4PFM are either arguments of the
  model (oracles) or not modelled. The list is in the "not modelled" section.

## Per property plan

| id | model | proof |
|----|-------|-------|
| C01-C03 | `EventInterval` as a state machine with operations Initial/Step/Final | invariant over operation lists; floor characterisation |
| C04-C06, C46, C59 | `PFModel::Run` as a function of an oracle `nat -> dt` producing a trace of actions; restart as put/get of the record; input deck defaults | induction on the loop measure; bisimulation between continued and restarted schedule; witness for the refuted initial dump |
| C07-C11, C47-C50 | `functions.f` polynomial by polynomial over R; integer index maps over Z | nra/field, `derivable_pt_lim`, finite case analysis |
| C12-C17, C51, C52 | `quat.f` over R | exact table over Z[sqrt 2], boolean check lifted to R; Cauchy-Schwarz for the early exit; ring identities |
| C18, C19, C53 | `quatcoarsen.m4`, `quatlinrefine.m4` over functions on Z with the `stop` outcome | case analysis; sums |
| C20, C26, C54, C55 | composition fluxes and right-hand side, multi-order kernels, sintering | telescoping by induction on the box; derivative of the list energy; witnesses |
| C21, C60 | three-phase kernels | ring, sign of each local term |
| C22, C57, C58 | pair force kernels as sums over the box; motion | induction/antisymmetry; telescoping |
| C23-C25 | partition, Aziz, weights | field/nra; triangle angle sum |
| C27, C44 | face stencils | field |
| C28, C29 | hierarchies as lists of levels of boxes; weights | counting of cells, induction over levels; witness |
| C30 | patch loops with the per-patch zeroing kernels | permutation of sums; witness |
| C31-C34 | grain labelling on a mask over a hierarchy | invariants + connectivity; witness by computation |
| C35 | tagging kernels | case analysis, fold over fields |
| C36 | pointer loops of `Noise::setField` | loop invariant over the traversal |
| C37-C39 | boundary table lookup with static state, UB on out-of-range access | induction on the scan; witnesses |
| C40 | table lookup with unsigned wrap-around | induction on the scan; witness |
| C41 | `adaptVelocity` state machine | induction over the history |
| C42 | tilting polynomials | field, derivatives along the simplex |
| C43 | gather of per-rank lists | induction over ranks |
| C45 | string functions | witness / case analysis |
| C56 | anti-trapping kernels | case analysis of the guard, sign of the flux |
| C61-C68 | orientation differences, gradients, fluxes, right-hand side, projection | equivalence of representatives through the group of C12; summation by parts; tangent space algebra |
| C69-C75 | phase and temperature right-hand sides and the energy reported | derivative of the box sum along a direction; real induction for the invariant interval; Taylor expansion with polynomial test fields |
| C76-C80 | driving forces of alloys; library energies and solver abstract (arbitrary functions that satisfy the equations) | envelope theorem by direct differentiation; factory tables by case analysis |
| C81-C86 | smoother, residual, level solve, flux correction of `EllipticFACOps` | loop invariants with colouring; contraction in the maximum norm; witnesses |
| C87, C88 | coefficients of the preconditioner blocks and the right-hand sides they should be derivatives of | derivatives along a direction; bound of the second derivative of the well |
| C89-C92 | composition diffusion coefficients and their face averages | bounds of averages; conservation by telescoping; witnesses |
| C93-C96 | orientation level solver and its assembly into a linear system | matrix entries against the residual, row by row; witnesses |
| C97-C102 | Cahn-Hilliard and sintering right-hand sides, rigid body motion | summation by parts, conservation, energy derivatives; witnesses |
| C103-C105 | filling of physical boundaries | case analysis on faces and corners of boxes |
| C106-C111 | prescribed temperatures, heat sources, heat capacity | derivatives, bounds, limits; witnesses |
| C112-C115 | files of initial conditions | round trip by induction over cells, levels and processes; single precision bound; witnesses |
| C116-C118 | grain volumes, concentrations, extension of orientations | sums over partitions; iteration invariants; witnesses by computation |
| C119-C120 | smoothing of orientations | convex combinations, bounds; witnesses |
| C121-C124 | mobility databases, mobility matrices, thermal diffusion | exponentials and quadratic forms; witnesses |
| C125-C127 | mobility of the order parameter | exact travelling front (Coquelicot derivatives and limits), integrals; loop invariant for running indices |
| C128-C131 | mobility of orientation and eta, orientation-phase block of the preconditioner | bounds, monotonicity, derivatives; block against the derivative of the right-hand side; witnesses |
| C132-C137 | one evaluation of the right-hand side; front velocity | every formula behind an array is an arbitrary function; invariants over sequences of calls; witnesses |
| C138-C142 | databases and property trees as lists of named entries; binary64 by Flocq | induction over nested sections; rounding bounds; witnesses |
| C143-C148 | multigrid driver and preconditioner callback over arbitrary level operations | induction over levels and cycles; block elimination; witnesses |
| C149-C154 | composition fluxes in three dimensions | loop lemmas; comparison with the plane kernels; witnesses |
| C155-C160 | phase and temperature equations in three dimensions | derivative of the cubic energy density; invariance under renaming of axes and left symmetries; comparison with the plane kernels |
| C161-C167 | energies in three dimensions | sums over boxes and partitions; bounds over directions; derivative of the reported energy against the right-hand side; witnesses |
| C168-C175 | orientation dynamics in three dimensions | equivalence of representatives; summation by parts; comparison with the plane kernels; witnesses |
| C176-C179 | composition diffusion coefficients in three dimensions | values of every face; invariance under axes, patches and renumbering; witnesses |
| C180-C183 | phase coupling coefficients of the composition flux, at the level of buffers and offsets | offset arithmetic; closed forms; expansion in the step of the phase; witnesses |
| C184-C189 | elliptic solver in three dimensions | loop invariants with colouring; contraction; telescoping of blocks; witnesses |
| C190-C193 | the matrix given to HYPRE, as entries packed into a buffer, and its rows | loop invariant of the packing; row of the matrix against the discrete operator; contraction argument of C83; witnesses |
| C194-C197 | sintering and rigid motion in three dimensions | summation by parts on boxes with periodic or mirrored axes; derivative of the energy; reduction to the plane; witnesses |
| C198-C200 | diffusion coefficients computed by C++ loops over flat memory | loop invariants on offsets in ghost boxes; independence of memory outside; witnesses |
| C201-C202 | transfer of orientations between levels in three dimensions | induction over the loops; sums over covered cells; witnesses |
| C203-C205 | prescribed temperatures and steady conduction in three dimensions | per-axis lemmas of C107 and C108; induction over calls; reduction of the heat capacity to a plane; witnesses |
| C206-C209 | printed scalar diagnostics | sums over lists of cells; the report as a list of labelled lines, filtered by label; witnesses |
| C210 | plotted diffusion coefficients | loop lemmas of Grid; map over patches; arithmetic of means |

## What is modelled

Files are in `/repo/source`, Fortran templates in `/repo/source/fortran`. Only the routines named are modelled.

| topic | properties | code modelled |
|---|---|---|
| EventInterval | C01-C03 | `EventInterval.cc` (constructors, `eventOccurredAtTime`, `includeInitial`, `hasIntervalPassed`) |
| Schedule, Run | C04-C06, C46, C59 | `PFModel.cc`: `Run`, `putToRestart`, `getFromRestart`, `getFromInput`; diagnostics hooks of `QuatModel.cc`. Field data and output are recorded as actions |
| Functions | C07-C11, C47-C50 | `fortran/functions.f` |
| Quat, QuatCoarsen | C12-C19, C51-C53 | `fortran/quat.f`; `2d/quatcoarsen.m4`, `2d/quatlinrefine.m4`; the face routines of `2d/quatdiffusion.m4` named in the comments |
| QuatFlow | C61-C68 | `2d/quatdiffs.m4`, `quatrotation.m4`, `quatgrad.m4` (the routines called with compact stencils), `quatfacops.m4` (fluxes, right-hand side, projection), `correctrhsquatforsymmetry.m4`; `computeQDiffs.cc`; `QuatGradModulusStrategy.cc`; projection in `QuatIntegrator.cc` |
| Transport, AntiTrap, Stencils | C20, C26, C27, C44, C54-C56 | `2d/concentrationrhs.m4`, `2d/flux.m4`, `laplacian.m4`, `sintering.m4`, `multiorder` kernels, `MovingFrameRHS.cc` |
| Forces | C22, C57, C58 | `2d` and `3d/forces.m4`, `RigidBodyForces.cc`, `WangRigidBodyForces.cc`, `PhaseRigidBodyForces.cc`, `RigidBodyMotionRHS.cc`, `2d/rbmotion.m4` |
| ThreePhase, Tilting | C21, C42, C50, C60 | `computerhsthreephases` and `projectphi` in 2D and 3D, `ThreePhasesRHSStrategy.cc`, `TiltingFolchPlapp2005.cc`, `TiltingMoelans2011.cc` |
| Partition | C23-C25 | `PartitionPhaseConcentrationsStrategy.cc`, `AzizPartitionCoefficientStrategy.cc`, `computeWeights3Pairs.cc` |
| Weights, Energy | C28-C30 | weights in `QuatModel.cc`/`EllipticFACOps.cc`; energy strategies and `2d/quatenergy.m4` |
| Grains, Tools | C31-C34, C43 | `Grains.cc` (numbering), `MinIntCoarsen.cc`, `tools.cc` (gathers) |
| Tagging, Noise | C35, C36 | `2d`/`3d` `quattag.m4`, `grad.m4`, `quatdiffs.m4` (plain), `HierarchyStencilOps.cc`, tagging in `QuatModel.cc`; `Noise::setField` |
| BcCoefs, TempHistory, MovingFrame, RunName | C37-C41, C45 | `TimeLocationIndexRobinBcCoefs.cc`, `TemperatureHistory.cc`, `AdaptMovingFrame.cc`, the default run name in `AMPE.cc` |
| PhaseFlow | C69-C75 | `2d/quatrhs.m4` (phase right-hand sides), `2d/temperature.m4` (heat equation), `PhaseRHSStrategyWithQ.cc`, `PhaseFluxStrategyFactory.h`, `DeltaTemperatureFreeEnergyStrategy.cc`, `LinearMeltingTemperatureStrategy.cc`, biased well |
| KKS | C76-C80 | the free energy strategies (CALPHAD binary, ternary, three phase, multi-order; quadratic; dilute), composition strategies and their factories; Thermo4PFM is a record of arbitrary functions |
| Elliptic, Precond | C81-C88 | `EllipticFACOps.cc` (smoother, residual, coarsest solve, flux fix), `2d/ellipticfacops.m4`, `PhaseFACOps.cc`, `TemperatureFACOps.cc`, `ConcFACOps.cc`, `PhaseTemperatureFACOps.cc`, the block products of `QuatIntegrator.cc` |
| Diffusion | C89-C92 | composition diffusion strategies and `2d/concentrationdiffusion.m4` |
| QuatSolver | C93-C96 | `QuatLevelSolver.cc`, `2d/quatlevelsolver.m4`, parts of `QuatFACOps.cc` and `2d/quatfacops.m4`, `QuatSysSolver.cc`; hypre is given its documented meaning; no periodic boundaries, no 3D |
| Sintering | C97-C102 | `CahnHilliardDoubleWell.cc`, `CompositionRHSStrategyFactory.h`, `SinteringUWangRHSStrategy.cc`, `WangSinteringCompositionRHSStrategy.cc`, `RigidBodyMotionRHS.cc`, `RigidBodyMotionConcRHS.cc`, `QuatModelParameters.cc:437-457,818-848`, `QuatIntegrator.cc:2496-2517,2653-2668`; 2D, one patch, continuous time |
| BcFill | C103-C105 | `CartesianRobinBcHelperWithDepth.cc:103-549,664-723` in 2D, `QuatRefinePatchStrategy.cc:122-141`; SAMRAI's boundary boxes and `settype1cells2d`/`settype2cells2d` by documented meaning |
| Temperature | C106-C111 | `ScalarTemperatureStrategy.cc`, `GaussianTemperatureStrategy.cc`, `GradientTemperatureStrategy.cc`, `NKRHeatCapacityStrategy.cc`, `SteadyStateTemperature*Source.cc`, `2d/temperature.m4`, `QuatModelParameters.cc:18-31,530-571`; 2D, one patch; that the elliptic solver solves its system is a hypothesis |
| InitFile | C112-C115 | `FieldsWriter.cc:54-471,495-522`, `FieldsInitializer.cc`, `QuatModel.cc:600-640,3614-3623`, `PFModel.cc:342-406`; netCDF by documented meaning, no overflow in single precision, SAMRAI's interpolation to the flattened level not modelled; 2D and 3D, any number of processes |
| GrainData | C116-C118 | `Grains.cc:642-1087`; SAMRAI fill and coarsen schedules and MPI by their effect |
| Smooth | C119-C120 | `2d` and `3d/smoothquat.m4`, `QuatModel.cc:3740-3803`, `computeQDiffs.cc:227-282`; one patch with given ghosts, one step; symmetry in 2D only |
| Mobility | C121-C124 | `CALPHADMobility.cc/.h`, `CompositionStrategyMobilities.cc:200-243`, `MobilityCompositionDiffusionStrategy.cc` (2D), `EBSCompositionRHSStrategy.cc:183-327` (regular stencil, two phases), `diagnostics.cc`, `CompositionRHSStrategyFactory.h`, `QuatModelParameters.cc:299-307`, `2d/concentrationrhs.m4:369-428`, `EBSCompositionRHSStrategyWithGradT.cc:56-68`; the Hessian is an argument |
| PhaseMob | C125-C127 | `QuatModelParameters.cc:1107-1178`, `QuatModelParameters.h:476-494`, `KKStools.cc`, `KimMobilityStrategy*.cc`, `MobilityFactory.h`, `KKSdiluteEquilibriumPhaseConcentrationsStrategy.cc:40-190`; the Hessian and the solver of a cell are arguments; the speed of a front is for the continuous equation in one dimension |
| QuatMob | C128-C131 | `QuatModelParameters.cc` (orientation and eta mobility), `QuatModel.cc` (`computeQuatMobility*`, `computeEtaMobility*`), `2d`/`3d/mobility.m4`, `DerivDiffusionCoeffForQuat.cc`, `2d/quatdiffusion.m4` (derivative), `QuatFACOps.cc:1840-1960` and the kernels it calls; block: 2D, one patch, one component |
| RhsEval | C132-C137 | `QuatIntegrator.cc:2396-2478,2482-2990,2992-3316`, `QuatIntegrator.h:274-328`, `QuatModel.cc:3630-3640,3813-3827,5302-5369`, `velocity` in `2d`/`3d/grad.m4`, `QuatModelParameters.cc:325-331,414-423`; formulas are arbitrary functions of the arrays they are given, noise off, frame velocity constant, prescribed temperature a function of time; an array is a list |
| DbCopy | C138-C142 | `drivers/convertDatabase2JSON.cc`, the places that open the thermodynamic file (`FreeEnergyStrategyFactory.h:46-165`, `PhaseConcentrationsStrategyFactory.h:45-62`, `KimMobilityStrategy*.cc`, `MobilityFactory.h:32-66`, `AzizPartitionCoefficientStrategy.cc:40-54`, `CALPHADFreeEnergyStrategyTernary.cc:67-73`, `CompositionStrategyMobilities.cc:36-39`, `QuatModel.cc:340-413`); boost property trees and SAMRAI databases by documented meaning |
| PrecSolve | C143-C148 | `QuatIntegrator.cc:426-553,3391-3905`, `samrai/FACPreconditioner.cc:75-109,267-465,580-693`, `QuatSysSolver.cc:296-348`, `DeltaTemperatureFreeEnergyStrategy.cc:143-182`; the operations on a level are arbitrary, ghost cells are not represented |
| Trap3 | C149-C154 | `3d/concentrationrhs.m4` except `addconcentrationfluxfromgradt` (the divergence is in Transport), `concentrationflux_spinodal` in 2D |
| Flow3 | C155-C160 | `3d/quatrhs.m4` except the unused `computerhseta` (`computerhsthreephases` is in ThreePhase), `3d/laplacian.m4`, `PhaseRHSStrategyWithQ.cc:150-314` |
| Energy3 | C161-C167 | `3d/quatenergy.m4`, `DeltaTemperatureFreeEnergyStrategy.cc:186-241`, `EnergyEvaluationStrategy.cc:15-58`, `TwoPhasesEnergyEvaluationStrategy.cc:41-177`, `MultiOrderPEnergyEvaluationStrategy.cc:28-46`, NDIM 3 |
| QuatFlow3 | C168-C175 | `3d/quatrotation.m4` quat_symm_rotation, `3d/quatdiffs.m4`, `3d/quatgrad.m4` (cell, side, symm, moduli), `3d/quatfacops.m4` (coefficients, fluxes, right-hand side, projection), `3d/correctrhsquatforsymmetry.m4`, `QuatFACOps.cc`, `QuatIntegrator.cc:2694-2803,3967-4070` |
| Diff3 | C176-C179 | `3d/concentrationdiffusion.m4`, `ScalarCompositionDiffusionStrategy.cc`, `TbasedCompositionDiffusionStrategy.cc`, `WangSinteringCompositionDiffusionStrategy.cc`, NDIM 3 |
| Coupl | C180-C183 | `KKSCompositionRHSStrategy.cc:205-441`, `BeckermannCompositionRHSStrategy.cc:190-466` (pointer level, NDIM 2 and 3) |
| Elliptic3 | C184-C189 | `3d/ellipticfacops.m4`, `EllipticFACOps.cc` (flux, smoother, residual, Ewing correction), `PhaseFACOps.cc:33-54,99-183`, NDIM 3 |
| Hypre | C190-C193 | `samrai/CellPoissonHypreSolver.cc` (matrix, boundary adjustment, packing, right-hand side, result), `2d/hyprepoisson.m4`, `EllipticFACOps.cc:1392-1434`; level 0 in 2D, packing also in 3D; SAMRAI's compdiag, adjbdry and adjustrhs and the symmetric storage of HYPRE as documented, its iteration not modelled |
| Sinter3 | C194-C197 | `3d/concentrationrhs.m4:437-454`, `3d/sintering.m4`, `3d/multiorder.m4`, `3d/rbmotion.m4`, `CahnHilliardDoubleWell.cc`, `WangSinteringCompositionRHSStrategy.cc`, `SinteringUWangRHSStrategy.cc:79-239`, `MultiOrderRHSStrategy.cc:246-258`, `RigidBodyMotionRHS.cc`, `RigidBodyMotionConcRHS.cc`, NDIM 3 |
| PtrDiff | C198-C200 | `MobilityCompositionDiffusionStrategy.cc:197-611` (pointer level, NDIM 2 and 3), `SpinodalCompositionRHSStrategy.cc` (flux in 2D; its base class is not in the repository) |
| QuatCoarsen3 | C201-C202 | `3d/quatcoarsen.m4`, `3d/quatlinrefine.m4`, `QuatWeightedAverage.cc:92-171` (NDIM 3), `QuatLinearRefine.cc:85-174` (NDIM 2 and 3) |
| Temperature3 | C203-C205 | `3d/temperature.m4` (without linearmeltingline), `GaussianTemperatureStrategy.cc`, `GradientTemperatureStrategy.cc`, `NKRHeatCapacityStrategy.cc:25-125`, `SteadyStateTemperature*Source.cc`, NDIM 3 |
| Report | C206-C209 | `QuatModel.cc:2601-2677` (without energies, extreme temperatures and mobilities), `2707-2729`, `5105-5178`, `5372-5396`, `QuatModelParameters.cc:811-829`, `toolsSAMRAI.cc:48-71`; SAMRAI sums over cells |
| DiffVisit | C210 | `QuatModel.cc:5401-5422`, `toolsSAMRAI.cc:112-154`, `2d/side2cell.m4`, `3d/side2cell.m4` |

## What is not modelled

* SAMRAI (meshes, communication, refine/coarsen schedules, databases), SUNDIALS/CVODE, hypre, MPI, Thermo4PFM, HDF5/VisIt output.
  Where a routine needs them they are arguments of the model or are given their documented meaning.
* Rounding, overflow of `double`, NaN. Integer overflow except where stated.
* Array bounds and aliasing of Fortran kernels except where a property is about them (C36, C37-C40).
* 3D versions of kernels except those listed above (forces, tagging, three-phase, projection, smoothing, files, running indices, composition fluxes, phase and temperature equations, energies, orientation dynamics, diffusion coefficients, elliptic solver, packing for HYPRE, sintering and rigid motion).
* `QuatModel.cc` and `QuatIntegrator.cc` apart from the pieces named above: initialisation, regridding control.
* `EtaFACOps.cc`, `EllipticFACSolver.cc`, `KKSCompositionRHSStrategy.cc`,
  `QuatFaceCoeff.cc`, `SpinodalCompositionRHSStrategy.cc`, `TemperatureStrategyFactory.h`.
* Input parsing in `QuatModelParameters.cc` apart from the lines named above.

## Findings

Places where the code as modelled violates the property a user would expect; each is a `_refuted` theorem or is
recorded in the comment of a `_partial` one, except those marked (read), which were seen but not modelled.

* A requested initial restart file is not written unless regridding is on (C05); restart misses the first time-based event (C06).
* `derivquatrotationmatrixdq` has two wrong entries (C16). Symmetry-aware level transfer always stops (C18).
* Interpolation `l`: derivative is 1 outside the interval; `s`: function and derivative use different arguments (C08); harmonic derivative average inverted (C47).
* `computerhsmultiorder` misses a square: not the derivative of the energy (C26).
* Diagnostics weights count covered cells twice (C29). Energies of all patches but the last are lost (C30).
* Grain numbering can be cut off before it converges (C33); labels collide between levels (C34).
* Time-dependent boundary lookup reads past the table and shares state between objects (C37-C39). Temperature history wraps around at the first position (C40).
* Well type hard-coded in the phase right-hand side, `PhaseRHSStrategyWithQ.cc:243`, while energy and preconditioner use the input (C69, C87).
* `applydPhidTBlock` uses the wrong field and never multiplies by the vector (`QuatIntegrator.cc:3408-3420`) (C87).
* Anisotropic flux: mirrored angle, sign and orientation-length errors (C71). Conduction ignores the heat capacity (C73).
* Three-phase CALPHAD force hard-codes one tilting function (C79); solver weights differ from force weights (C78, C79); factory pairs strategies of different thermodynamic models (C80); KKS dilute equilibrium passes phi instead of h(phi) (C76).
* Elliptic solver: coarse mesh spacing used on refined levels (C85); odd rows of negative index skip cells of one colour (C81); early stop looks at the last patch only (C84); flux fix uses the diffusion of component 0 (C86).
* (read) `CALPHADequilibriumPhaseConcentrationsStrategy` work array `x[4]` too small for a ternary alloy with three phases.
* (read) `d_forces` sized by the first kind of order parameters while `QuatIntegrator.cc:2511` loops over both kinds.
* (read) `TimeLocationIndexRobinBcCoefs::numberOfExtensionsFillable` is 8.
* (read) a `Symmetry{}` block without `enabled` leaves symmetry off (`QuatModel.cc:505-512`).
* Composition diffusion: interpolation `biased` is accepted by the input and then stops (C89); temperature-dependent kernels use the lower cell twice for the liquid on y faces, `concentrationdiffusion.m4:499-500` (C89, C91); the default harmonic average blocks diffusion across an interface (C89); three-phase weights with the quintic interpolation do not sum to one (C89); faces on patch boundaries get half of the grain boundary diffusion, and the isotropic stencil reads ghost faces that were not filled (C90); the Beckermann kernel uses the partition coefficient of the upper cell (C91).
* Orientation solver: at a physical boundary the diagonal uses the inside mobility twice, so the system differs from the residual (C93); solver types 2 and 3 solve component 0 only (C96).
* Sintering: mobility squared, wrong powers of the gradient factor, last grain immobile (C99, C102). Only the first ghost layer at physical boundaries is filled while kernels read two (C105).
* Temperature: jump to a target on the wrong side (C106); a Gaussian with constant peak never moves (C107); state of the adaptive frame is not in restart files (C109); rescaled heat capacity is scaled only once (C110).
* Files of initial conditions: only the first order parameter is kept and is read into all (C113); rescaled temperatures are divided twice (C114); `slice_index` has no effect, too many quaternion components are accepted (C115).
* Grain extension is cut off, reads unfilled ghosts, and may never converge with an idle process (C118). Smoothing loses unit length and does not rotate back (C120); the 3D weight leaves a checkerboard undamped (C119).
* Mobilities: a fourth species overwrites the first, arrays of three numbers are overrun, the ternary formula forgets higher orders, a table section is repeated (C121); matrices of a ternary alloy are multiplied in the wrong order (C123); thermal diffusion and the spinodal model always stop (C124).
* Phase mobility: interface mobility ignored with three phases (C125); infinite for equal compositions, wrong constant for the cubic interpolation, jump where the polynomial changes sign (C126).
* Orientation mobility: `max_orient_mobility` multiplies, the default scale of the exponential function gives NaN (C128); derivative kernels wrong where the function is limited (C129); default minimum for eta above the value in the liquid (C130); the block uses the square root of the mobility (`QuatFACOps.cc:1953`) and forgets the second interpolation (C131). (read) `QuatIntegrator.cc:2969` passes eta as phase.
* Aziz partition coefficient: the integrator compares its own velocity array, which nothing assigns, with itself; the fixed point iteration ends after one turn, the phase equation uses the velocity of the previous call, and a NaN in the array means an endless loop; `velocity_output=FALSE` breaks the run (C134). The phase gradient behind the velocity is cached by time only (C135). The threshold uses dx in x only (C137).
* `lag_quat_sidegrad`, on by default, also freezes the diffusion of composition in Jacobian products (C133).
* (read) off-diagonal diffusion of ternary alloys is never set by the temperature-based strategy; preconditioner depth `(ic+1)^2-1` (`EBSCompositionRHSStrategy.cc:374`) is right for at most two compositions.
* (read) `norderp_B > 0` makes `getPairForce` read out of bounds. `CartesianRobinBcHelperWithDepth` ignores its constructor argument.
* (read) `temperature_type "file"` passes the check and then stops; `GrainDiagnostics` `minimum_size` is never used; `resetGrains` always acts at the first step.
* (read) `zetaLB` not given leaves its coefficients unset; a ternary alloy with three phases uses the two-phase mobility.
* (read) `SpinodalCompositionRHSStrategy` takes the phase index for eta.
* Databases: `copyDatabase` drops booleans, so `verbose = TRUE` of a `NewtonSolver` section never arrives (C138); numbers arrive with ten digits (C139); lists of one number and booleans differ between JSON and database files (C140); a JSON file stops ternary alloys, atomic mobilities and the Aziz model, names of fewer than four letters throw, Aziz without a `NewtonSolver` section fails (C141).
* Preconditioner: a residual equal to the tolerance stops the cycles and reports failure (C144); with several order parameters only the last is coupled, the phase-temperature block ignores the temperature (C146); with `precond_has_dPhidT` the result depends on the old contents of z (C147); an absent and an empty `Preconditioner` section have different defaults, without one runs with orientations stop (C148).
* Composition fluxes in 3D: the three-phase anti-trapping current has the opposite sign (C152); with several order parameters a front along z has no anti-trapping current and a front along y leaks through z-faces (C153); the spinodal kernel clears its y-fluxes (C154).
* Phase equation in 3D: the anisotropic flux uses the mean quaternion, zero between q and -q (C155); it depends on which symmetry equivalent is stored (C156); the plane and the 3D kernel mean mirror images for the same quaternion (C158); the undercooling averages neighbours with other weights than in the plane (C159); `compute_flux_isotropic` stops (C160).
* Energies in 3D: orientation, well and bulk energies count the last patch of a process only (C161); the floor is missing on the upper y-side, the second phase has no orientation energy (C162); small slopes are weighted below the softest direction (C163); the undercooling force does not lower the reported energy where the temperature is curved (C166); pair energies count the last patch, their map the last pair (C167).
* Orientation in 3D: builds with asserts abort on symmetry-aware runs; without them fluxes are not turned back, equivalent orientations move, and the energy can grow (C169, C171, C172, C174); the default modulus vanishes between differing cells (C173); the isotropic stencil cannot be used (C175).
* Diffusion coefficients in 3D with several order parameters and temperature dependence: the liquid is averaged with the wrong neighbour on y and z faces, only the last grain of B counts on z faces (C176, C177, C179); interface diffusion is halved on patch boundaries (C178).
* Phase coupling of composition: Beckermann's coefficient takes k of the x neighbour on all sides and addresses c with the ghost box of k (C182); flux at equilibrium with the polynomial interpolation or the harmonic average (C181, C183).
* Elliptic solver in 3D: same findings as in 2D; cells are skipped on patches whose first index sum is negative (C184, C187-C189).
* Direct coarse solver: boundary rule scaled by the roots of a mobility that changes across the boundary (C190); boundary values multiplied by the root of the mobility (C192); levels one cell thick overrun the buffer in 3D, collapse to a point (one cell wide), or keep couplings across (one cell high, periodic) (C193).
* Sintering in 3D: multi-order coupling uses phi where phi^2 is needed, so that it is no gradient flow in interfaces (C196), as in 2D.
* Diffusion with mobilities: compositions are checked beside x sides only (C199). Spinodal strategy: stores the index of the phase for eta (C200).
* Symmetry aware transfer of orientations: stops in 3D too; the refinement operator cuts the last layer off every box (C202).
* Gaussian temperature in 3D: with constant peak the center never moves (C203), as in 2D.
* Printed diagnostics: the solid fraction is a mean of absolute values (C206); the coring factor is never printed (C207); `norderp_A` out of range stops the report, and with three phases the second is taken for the voids (C208).

## Trusted base

* Coq 8.16.1's kernel (and `coqchk`, used as a second check).
* The axioms that `Print Assumptions` prints under each theorem, listed below. All are of the standard library.
* The reading of the sources recorded in the comments of `*_Model.v`, and that properties say what a user means.

### Assumptions per theorem

**`ClassicalDedekindReals.sig_forall_dec`, `ClassicalDedekindReals.sig_not_dec`, `Classical_Prop.classic`, `FunctionalExtensionality.functional_extensionality_dep`** — 337 theorems:
`C07_clamped_types`, `C07_half_clamped_types`, `C07_overshoot_refuted`, `C07_s_negative_refuted`, `C08_first_derivatives`, `C08_linear_inside_partial`, `C08_linear_outside_refuted`, `C08_logcosh_negative_refuted`, `C08_logcosh_partial`, `C08_second_inside_partial`, `C08_second_missing_refuted`, `C08_second_outside_refuted`, `C08_second_p`, `C08_wells`, `C16_complex_derivative`, `C16_derivative_partial`, `C16_derivative_refuted`, `C16_entry_313`, `C16_entry_322`, `C21_rhs_3d`, `C21_rhs_gradient_flow`, `C21_rhs_gradient_flow_wells`, `C22_newton_2d`, `C22_newton_3d`, `C22_total_force_2d`, `C22_total_force_3d`, `C22_wang_value_2d`, `C22_wang_value_3d`, `C23_partition`, `C23_pure_phases`, `C23_zero_coefficient_refuted`, `C24_consumer_accepts`, `C24_consumer_refuted`, `C25_mobility_between`, `C25_mobility_two_phases`, `C25_partition_of_unity`, `C25_symmetric_01`, `C25_symmetric_12`, `C25_two_phases`, `C26_gradient_flow_refuted`, `C27_composition_flux_fourth_x`, `C27_composition_flux_fourth_y`, `C27_composition_flux_x`, `C27_composition_flux_y`, `C27_fourth_boundary_x`, `C27_fourth_boundary_y`, `C27_fourth_order_x`, `C27_fourth_order_y`, `C27_isotropic3_x`, `C27_isotropic3_y`, `C27_isotropic3_z`, `C27_isotropic_x`, `C27_isotropic_y`, `C27_second_order_x`, `C27_second_order_y`, `C30_decomposition`, `C30_defined`, `C30_last_patch`, `C30_map`, `C30_one_patch_per_rank_partial`, `C30_sums_partial`, `C30_well_free_refuted`, `C42_derivatives`, `C42_triple_well`, `C44_centred`, `C44_upwind`, `C44_upwind_boundary`, `C47_arithmetic_derivative`, `C47_harmonic_derivative_partial`, `C47_harmonic_derivative_refuted`, `C48_complement_ratio`, `C48_ratio`, `C50_gradient_exists`, `C50_projected_gradient`, `C51_inverse_norm_bounds`, `C54_flux_is_potential_gradient`, `C54_uniform_no_flux`, `C55_flux_from_energy`, `C55_rhs_from_energy`, `C58_momentum_2d`, `C58_momentum_3d`, `C60_folchplapp_absent_stays_partial`, `C67_face_coefficients`, `C69_delta_temperature`, `C69_descent`, `C69_gradient`, `C69_isotropic_refuted`, `C69_single_well_refuted`, `C70_anisotropic_refuted`, `C70_bounds`, `C70_linear_refuted`, `C70_stretched_refuted`, `C71_angle_refuted`, `C71_mirror_refuted`, `C71_none`, `C71_sign_refuted`, `C71_x`, `C71_y`, `C72_isotropic`, `C72_simple`, `C73_heat_conserved`, `C73_temperature_bounds`, `C74_metastable`, `C74_runaway`, `C74_sign`, `C74_utrc_bounded`, `C75_gradient`, `C76_gradient`, `C76_only`, `C76_ternary`, `C76_two_types_refuted`, `C76_volumes_refuted`, `C77_direction`, `C77_pure`, `C78_gradient`, `C78_single_grain`, `C78_ternary`, `C78_two_phase_refuted`, `C79_edge`, `C79_edges`, `C79_gradient_partial`, `C79_weights_refuted`, `C87_composition`, `C87_phase`, `C87_phase_temperature_refuted`, `C87_single_well_refuted`, `C87_temperature`, `C87_temperature_phase`, `C89_beckermann`, `C89_biased_refuted`, `C89_harmonic_refuted`, `C89_kks`, `C89_pbg_three_phases_refuted`, `C89_scalar_single`, `C89_scalar_three_phases`, `C89_scalar_two_phases`, `C89_temperature_single`, `C89_temperature_three_phases`, `C89_temperature_x_faces`, `C89_y_faces_refuted`, `C90_interface_patches_refuted`, `C90_isotropic_flux`, `C90_isotropic_flux_refuted`, `C90_patches`, `C91_axes_refuted`, `C91_beckermann_mirror_refuted`, `C91_isotropy`, `C92_renumbering_scalar`, `C92_renumbering_sintering`, `C92_renumbering_temperature`, `C92_scalar`, `C92_sintering`, `C92_temperature`, `C97_cahn_hilliard`, `C98_sintering`, `C99_mobility_refuted`, `C99_mobility_squared`, `C99_proportional_partial`, `C99_width`, `C99_width_refuted`, `C100_stationary`, `C101_bounds`, `C102_last_grain_refuted`, `C105_cahn_hilliard_refuted`, `C105_phase`, `C105_sintering_refuted`, `C107_bounds`, `C107_moving_refuted`, `C112_error`, `C112_round_trip`, `C112_second_time`, `C113_copies`, `C113_first_only`, `C113_numbered`, `C113_order_parameters_refuted`, `C113_two_partial`, `C114_divided_again`, `C114_kelvin`, `C114_prescribed`, `C114_rescaled_refuted`, `C115_components_refuted`, `C115_needed_variables`, `C115_size_checked`, `C115_slice_ignored`, `C115_slice_refuted`, `C115_uniform_values`, `C121_binary`, `C121_edge_partial`, `C121_edge_refuted`, `C121_exchange`, `C121_fourth_refuted`, `C121_positive`, `C121_pure`, `C121_second_section_refuted`, `C121_table`, `C121_ternary`, `C122_darken`, `C122_edge`, `C122_frame`, `C122_matrix`, `C123_binary`, `C123_darken`, `C123_dissipates_partial`, `C123_dissipates_refuted`, `C123_fick`, `C123_margin_refuted`, `C123_ternary`, `C125_balance_partial`, `C125_interface_speed`, `C125_kinetics`, `C125_three_phases_refuted`, `C126_equal_refuted`, `C126_harmonic_refuted`, `C126_jump_refuted`, `C126_polynomial`, `C126_series`, `C128_cells`, `C128_default_scale_refuted`, `C128_max_refuted`, `C128_no_ghosts`, `C128_value`, `C129_cells`, `C129_exponential_refuted`, `C129_inverse_refuted`, `C129_slope_partial`, `C130_cells`, `C130_default_refuted`, `C130_range`, `C130_warmer`, `C131_block_partial`, `C131_exact_iff`, `C131_face_partial`, `C131_harmonic_refuted`, `C131_interp2_refuted`, `C131_sqrt_refuted`, `C131_threshold_refuted`, `C138_booleans_refuted`, `C138_found`, `C138_nothing_else`, `C139_close`, `C139_exact`, `C139_unchanged_refuted`, `C140_converted`, `C140_one_element_refuted`, `C140_same_content_partial`, `C141_json_refuted`, `C141_same_data`, `C141_starts`, `C150_cahn_hilliard`, `C150_sintering`, `C151_cahn_hilliard`, `C151_sintering`, `C155_strategy_partial`, `C155_x_partial`, `C155_y_partial`, `C155_z_partial`, `C157_rhs_turn`, `C158_mirror_refuted`, `C158_slab_x_partial`, `C158_slab_y_partial`, `C159_slab_partial`, `C159_undercooling_refuted`, `C160_isotropic_refuted`, `C160_simple`, `C161_cuts_partial`, `C161_lasts`, `C161_map`, `C161_names`, `C161_parts_refuted`, `C161_single_partial`, `C161_sums`, `C162_axes_partial`, `C162_floor_refuted`, `C162_phases_refuted`, `C162_uniform`, `C163_bounds`, `C163_fluxes_partial`, `C163_small_refuted`, `C163_soft_partial`, `C163_symmetry_partial`, `C163_symmetry_refuted`, `C164_mirror_refuted`, `C164_slab_partial`, `C165_descent_partial`, `C166_curvature_refuted`, `C166_descent_partial`, `C169_coefficients`, `C175_face_coefficients`, `C176_beckermann`, `C176_faces_refuted`, `C176_kks`, `C176_last_grain_refuted`, `C176_scalar_single`, `C176_scalar_three_phases`, `C176_scalar_two_phases`, `C176_temperature_single`, `C176_temperature_three_phases_partial`, `C176_temperature_two_phases_partial`, `C177_axes_refuted`, `C177_beckermann_mirror_refuted`, `C177_grains_refuted`, `C177_isotropy`, `C178_interface_patches_refuted`, `C178_patches`, `C178_plane`, `C178_plane_temperature_partial`, `C178_slab`, `C179_renumbering_refuted`, `C179_renumbering_scalar`, `C179_renumbering_sintering`, `C179_renumbering_temperature_partial`, `C179_scalar`, `C179_sintering`, `C179_temperature`, `C180_coefficient`, `C180_memory`, `C181_linear`, `C181_uniform_partial`, `C181_zero_refuted`, `C182_coefficient_partial`, `C182_ghosts_refuted`, `C182_neighbour_refuted`, `C182_range_refuted`, `C182_stops`, `C183_equilibrium_partial`, `C183_equilibrium_refuted`, `C194_cahn_hilliard`, `C194_plane`, `C195_plane`, `C195_rates`, `C195_sintering`, `C196_gradient_flow_refuted`, `C198_memory`, `C198_patch`, `C198_weighted`, `C203_bounds`, `C203_moving_refuted`.

**`ClassicalDedekindReals.sig_forall_dec`, `FunctionalExtensionality.functional_extensionality_dep`** — 309 theorems:
`C01_yes_at_most_once`, `C01_yes_separated`, `C02_no_multiple_skipped`, `C02_time_run`, `C02_time_step`, `C02_time_step_defined`, `C03_cycle_step`, `C03_cycle_step_defined`, `C03_inactive_never`, `C04_files`, `C04_step_count`, `C04_steps_and_limits`, `C04_terminates`, `C05_initial_restart_iff_regrid`, `C05_initial_restart_refuted`, `C05_unrequested_restart_refuted`, `C06_restart_regrid_refuted`, `C06_restart_time_schedule_refuted`, `C06_restart_transparent_partial`, `C09_double_well`, `C09_minima_stationary`, `C09_single_well`, `C10_arithmetic`, `C10_harmonic`, `C10_reproduces`, `C10_symmetric`, `C12_associative`, `C12_hamilton_product`, `C15_complex`, `C15_homomorphism`, `C15_proper`, `C15_sign_and_conjugate`, `C20_flux_values`, `C20_mass_balance`, `C20_mass_balance_3d`, `C20_mass_conserved`, `C20_outside_3d`, `C20_periodic_run`, `C20_rhs_values`, `C21_finer_levels_refuted`, `C21_level0_projected_partial`, `C21_projection`, `C21_projection_3d`, `C21_rhs_sum_zero`, `C22_phiphi_newton_refuted`, `C22_phiphi_value_2d`, `C24_above_one`, `C24_at_rest`, `C24_below_one`, `C24_limit`, `C24_monotone`, `C25_zeta`, `C26_rhs_value_partial`, `C27_composition_flux_boundary_x`, `C27_composition_flux_boundary_y`, `C27_laplacian`, `C27_laplacian_only`, `C27_only_patch_faces`, `C28_cell_weight`, `C28_integral`, `C28_kept_by_diagnostics`, `C28_solver_default`, `C28_solver_levels`, `C28_volume`, `C29_cell_weight_partial`, `C29_overcount`, `C29_refuted`, `C30_pairs_last_patch`, `C30_pairs_map`, `C30_pairs_map_refuted`, `C30_pairs_refuted`, `C30_pairs_symmetric`, `C35_only_patch`, `C36_amplitude`, `C37_files`, `C37_forward`, `C37_interpolation`, `C37_rescale`, `C37_stop_iff`, `C38_end_refuted`, `C38_inside_partial`, `C38_shared_refuted`, `C38_single_refuted`, `C39_refuted`, `C39_same_times_partial`, `C40_bilinear_partial`, `C40_bounds`, `C40_early`, `C40_exact`, `C40_file_partial`, `C40_first_position_refuted`, `C40_last_time_refuted`, `C40_outside`, `C40_points_partial`, `C41_bound`, `C41_first`, `C41_step`, `C42_gradient_unique`, `C42_outside`, `C42_partition`, `C42_pure`, `C43_rank_order`, `C43_sums`, `C43_total`, `C44_at_rest`, `C44_only_patch`, `C46_max_delta_both_refuted`, `C46_max_delta_input`, `C46_max_delta_restart_partial`, `C48_same_type`, `C49_bounded`, `C49_sign_refuted`, `C50_sum_zero`, `C52_total_symmetry`, `C53_affine_exact`, `C53_position`, `C57_phiphi_3d_misplaced_refuted`, `C57_phiphi_3d_weight_refuted`, `C58_rate`, `C58_volume_kept`, `C59_accepted_types`, `C59_built_cycle`, `C59_built_time`, `C59_deck_restart`, `C59_deck_run`, `C60_moelans_refuted`, `C73_varying_refuted`, `C75_balance`, `C75_only`, `C78_balance_calphad`, `C78_balance_quadratic`, `C78_balance_ternary`, `C78_only`, `C81_negative_rows_refuted`, `C81_sweep`, `C82_fixed_points`, `C82_one_sweep`, `C84_early_end`, `C84_two_patches_refuted`, `C85_consistent`, `C85_refined_refuted`, `C85_spacings`, `C86_component_refuted`, `C86_exact`, `C86_spacing_refuted`, `C88_singular_refuted`, `C92_bound`, `C92_boundary`, `C92_bulk`, `C92_nonnegative`, `C93_ghost_mobility_refuted`, `C93_system_is_residual_partial`, `C94_positive_definite`, `C94_symmetric`, `C94_unique_solution`, `C96_amg_refuted`, `C96_components_partial`, `C100_minima`, `C102_composition`, `C102_conservation`, `C102_momentum_partial`, `C102_motion`, `C102_velocity`, `C103_condition`, `C103_corners`, `C103_order`, `C103_rest_untouched`, `C104_affine_exact`, `C104_no_flux_mirrors`, `C104_rescaled_units`, `C105_fourth_order`, `C105_moving_frame`, `C105_temperature`, `C106_facts`, `C106_field`, `C106_ramp`, `C106_unlimited`, `C106_wrong_side_refuted`, `C107_peak`, `C108_average`, `C108_history`, `C108_history_exact`, `C108_laboratory`, `C109_adaptive_refuted`, `C109_error`, `C109_first_refuted`, `C109_fixed_frame`, `C109_uniform`, `C110_bounds`, `C110_constant_partial`, `C110_constant_refuted`, `C110_mixture`, `C110_rescaled`, `C111_composition`, `C111_minimum`, `C116_any_distribution`, `C116_every_grain`, `C116_volumes`, `C117_averages`, `C117_bounds`, `C117_deviation`, `C119_average_3d`, `C119_keep_3d`, `C119_oscillation_3d_refuted`, `C119_range_3d`, `C124_absent`, `C124_kernel_partial`, `C124_thermal_refuted`, `C125_kinetics_ignores`, `C128_input`, `C134_turns`, `C143_truthful`, `C143_work_array`, `C144_all_cycles_refuted`, `C144_cycles`, `C144_one_level`, `C145_exact_partial`, `C145_identity`, `C145_rows_partial`, `C145_uncoupled_partial`, `C146_all_order_parameters_refuted`, `C146_dPhidT_refuted`, `C146_last_partial`, `C146_others_unused`, `C147_memory_partial`, `C147_old_correction_refuted`, `C147_old_result_refuted`, `C148_default_stops`, `C148_empty_runs`, `C148_runs`, `C149_cahn_hilliard_swap`, `C149_cahn_hilliard_turn`, `C149_diffusion_swap`, `C149_diffusion_turn`, `C149_sintering_swap`, `C149_sintering_turn`, `C150_diffusion`, `C154_other_faces_partial`, `C154_shared_face_refuted`, `C154_slab_refuted`, `C159_frame`, `C159_frame_upwind`, `C159_order_parameters`, `C159_temperature`, `C160_temperature`, `C166_energies`, `C166_outside`, `C167_lasts`, `C167_map_partial`, `C167_map_refuted`, `C167_patches_refuted`, `C167_symmetric`, `C181_bulk`, `C184_colours`, `C184_negative_corner_refuted`, `C184_residual`, `C184_sweep`, `C185_fixed_points`, `C185_one_sweep`, `C187_early_end`, `C187_two_patches_refuted`, `C188_consistent`, `C188_refined_refuted`, `C188_spacings`, `C189_component_refuted`, `C189_exact`, `C189_spacing_refuted`, `C191_return`, `C196_outside_partial`, `C196_plane_partial`, `C196_rhs_value_partial`, `C197_composition`, `C197_kept`, `C197_phases`, `C197_plane`, `C198_phases`, `C199_checks_refuted`, `C200_coefficient`, `C200_eta_refuted`, `C200_flux_partial`, `C204_history`, `C204_history_exact`, `C204_laboratory`, `C205_bounds`, `C205_composition`, `C205_mixture`, `C206_eta_partial`, `C206_fractions`, `C206_prints`, `C206_range`, `C206_solid_partial`, `C206_solid_refuted`, `C206_sum`, `C207_coring_refuted`, `C207_integrals`, `C207_maxima`, `C208_density_partial`, `C208_range`, `C208_stops_refuted`, `C208_three_phases`, `C209_conserved`, `C209_energy`, `C209_rescaled`, `C210_affine_2d`, `C210_affine_3d`, `C210_bounds_2d`, `C210_bounds_3d`, `C210_plot_2d`, `C210_plot_3d`.

**`ClassicalDedekindReals.sig_forall_dec`, `ClassicalDedekindReals.sig_not_dec`, `FunctionalExtensionality.functional_extensionality_dep`** — 163 theorems:
`C12_closed`, `C12_inverses`, `C12_table`, `C13_angle_eighth_turn`, `C13_search_angle`, `C13_search_complex`, `C13_search_quaternion`, `C13_search_quaternion_any`, `C14_isometry`, `C14_rejects`, `C14_roundtrip_angle`, `C14_roundtrip_complex`, `C14_roundtrip_quaternion`, `C17_angle`, `C17_idempotent`, `C17_unit`, `C17_zero`, `C18_coarsening_stops_refuted`, `C18_refinement_stops_refuted`, `C19_local`, `C19_mean_angle`, `C19_mean_complex`, `C19_mean_quaternion`, `C19_uniform`, `C35_monotone_2d`, `C35_monotone_3d`, `C35_other_order_parameters_refuted`, `C35_tags_2d_partial`, `C35_tags_3d_partial`, `C51_inverse_norm_exact`, `C52_cubic_invariance`, `C56_bounded`, `C56_direction`, `C56_multiorder_matches_two_phase`, `C56_stationary`, `C56_three_phase_reduces_refuted`, `C61_differences`, `C61_rotations_found`, `C62_differences`, `C62_moduli`, `C62_motion`, `C63_length`, `C64_default_aborts_refuted`, `C64_default_refuted`, `C64_default_reversed`, `C64_equivalent_neighbours`, `C64_identity`, `C65_projection`, `C66_descent_plain`, `C66_descent_symmetric`, `C68_cells_refuted`, `C68_cells_zero`, `C68_linear`, `C68_sides_zero`, `C83_coarsest`, `C83_levels`, `C88_solvable`, `C92_nonnegative_temperature`, `C95_residual`, `C95_solution`, `C107_follows_partial`, `C107_patches`, `C107_profile`, `C107_stays`, `C111_gaussian`, `C119_average`, `C119_length`, `C119_oscillation`, `C119_range`, `C119_smoother`, `C120_no_rotation_partial`, `C120_representative_refuted`, `C120_symmetric`, `C120_unit_only_if_uniform`, `C132_history`, `C132_returns`, `C132_value`, `C133_composition_refuted`, `C133_lagged_partial`, `C134_nan`, `C134_output_refuted`, `C134_repeat_refuted`, `C134_value_partial`, `C135_regrid`, `C135_same_time`, `C135_stale_refuted`, `C135_velocity_partial`, `C136_shown`, `C137_axes_refuted`, `C137_bounds`, `C137_bulk`, `C137_cells`, `C137_front`, `C149_antitrapping_swap`, `C149_antitrapping_three_swap`, `C149_antitrapping_three_turn`, `C149_antitrapping_turn`, `C150_antitrapping`, `C150_antitrapping_three`, `C152_bounded`, `C152_direction`, `C152_stationary`, `C152_three_phase_reduces_refuted`, `C153_front_x_partial`, `C153_front_y_partial`, `C153_front_z_refuted`, `C153_no_leak_refuted`, `C153_slab_refuted`, `C155_isotropic`, `C155_opposite`, `C155_opposite_refuted`, `C155_small_partial`, `C156_left_partial`, `C156_symmetry_refuted`, `C157_swap`, `C157_turn`, `C158_slab_z`, `C168_differences`, `C168_rotations_found`, `C169_aborts_refuted`, `C169_differences`, `C169_gradients`, `C169_moduli`, `C169_motion_refuted`, `C170_length`, `C170_projection`, `C171_default_refuted`, `C171_equivalent_neighbours_partial`, `C171_identity`, `C172_descent_plain`, `C172_descent_refuted`, `C173_cells_refuted`, `C173_cells_zero_partial`, `C173_linear`, `C173_sides_zero`, `C174_axes`, `C174_slab_partial`, `C174_slab_refuted`, `C175_isotropic_refuted`, `C186_coarsest`, `C186_levels`, `C186_phase_block`, `C190_equations`, `C190_mobility_refuted`, `C190_problem_solved`, `C191_smoother_limit`, `C192_boundary_values`, `C192_mobility_refuted`, `C193_row_refuted`, `C194_outside`, `C201_grain`, `C201_local`, `C201_mean_angle`, `C201_mean_complex`, `C201_mean_quaternion`, `C202_coarsening_stops_refuted`, `C202_refinement_refuted`, `C203_follows_partial`, `C203_outside`, `C203_patches`, `C203_profile`, `C203_stays`, `C205_gaussian`.

**none (closed under the global context)** — 46 theorems:
`C11_storage_2d`, `C11_storage_2d_injective`, `C11_storage_3d`, `C11_storage_3d_injective`, `C11_voigt_2d`, `C11_voigt_2d_bijective`, `C11_voigt_3d`, `C11_voigt_3d_bijective`, `C31_local`, `C31_smallest`, `C32_levels_partial`, `C32_one_level_partial`, `C32_two_levels_refuted`, `C33_enough_sweeps_partial`, `C33_limit_refuted`, `C34_level_partial`, `C34_levels_refuted`, `C34_overflow_refuted`, `C43_gather`, `C43_gather_size`, `C45_cwd_partial`, `C45_directory_partial`, `C45_given`, `C45_root_refuted`, `C80_agree`, `C80_differ_refuted`, `C118_complete_partial`, `C118_converges_partial`, `C118_ghosts_refuted`, `C118_grains_keep`, `C118_idle_process_refuted`, `C118_limit`, `C118_limit_refuted`, `C118_nearest`, `C118_two_patches_refuted`, `C124_recursion_refuted`, `C127_dilute`, `C142_entries_partial`, `C142_exact`, `C144_same_algorithm`, `C148_blocks`, `C148_disabled`, `C148_empty_section_refuted`, `C148_no_section`, `C193_column_refuted`, `C200_accepts`.

**`ClassicalDedekindReals.sig_forall_dec`** — 7 theorems:
`C06_restart_roundtrip`, `C36_storage`, `C121_three_numbers`, `C127_kim`, `C193_packing`, `C193_packing_plane`, `C193_thin_refuted`.

**`ClassicalDedekindReals.sig_forall_dec`, `Classical_Prop.classic`, `FunctionalExtensionality.functional_extensionality_dep`** — 1 theorems:
`C199_stops_partial`.

