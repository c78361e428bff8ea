# Formal model of UltraDMRG (QuantumLiquids/UltraDMRG) in Rocq

Sources are cited relative to `/repo/include/qlmps`.  Properties are listed in
`properties.jsonl` (C01, C02, ...), theorems per property in `MANIFEST.json`.

## Method

* Models are total, computable Gallina functions over `nat`, `list`, `option`, records.  Undefined
  behaviour (out-of-range `std::vector` access, null dereference, double free), failing `assert`s and
  `exit(1)`/exceptions are *outcomes* of the model (`res` monad: `Ok`, `Ub`, `Abort`), never assumed away.
  `assert` is modelled with a build flag (`dbg = true`: aborts; `dbg = false`, i.e. NDEBUG: ignored).
* Property theorems live in `Prop_*.v` files, each closed with `exact`, with `Print Assumptions` beneath
  and a concrete instance of its hypotheses beside it.
* Specifications are small and separate from the helper functions of the model.
* Where the code violates a property the theorem is `..._refuted` with a concrete witness, and the
  finding is listed below.

## Trusted base

Coq 8.16.1 kernel (incl. `vm_compute`), the standard library.  No axioms of our own.  `Print Assumptions` of each
property theorem is printed at build time; the expected answer is `Closed under the global context` unless
listed in section "Assumptions".

What is outside the model: tensor numerics (QR, SVD, contraction - abstracted by the algebraic equations they
satisfy), floating-point rounding (coefficients are taken in an arbitrary commutative ring), the file system
below "a file has the last content written or is missing", MPI below "point-to-point channels are FIFO and reliable".

## Plan per property

| id | model | proof |
|----|-------|-------|
| C01 | `Fsm.v`: AddPath, dims, CastFSMPathToMatRepr_, on top of the raw `SparMat.v` | left partial products per FSM state, induction over sites |
| C02 | `CoefOp.v`: compressers, delinearisers with raw sparse matrices | matrix-product identity target*follower per step, induction over the two sweeps |
| C03 | same | invariant "only the final column may have mixed coefficients, and then its follower row is a pure identity" |
| C04 | same | dimensions through each step |
| C05 | `SparMat.v` raw representation (`indexes`, `data`) | refinement to dense matrices over all histories |
| C06 | `LabelConvertor` | invariant over histories |
| C07-C09 | `AddTerm.v`: the three AddTerm overloads | permutation lemmas; witness for the tail string |
| C10-C11 | `MpoGen.v`: column sorting, Gen | permutation / grading invariant |
| C12-C15 | `FiniteMps.v`: flags + ghost truth of canonicity; amplitudes as matrix products | invariant over histories; algebra |
| C16-C18 | `DuoVec.v`: heap of cells with ownership; files | invariant over histories of any number of containers |
| C19-C23 | `Sweep.v`: disk/memory with version numbers, the load/update/dump functions of two-site VMPS | invariant per step, induction over sweeps; crash witness |
| C24-C26 | `VmpsInit.v`, noised sweep | loops with bounds from the code; invariants |
| C27 | noise rule over integers/rationals | case analysis, induction |
| C28-C30 | `Dmrg.v`: executor as a transition system with asynchronous signals | invariant over schedules |
| C31 | operator chains | algebra of matrix products |
| C32-C36 | `Farm.v`: master/worker transition systems with FIFO channels | invariants, measure for termination |
| C37-C39 | `Tdvp.v` | induction over N |
| C40-C41 | `Lanczos.v`: loop skeleton, arbitrary numerical oracle | induction over iterations |
| C42 | merge-walk of sorted hashes | induction |
| C43 | parser over an abstract JSON object | case analysis |
| C44 | quantum numbers in an abelian group | induction |
| C45 | decimal rendering | injectivity |
| C46-C49 | Jordan-Wigner operators on configurations | algebra, induction over the string |
| C50-C51 | measurement loops | invariants |
| C52 | block-diagonal sums | algebra |
| C53 | Taylor loop over an algebra | induction |
| C54 | flags of FiniteMPO | invariant/witness |
| C55 | norm of a centralized chain (`FmpsNorm`) | induction with isometry equations |
| C56-C58 | contraction loops of inner product, MPO product, identity and trace (`FinMpo`) | induction over sites against sums over configurations |
| C59 | `iFSM` and `iMPOGenerator::AddTerm` with caught exceptions (`IFsm`) | invariant; refuted |
| C60 | instruction list of the single-site run (`SingleSite`) | refinement to sweeps in memory |
| C61 | prefixes of that list | crash points, as C23 |
| C62 | the contractions with the leg numbers of the code, on tensors with any number of legs (`Legs`, `VmpsLocal`) | induction over the chain; specification by amplitudes |
| C63 | expansion and hand-over, contraction by contraction (`VmpsLocal`) | algebra; specification by amplitudes |
| C64 | one contraction chain per sector and the collecting sum (`VmpsLocal`) | linearity; any permutation of tasks |
| C65 | `Lanczos`, and `Krylov`: the use of the eigensystem that LAPACK returns | three-term recurrence: induction for orthonormality and projection; algebra |
| C66 | `Lanczos`, `Krylov`; the distributed solver is the same loop without the norm | as C65 |
| C67 | `DmrgTasks`: the tensors in the messages of `DmrgFarm`, the contractions of a worker, the vectors of the master | all executions: results of C35, then equality with `EffHam` |
| C68 | `DmrgUpdate`: the update with the Lanczos solver on complex tensors, on the run of `Dmrg` | the projected Hamiltonian is Hermitian, a bond in mixed canonical form gives norm and energy of the chain, invariant along the bonds of all sweeps; then C28 |
| C69 | `ChainUpdate`: substeps of TDVP with the exponential solver on tensors with legs, operator and QR of the preparation, on the run of `Tdvp` | a site or a bond at the center gives norm and energy of the chain (C62), the solver keeps both (C66); the center follows the schedule, induction over substeps; then C39 |
| C70 | `ChainUpdate`: the update of two-site VMPS on tensors with legs, on the run of `TwoSite` | as C68, with the environments of C62; then C21 |
| C71 | `SingleUpdate`: the noise rule of a sweep and the update of single-site VMPS (energy, solver, expansion, SVD, hand-over) on tensors with legs, on the run of `SingleSite` | expansion and hand-over keep the state and move the center (`ChainSplit`), the site at the center gives norm and energy of the chain, the solver does not raise it (C65); the energy before an update is the one the update before returned, so the rule acts at most once per sweep; then C60 |
| C72 | `NoiseUpdate`: noise rule, energy, solver, expansion of both kinds, SVD and hand-over of noised two-site updates and the tensor operations of the preparation on tensors with legs, on the run of `Noise` | three neighbouring tensors keep their product under expansion and hand-over (`NoiseChain`), then as C71; canonicalization and fusing keep products of neighbours and move the center (`NoiseGauge`); dimensions of the bonds along the preparation by induction (`NoiseVarBounds`); then C26 |
| C73 | `CorrUpdate`: the contractions of CalPsi1OpPsi2 and the phase on tensors with legs, on the run of `Tdvp`; `t_act` of `ChainUpdate` | `CorrSpec`: products of one-site operators between configurations; left and right partial contractions are double sums over configurations (`CorrFacts`, induction over sites); acting on the tensors is acting on the amplitudes; then C39 and C69; Cauchy-Schwarz for the bound |
| C74 | `TruncUpdate`: the updates of `ChainUpdate` with the truncation error that the decomposition returns | `TruncSpec`: contract of a truncated SVD, overlap of chains, lower bounds of the spectrum, bond dimensions; one update by C65 and the projected problem (`TruncFacts`), then induction over updates and substeps (`TruncRun`); `TruncCase` computes a run for the refutation |
| C75 | the models of C70 | `EigenSpec`: H psi = E psi over configurations; the local problem of an eigenstate has the local tensor as eigenvector (`EigenFacts`), the solver stops after one step (`GVecEigen`), induction over updates (`EigenRun`) |
| C76 | the models of C69, C73 | as C75 with the exponential; the times of the substeps of a schedule sum to tau; then C73 for the record (`EigenRecord`) |
| C77 | `MpoUse`: the tensors and matrices of the generator model as the algorithms read them | `EndSpec`: H as a function of two configurations, no MPO; `MpoUseFacts`: legs, used rows and columns, elements of the generated MPO; `EndRun`: hypotheses and conclusions of C68 to C71 and C75 in terms of H; `EndFloor`: Schur test; `EndInst`: transverse field Ising chain |
| C78 | `TruncMps`: Centralize, Normalize and the loop of truncated SVDs over the model of FiniteMPS | `TruncMpsSpec`: amplitudes, overlap, distance, contract of the truncated SVD; `TruncMpsMath`: one step keeps the projection of the state on the kept basis; `TruncMpsFacts`: the loop; `TruncMpsRun`: the call, overlap and distance; `TruncMpsInst`: rank-one SVD, 3/5 00 + 4/5 11 |
| C79 | `EntropyMps`: Centralize, Normalize, the loop of SVDs and the sums over singular values | `EntropySpec`: reduced density matrix, traces of its powers, spectral decompositions, contract of the SVD, all by amplitudes; `EntropyMath`: powers of a matrix in diagonal form, equal power sums give equal entropies (interpolation); `EntropyChain`: the singular values of a canonical chain diagonalise the density matrix; `EntropyRun`: the loop and the call; `EntropyInst`: x 00 + y 11 |
| C80 | `MpoCano`: Centralize, both canonicalisations with the early exit on flags, Truncate, on rank four tensors | `MpoCanoSpec`: elements of the operator, Frobenius product and distance, canonical tensors, contracts of QR and SVD; `MpoMath`: fusing the two physical legs turns an operator into a state; `MpoCanoFacts`, `MpoCanoRun`: loops by induction; `MpoTrunc`: projections; `MpoCanoInst`: 3/5 00 + 4/5 11 as an operator, range of k |
| C81 | `MpoVar`: the variational MpoProduct with its environment files, single step, sweeps, convergence test, Square; `MpoSquare`: SquareAndNormlize | `MpoVarSpec`: product of operators, contract of the SVD of six legs, what the call leaves; `MpoVarEnv`: environments are overlaps with the product; `MpoVarStep`: the step is the best pair up to what it discards (projection, Young); `MpoVarRun`: sweeps by induction with files described by cuts of the chain; `MpoVarTop`: the call, Square; `MpoVarInst`: a truncated SVD, examples on two and three sites |
| C82 | `ExpMpo`: ExpFiniteMPO with its orders, truncations, optimised products and directories | `ExpMpoSpec`: chain of orders (each term a truncation or optimisation of the product, each sum a truncation), error bound, bond dimensions, files; `ExpMath`: 2-norm, the Taylor polynomials converge, the bound; `ExpRun`: the loop by induction refines the chain of orders; `ExpMpoInst`: a truncated SVD for every limit; `ExpMpoCase`: runs on two and three sites |
| C83 | `DmrgTrunc`: the DMRG update with the truncation error of its SVD, the tests of the preparation | `DmrgTruncSpec`: SVD that drops singular values, what an update leaves, spectrum and norm of the operator; `DmrgTruncFacts`: one update and sequences by induction; `DmrgTruncRun`: runs with and without emergency requests, bonds of the preparation, the sweeps and the last move of the center; `DmrgTruncBound`: distance of the energies; `ThinQr`: a QR by Gram and Schmidt; `DmrgTruncInst`: runs with Dmax = 1 |
| C84 | the updates of `TruncUpdate` and the substeps of `ChainUpdate` (nothing new) | `SectorSpec`: groups of quantum numbers, totals of configurations, conserving operators, chains in block form, decompositions that keep blocks; `SectorFacts`: block form implies the sector, the effective Hamiltonians and Krylov solvers keep labels, splitting keeps blocks; `SectorRun`: updates, substeps and runs by induction; `SectorInst`: decompositions that keep blocks, a hopping model |
| C85 | the updates of `DmrgTrunc`, the preparation and the driver of `Dmrg` (nothing new) | `DmrgSectorSpec`: conserving operators, chains in block form, decompositions that keep blocks; `DmrgSectorFacts`: the effective Hamiltonian and the Lanczos solver keep labels, splitting keeps blocks; `DmrgSectorRun`: preparation and runs on disk, normal and by emergency; `DmrgSectorInst`: decompositions that keep blocks, the hopping model as a matrix of operators; `DmrgFull` (for C83): the tensors that the sweeps leave out |
| C86 | `t_act`, the substeps and the record of `ChainUpdate`, `CorrUpdate` and `Tdvp` (nothing new) | `SelectSpec`: operators with a charge, neutral strings; `SelectFacts`: products of operators and totals, the chain after the operator, the record of a run with truncation; `SelectInst`: creation on the empty state of the hopping model |
| C87 | the models of C68 (nothing new) | `DmrgEigenSpec`: H psi = E psi over configurations with the MPO in matrix form; `DmrgEigenFacts`: the effective Hamiltonian has the two-site tensor as eigenvector, the solver stops after one step, induction over updates, both ways in which a run ends; `DmrgEigenInst`: the highest state of three spins |
| C88 | the model of C37 to C39 with `crash` of `Disk` (nothing new) | `TdvpAgainSpec`: the chain at the turning point, the operator applied in part, the entries of a record; `TdvpAgainFacts`: which instruction writes which file, at most once in each half of a time step, so a prefix of a half leaves the file of its start or of its end |
| C89 | `VmpsSelect`: both constructors of the sweep parameters, with doubles as `SpecFloat`, and the entries of the serial and the distributed two-site VMPS, over the runs of `TwoSite` and `Noise` | which doubles exceed 0 in absolute value; induction over the list; C26 for the run that is chosen |
| C90 | `SiteVecModel`: indices with direction and sectors, `SetIndexDirOut`, `GenIdOp` element by element with the divergence of blocks, both constructors, comparison | invariants of the loops over elements and sites, for any group of quantum numbers |
| C91 | prefixes of the noised sweep and of the writing of the first environments, `crash`, then `run_noise` | which files an instruction can write, for every program; the states between steps of C26 give the chain in the files |
| C92 | `boundary` and part of `init_ops`, `dmrg_init`, `sweeps`, `sweep_from` over a prefix of the updates, `load_step`, `update_step`, `dump_tensor` and part of the operators, then `new_process` and `execute` | the states between updates of C28 give the chain in the files and the missing operators; the start of the second run meets `ready`, so the theorems of C28 apply |

## Files

Models (definitions only, each with the lines it models): `SparMat CoefOp Fsm MpoGen MpoTen` (MPO generator), `FiniteMps` `MpsInit`
`FinMpo` `Measure` (chains), `DuoVec` `Names` (containers and files), `Disk TwoSite SingleSite VmpsInit Noise NoiseRule VmpsTen Dmrg Tdvp` (runs on
disk), `Lanczos` `Krylov` `Cover` `EffHam` `DmrgTasks` `DmrgUpdate` `GVec` `ChainUpdate` `SingleUpdate` `NoiseUpdate` `CorrUpdate` `TruncUpdate` `MpoUse` `TruncMps` `EntropyMps` `MpoCano` `MpoVar` `MpoSquare` `ExpMpo` `DmrgTrunc` `Legs` `VmpsLocal` (local problems), `Mpi Farm Farm2 Gather DmrgFarm Protocol Threads` (distributed and threaded runs), `Ops`
(local operators and model terms), `Params` (parameter files).
Specifications: `*Spec.v`.  Proofs: `*Facts.v` and the files without a suffix that import a model.  Concrete instances: `*Inst.v` and the
`Example`s of the property files.  Property theorems: `Prop_*.v`.

## What the models say and what they leave out

* **Numbers.**  Tensor elements and coefficients are elements of an arbitrary commutative ring (with conjugation, a half or an imaginary
  unit where needed), so a theorem holds of exact arithmetic.  Rounding appears only in the noise rule (C27: any monotone rounding that
  keeps 0 and the bounds) and is otherwise not modelled.  Overflow and NaN are not modelled.
* **Tensor library** (QLTEN: blocks, contraction, QR, SVD, LAPACK).  Not part of /repo.  Contraction is the sum of products over the
  contracted legs; QR and SVD are functions with the equations that define them as section hypotheses (result times factor equals the
  input, the isometry condition).  Every theorem that uses such a hypothesis has an instance over Z or Q beside it that satisfies it.
  Where only the data flow matters (sweeps, DMRG, TDVP, Lanczos, farms), tensors are elements of an arbitrary type and the numerical work is
  an arbitrary function.
* **Legs** (`Legs.v`).  In the VMPS steps a tensor is a list of dimensions and a function of index lists; `Contract`, `Transpose`, `FuseIndex`, `Expand`,
  `Dag` act on leg numbers as the code passes them.  Contracting legs of different dimension or missing legs is `Ub`.  Directions of legs
  are not modelled, except the flag that selects the branch of the two-site expansion.
* **Krylov spaces** (`KrylovSpec.v`).  C65 and C66 assume an inner product space: contractions with the conjugate are a Hermitian form, the operator is
  Hermitian, `Normalize` divides by the norm, square roots of squares are exact, `LAPACKE_dstev` returns an orthogonal matrix of eigenvectors,
  lowest eigenvalue first.  `exp(-i t x)` has absolute value 1.  Fermionic tensors (`QuasiNormalize`, `ActFermionPOps`) are not covered.
* **Quantum numbers.**  Modelled for MPO generation (C10, C11), the initial states (C44), the cover test (C42) and the charges of the local
  operators (C48).  Elsewhere a tensor is an array with dimensions.
* **Undefined behaviour.**  Out-of-range access, use of a null or freed pointer, double free, contraction with a default constructed tensor
  or of legs of different dimension, wrap-around of an unsigned size used as a bound, reading an uninitialised value: outcome `Ub`.
  Throwing, `exit` and failing assertions: `Abort`.  `size_t` does not overflow upwards in the models (sizes are `nat`); wrap-around below
  zero is an explicit case where the code subtracts.
* **Files.**  A file holds the last value written or is missing; names are injective (C45, proved), so files are keyed by kind and
  number.  A write is atomic: crash points lie between file operations (C23).  Disk full and unreadable files are not modelled.
* **Sweeps as programs.**  Which files and slots a sweep touches does not depend on tensor values.  Hence a sweep is a list of
  instructions, a crash point is a prefix, and a thread is a list that interleaves.
* **MPI** (`Mpi.v`).  Processes with program points; sends may be buffered or wait for the receiver, chosen freely at each send; channels are
  FIFO per pair, receives match by source and tag with wildcards.  Progress (C33) is proved without any buffering, safety with any.
  Ranks do not die.  Several messages of one tensor are one message.
* **Order protocol** (`Protocol.v`).  One event is one collective call or one complete point-to-point exchange.  This is justified by C32, C33,
  C35: an exchange ends with every process behind it and no message left, and the master does not broadcast the next order before its part
  of the exchange has ended.
* **Threads** (`Threads.v`).  One instruction is one step.  C36_no_data_race shows that two instructions that can run at the same time never
  touch a common location unless both read it, so a finer interleaving has no further outcomes.
* **Signals** (`Dmrg.v`).  Arrivals between any two loads of the atomic flags, any schedule.
* **Energies of whole runs** (`Cx.v`, `ChainSpec.v`, `DmrgUpdate.v`, `DmrgVarSpec.v`).  Complex numbers are pairs of the standard library's reals, no rounding.
  The SVD, the QR decompositions and the combiners of the preparation are functions that satisfy exact equations (`exact_svd`, `moves_right`,
  `moves_left`); a truncated SVD is not covered by C68 to C73, C75 to C77 and C87; C74 is about truncated ones.  LAPACK is a function; its results are assumed to be eigensystems for the matrices of the run
  (`lapack_along`), which is a theorem for a Krylov space of two vectors (`C68_case_lapack`).
* **Chains of tensors with legs** (`GVec.v`, `ChainUpdate.v`, `SingleUpdate.v`, `NoiseUpdate.v`, `CorrUpdate.v`, `TruncUpdate.v`, `MpoUse.v`, `ConserveSpec.v`, C69 to C77).  Vectors of the solvers are tensors of
  any rank; contraction, transposition, direct sum and fusing are those of `Legs.v`, and legs that do not fit give `Ub`, so the theorems include that
  every operation of a run is defined.  Quantum numbers and directions of legs are left out; decisions that read them (whether a bond is to be enlarged,
  which of two forms of the expansion is taken) are arbitrary functions.
* **TruncateMPS** (`TruncMps.v`, C78).  Over complex numbers, on the model of FiniteMPS.  The truncated SVD is a function of the tensor, trunc_err, Dmin and Dmax with a contract for tensors that are not zero; Dmin has no clause in it.
* **GetEntanglementEntropy** (`EntropyMps.v`, C79).  Over complex numbers; the logarithm is that of the standard library, a value that is not a number is None.  The contract of the SVD is required of the tensors that the call hands to it (`svd_call`).
* **FiniteMPO Centralize, Truncate, Normalize** (`MpoCano.v`, C80).  Over complex numbers.  `Div` of the tensors and quantum numbers are not modelled.  The operator zero is left out of Truncate (its truncation error is 0/0).
* **Variational MpoProduct, Square, SquareAndNormlize** (`MpoVar.v`, `MpoSquare.v`, C81).  Over complex numbers.  The temporary directory is two maps from lengths to tensors; the printed entropy, timers and quantum numbers are left out.  The comment promises the norm as a result but the function returns nothing.
* **ExpFiniteMPO** (`ExpMpo.v`, C82).  Over complex numbers with a real tau; the sign of the trace is that of its real part.  Directories are a map from orders to stored MPOs for one prefix and tau; CreatPath, printing and timers are left out.  C53 keeps the version without truncation over any ring.
* **DMRG with truncation** (`DmrgTrunc.v`, C83).  The truncation error is a function of the decomposed tensor, trunc_err, Dmin and Dmax are fixed in a run; the contract of the SVD does not say which singular values are dropped.  The update is that of C68 (`C83_same_update`).
* **Symmetry sectors** (`SectorSpec.v`, C84; `DmrgSectorSpec.v`, C85).  Tensors are dense: the blocks of the tensor library appear as a labelling of the indices outside of which elements vanish.  That SVD and QR keep such a labelling is a hypothesis, along the run (`along_blocks`, `along_subs`, `d_along`) or for all tensors (`block_svd`, `block_qr`, `d_block_svd`, `block_move`).  The MPO conserves the total as an operator; its bonds need no labels.

Not modelled: printing, timers, `memory_monitor.h`, `*_params.h` beyond the values used, the infinite
MPO generator beyond `iFSM::AddPath` (`Gen` has an empty body), fermionic tensors (`Tensor::IsFermionic()` is false), tests and
benchmarks.

## Assumptions

`Print Assumptions` is printed below every theorem of the `Prop_*.v` files during the build.  For all of them except the theorems
of C68 to C87 the answer is `Closed under the global context`: no axiom, of ours or of a library, is used.  The theorems of C68 (`C68_preparation`, `C68_updates`,
`C68_run`, `C68_emergency`), C69 (`C69_substeps`, `C69_preparation`, `C69_steps`, `C69_run`), C70 (`C70_updates`, `C70_run`), C71 (`C71_updates`, `C71_noise`, `C71_run`), C72 (`C72_updates`, `C72_noise`, `C72_boundaries`, `C72_run`), C73 (`C73_acted`, `C73_overlap`, `C73_record`, `C73_bound`), C74 (`C74_updates`, `C74_run`, `C74_bound`, `C74_substeps`, `C74_steps`, `C74_evolution`, `C74_update`, `C74_energy_refuted`), C75 (`C75_updates`, `C75_run`), C76 (`C76_substeps`, `C76_steps`, `C76_record`; `C76_total` is closed), C77 (`C77_vmps`, `C77_vmps_eigen`, `C77_single`, `C77_tdvp`, `C77_dmrg`, `C77_floor`), C78 (`C78_truncate`, `C78_distance`, `C78_lossless`, `C78_within`, `C78_zero`, `C78_short`, `C78_case`), C79, C80, C81, C82, C83, C84, C85, C86, C87 (all) and the examples `C65_case` and `C66_case` are about real numbers and depend on the axioms of the standard library's reals:
`ClassicalDedekindReals.sig_not_dec` (not `C68_preparation`, `C69_preparation`), `ClassicalDedekindReals.sig_forall_dec`,
`FunctionalExtensionality.functional_extensionality_dep`, and those of C79 also on `Classical_Prop.classic` (used by the library's logarithm).  `coqchk` lists seven constants of
`Coq.ssr.ssrunder.Under_rel` (`Under_rel`, `Under_rel_from_rel`, `Under_relE`, `Over_rel`, `over_rel`, `over_rel_done`, `under_rel_done`): they are the
opaque fields of a module of the standard library that is loaded because another library module requires it; no theorem depends on them.

## Findings

Behaviour of the code, proved of the model by a theorem `..._refuted` (a witness), or stated in the theorem itself.

| where | what | theorem |
|-------|------|---------|
| `fsm.h` (path to matrix) | a one-site term added again with the same coefficient and operator is dropped | C01_repeated_onsite_term_refuted |
| `mpogen_impl.h` AddTerm with tail string | the implicit tail string starts at the last physical site index; a term whose tail operator starts with a negative number comes out with the wrong sign | C08_tail_string_sign_refuted |
| `mpogen_impl.h` Gen | without any term: undefined | C09_generation_without_terms_is_undefined |
| `finite_mps.h`, `mps.h` | the inherited `Load` leaves the flags of the tensors that were there before | C13_load_leaves_stale_flags_refuted |
| `duovector.h` | self assignment empties the container | C17_self_assignment_destroys |
| two-site VMPS | two sites or zero sweeps: the energy returned is uninitialised | C19_two_sites_or_no_sweep_refuted |
| two-site VMPS | a run that dies inside a sweep cannot be resumed: a right environment it needs is already deleted | C23_crash_inside_a_sweep |
| `vmps_init.h` | a chain of two sites loses a tensor | C25_two_sites_lose_a_tensor |
| noised VMPS | no noises: never returns normally; no sweeps: uninitialised result | C26_no_noises_refuted, C26_no_sweeps_refuted |
| two-site VMPS | `noise_valid` is set by the constructor only: `noises` assigned later are ignored, and `noises` emptied later make the call fail (serial: result of an uninitialised noise, MPI: exit) | C89_assigned_refuted, C89_cleared_refuted, C89_processes_refuted |
| noised VMPS, DMRG | reusing the temporary directory after the maximal bond dimension was raised and lowered: stale environments | C26_reused_directory_refuted, C30_reused_directory_refuted |
| DMRG | an emergency signal between the last update of a sweep and the post-processing: the new center tensor is only in memory and lost | C28_emergency_window_refuted |
| DMRG | the static stop flags are never cleared: a later run in the same process does one sweep or one update | C29_later_run_refuted, C29_later_run_emergency_refuted |
| DMRG | an MPO matrix with an empty row or column: a default constructed tensor is contracted | C31_empty_column_refuted |
| MPI | no workers: the master waits for ever | C33_no_worker_refuted |
| MPI noised VMPS | the run leaves tensors in memory, so another run with the same object aborts | C36_memory_left_refuted |
| TDVP | two sites: an environment that was never loaded is used | C38_two_sites_refuted |
| TDVP | `local_op_corr = false`: the last tensor is overwritten, and the record is written out of bounds | C38_last_tensor_lost_refuted, C39_global_refuted |
| TDVP | a second call with the same paths acts with the operator on the evolved state and starts the times at 0 again | C88_second_run, C88_not_continued_refuted |
| TDVP | a process that dies inside a time step leaves files of different times; the next call does not notice | C88_died_in_step, C88_mixed_refuted, C88_died_acting |
| TDVP | `initial_mps_path` is taken as complete when it exists: after an interrupted copy every call changes the stored MPS and throws | C88_died_copying |
| Lanczos | fewer than two iterations allowed: out-of-range write | C40_eigensolver_few_iterations_refuted, C40_exponential_few_iterations_refuted |
| cover test | repeated or empty sector lists, or equal hashes: undefined or a wrong answer | C42_repeated_or_empty_refuted, C42_collisions_refuted |
| parameter files | integers are not read strictly (4.7, true, 2^32+5, -1 as a size) | C43_int_not_strict_refuted |
| initial states | `DirectStateInitZeroDivMps` puts the divergence on the last tensor; the extended start on one site has a non-trivial left end | C44_zero_div_refuted, C44_single_site_refuted |
| t-J operators | `bdnc_multi_bupa` and `bupc_multi_bdna` are exchanged | C48_tj_exchanged_refuted |
| disk measurements | empty or unsorted site lists are undefined; the four-site version leaves tensors in memory | C50_empty_list_refuted, C50_unsorted_refuted, C50_four_sites_memory_refuted |
| measurements | equal neighbouring sites silently measure another pair | C51_equal_sites_refuted |
| sums | one site: the right end has dimension two; `FiniteMPSAdd` into an operand destroys it first | C52_single_site_refuted, C52_aliasing_refuted |
| `finite_mpo.h` | Load without center or center file over an MPO with a center: stale flags | C54_stale_flags_refuted, C54_no_center_file_refuted |
| infinite MPO generator | no term can ever be added: every `AddTerm` throws, exits or is undefined | C59_no_term_can_be_added_refuted |
| single-site VMPS | no sweeps: uninitialised result; one site: nothing is optimised and 0 is returned; a crash between sweeps leaves an old tensor of site 0 | C60_no_sweeps_refuted, C60_one_site_refuted, C61_crash_between_sweeps |
| noised two-site VMPS | a run that dies inside a sweep leaves tensors of two chains next to each other; the next run accepts them without a message (their bond dimensions need not fit) | C91_death_inside_a_sweep, C91_files_on_the_way_right, C91_mixed_chain |
| DMRG | a process that dies during an update leaves one older tensor among current ones; the next run accepts them without a message (bond dimensions need not fit) | C92_death_during_an_update, C92_mixed_chain |
| distributed TDVP | the exponential drops the norm of the local state: every two-site step of `algo_mpi/tdvp` returns a normalized tensor, the serial step keeps the norm | C66_mpi_norm_refuted |
| single-site VMPS | every sweep starts with e0 = 0 (line 127) and compares the energy of the chain with it: a positive energy counts as lost by truncation and lowers the noise once per sweep although nothing was truncated; the noises after the presets depend on the zero of the energy | C71_noise, C71_run (examples C71_case_run, C71_case_positive) |
| noised two-site VMPS | as for single-site VMPS (line 142): a positive energy lowers the noise once per sweep although nothing was truncated | C72_noise, C72_run |
| two-site VMPS, two-site DMRG, serial TDVP with truncation | the singular values are never rescaled after the truncation (two_site_update_finite_vmps_impl.h 300-340, dmrg_impl.h 247-253, two_site_update_finite_tdvp_impl.h 337-343): the stored MPS has norm squared 1 - d of the last update, the returned energy is that before the truncation, and the measurement functions do not divide by the norm | `C74_energy_refuted`, `C74_run`; in TDVP the factors accumulate (`C74_steps`); only the MPI TDVP master normalizes (two_site_update_finite_tdvp_mpi_impl_master.h 122) |
| two-site VMPS from an eigenstate | a run that starts in an excited eigenstate never leaves it, with any number of sweeps (no noise in this variant) | `C75_run` |
| FiniteDMRG from an eigenstate | a run that starts in an excited eigenstate never leaves it, with any number of sweeps: three spins in the state of highest energy return that energy | `C87_run`, `C87_case_highest`, `C87_case_lower` |
| `TruncateMPS` of a state with norm zero | the first tensor is divided by its norm, zero; nothing checks it | `C78_zero` |
| `GetEntanglementEntropy(1)` | the SVD keeps zero singular values and 0 log 0 is not a number: a bond wider than its Schmidt rank gives NaN instead of the entropy | `C79_nan_refuted` |
| `GetEntanglementEntropy(0)` | n - 1 wraps around and the power is the first: every value is 0, not the logarithm of the rank | `C79_order_zero` |
| `GetEntanglementEntropy` | a measurement that changes the object: the stored state is normalised and its center lost | `C79_state` |
| `FiniteMPO::Normalize` | without a center it divides by the norm of the first tensor: an operator of norm 2 is reported to have norm 1 and left as it is | `C80_normalize_uncentered_refuted` |
| `MpoProduct` (variational), `Square`, `SquareAndNormlize` | on two sites (and with zero sweeps) neither loop runs: the output is the start (mpo1 by default), site 0 is flagged left canonical and the center is 1 although the center is site 0; `SquareAndNormlize` then divides by the norm of a right canonical tensor | `C81_no_step_refuted`, `C81_two_sites_refuted` |
| `MpoProduct` (variational), `Square` | the default start is mpo1; if it is orthogonal to the product (a flip operator and its square) the first tensor to be decomposed is zero | `C81_blind_start_refuted` |
| `ExpFiniteMPO` | on two sites (and with zero sweeps) a power that needs the optimisation is the start divided by n, not a power of H; nothing is printed about it, and it is stored for later calls | `C82_two_sites_refuted`, `Kept` in `C82_exp` |
| `ExpFiniteMPO`, `GenHnMpoPath` | directories are named by order and tau with six digits, not by the Hamiltonian: a call with another H and the same prefix, or with a tau that differs in the seventh digit, starts from the powers stored by the first and overwrites them; only the start of the optimisation is affected, and its distance enters the bound | `stored` in `C82_exp`, `C82_bound` |
| `FiniteDMRG` | the returned energy is the one before the last truncation and the truncated singular values are not normalized: the energy can lie below that of the stored chain by an amount of order one, and the stored chain has norm square one minus the truncation error | `C83_energy_of_the_stored_chain_refuted`, `C83_run` |

Read but not expressed as theorems: `CoefRepr::ToString` prints the second label in place of every label of a sum (coef_op_alg.h 137); `FSMNode::Site()` returns the state
(fsm.h 71-73); `SimpleProduct` in
`finite_mpo.h` has no return statement; `HubbardOperators` has reference members, so a copy refers to the original;
2 * task_size is sent as `int`.

## Tests with wrong programs

`seeded/LOG.jsonl` has one line per edit of a model: the definition, the edit, the claim it breaks, what failed, and what was tightened.
