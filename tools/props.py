# Generates /verif/properties.jsonl (kept in the repository so that the list stays easy to edit).
import json, os
P = []
def p(title, statement, quantifier, why, anchors):
    P.append(dict(id="C%02d" % (len(P)+1), title=title, statement=statement,
                  quantifier=quantifier, why_tests_cant=why, anchors=anchors))

G="include/qlmps/one_dim_tn/mpo/mpogen/"
p("Uncompressed MPO is the sum of the added terms",
  "After any sequence of AddTerm calls, the chain of operator matrices produced without compression represents exactly the sum of the added terms (coefficient times the on-site operators, identities elsewhere), provided no on-site term is added twice in a row to the same site entry. When the same (coefficient, operator) on-site term is repeated so that the entry already equals it, the repeated term is silently lost.",
  "every chain length N>=1, every finite list of terms with any supports and coefficients, every evaluation of the basis operators in any commutative ring",
  "The number of term lists, supports and interleavings of states is unbounded; tests compare a few fixed Hamiltonians.",
  [G+"fsm.h: FSM::AddPath, FSM::GenMatRepr, FSM::CalcFSMSiteDims_, FSM::CalcFinalStatDimIdxs_, FSM::CastFSMPathToMatRepr_", G+"mpogen_impl.h: MPOGenerator::AddTerm, MPOGenerator::Gen"])
p("MPO compression preserves the operator",
  "Whenever compression runs to completion, the compressed chain represents the same operator as the uncompressed chain, for every input chain and whatever columns and rows are merged.",
  "every chain of symbolic operator matrices of any sizes (not only those a generator can build), every evaluation of labels in a commutative ring",
  "Which columns are linearly dependent depends on the Hamiltonian; a wrong merge only shows for particular coefficient patterns.",
  [G+"symb_alg/coef_op_alg.h: SparOpReprMatColCompresser, SparOpReprMatRowCompresser, SparOpReprMatColDelinearize, SparOpReprMatRowDelinearize, CoefReprOpReprIncompleteMulti", G+"fsm.h: FSM::GenCompressedMatRepr"])
p("MPO compression never aborts for generated Hamiltonians",
  "For every non-empty list of AddTerm calls, generating the compressed MPO never reaches the 'incomplete multiplication' exit, never violates an assertion and never accesses a vector out of range, so debug and release builds give the same result.",
  "every N>=2, every non-empty list of terms",
  "The unsupported coefficient-times-operator case is guarded only by exit(1) in debug builds and silently overwrites coefficients in release builds; absence needs an invariant over all sweeps.",
  [G+"symb_alg/coef_op_alg.h: CoefReprOpReprIncompleteMulti, CalcSparOpReprMatRowLinCmb, CalcSparOpReprMatColLinCmb", G+"fsm.h: FSM::GenCompressedMatRepr"])
p("Compression never increases bond dimensions",
  "Each virtual bond dimension of the compressed MPO is at most the corresponding bond dimension of the uncompressed one, adjacent matrices always have matching dimensions, and the two outer bonds have dimension one.",
  "every chain of symbolic matrices", "Relation over all inputs.",
  [G+"symb_alg/coef_op_alg.h: SparOpReprMatColDelinearize, SparOpReprMatRowDelinearize", G+"fsm.h: FSM::GenCompressedMatRepr"])
p("Sparse matrix operations behave like the dense matrix",
  "Every history of constructor, SetElem, RemoveRow, RemoveCol, SwapTwoRows, SwapTwoCols, TransposeRows and TransposeCols keeps the sparse matrix equal, element by element, to the dense matrix obtained by the same history (setting the null element is ignored), and no access leaves the storage as long as indexes are in range.",
  "every element type, every finite operation history with in-range arguments",
  "RemoveCol compacts the index array in place with overlapping moves; correctness depends on the number of rows and the column position in general.",
  [G+"symb_alg/sparse_mat.h: SparMat"])
p("Label conversion is stable, injective and invertible",
  "Converting an object returns a label whose table entry equals the object; equal objects always get the same label, different objects different labels, and labels handed out earlier never change meaning.",
  "every sequence of conversions", "Holds over histories of unbounded length.",
  [G+"fsm.h: LabelConvertor::Convert, LabelConvertor::GetLabelObjMapping"])
p("AddTerm is independent of the order in which operators are listed",
  "Adding a term with its (operator, site) pairs listed in any order, the sites being distinct, gives the same represented operator; sign normalisation of the local operators leaves the represented term unchanged.",
  "every term with distinct sites, every permutation", "All permutations and supports.",
  [G+"mpogen_impl.h: MPOGenerator::AddTerm(coef, local_ops, local_ops_idxs)"])
p("Insertion strings act where documented",
  "AddTerm with insertion operators represents coefficient * product of the physical operators with the insertion operator on every site strictly between consecutive physical operators and, if a tail insertion operator is given, on every site behind the last physical operator - and nothing else.",
  "every list of ascending physical sites, with and without tail string", "Depends on positions, signs of operators and N.",
  [G+"mpogen_impl.h: MPOGenerator::AddTerm(coef, phys_ops, phys_ops_idxs, inst_ops, inst_ops_idxs_set)"])
p("Zero coefficients add nothing",
  "AddTerm with a zero or negligible coefficient leaves the generator unchanged; generating from a generator to which no term was added is not defined behaviour.",
  "every generator state", "All states.",
  [G+"mpogen_impl.h: MPOGenerator::AddTerm, MPOGenerator::Gen"])
p("Sorting columns by quantum number is a permutation into contiguous blocks",
  "Sorting a matrix's columns by quantum number yields a permutation of the columns in which equal quantum numbers are contiguous, the bond index has one sector per quantum number with the right multiplicity, and the same permutation is applied to the rows of the next matrix, so Gen and GenMatReprMPO represent the same operator.",
  "every matrix without empty columns", "All column patterns.",
  [G+"mpogen_impl.h: SortSparOpReprMatColsByQN_, CalcTgtRvbQN_, Gen, GenMatReprMPO"])
p("Every MPO element lies in an allowed quantum-number block",
  "If every added term conserves the total quantum number, then for every element written into an MPO tensor the left bond quantum number minus the divergence of the operator equals the right bond quantum number of its column.",
  "every list of conserving terms, compressed or not", "Block structure after merging depends on the whole Hamiltonian.",
  [G+"mpogen_impl.h: SortSparOpReprMatColsByQN_, CalcTgtRvbQN_"])
M="include/qlmps/one_dim_tn/mps/finite_mps/"
p("Centralize puts the canonical center where asked",
  "After Centralize(k) on an MPS of length N with 0<=k<N, GetCenter is k, every tensor left of k is flagged LEFT and every tensor right of k is flagged RIGHT, from any previous state of the flags.",
  "every N, k and every flag state", "All flag states.",
  [M+"finite_mps.h: FiniteMPS::Centralize, LeftCanonicalize, RightCanonicalize, LeftCanonicalizeTen, RightCanonicalizeTen"])
p("Canonical flags tell the truth",
  "Over every history of public FiniteMPS operations a tensor flagged LEFT (RIGHT) really is left (right) canonical. Loading, allocating or releasing tensors through the inherited functions breaks this.",
  "every finite history of operations", "Histories are unbounded.",
  [M+"finite_mps.h: FiniteMPS", "include/qlmps/one_dim_tn/mps/mps.h: MPS::Load", "include/qlmps/one_dim_tn/framework/ten_vec.h: TenVec::LoadTen"])
p("Canonicalization preserves the state",
  "Centralize, LeftCanonicalize and RightCanonicalize leave the represented state vector unchanged.",
  "every MPS with matching bonds, every target, every decomposition that factorises exactly", "All inputs.",
  [M+"finite_mps.h: FiniteMPS::LeftCanonicalizeTen, RightCanonicalizeTen, Centralize"])
p("Reverse reverses the chain",
  "Reverse gives an MPS whose amplitude on a configuration is the original amplitude on the reversed configuration, and applying it twice restores the MPS.",
  "every MPS", "All inputs.", [M+"finite_mps.h: FiniteMPS::Reverse"])
F="include/qlmps/one_dim_tn/framework/"
p("Tensor containers own their elements exactly once",
  "Over every history of construction, copy, assignment, move, element access, alloc, dealloc, clear and destruction of containers, no element is freed twice or used after being freed, and every allocated element is either owned by exactly one container slot or has been freed.",
  "every finite history over any number of containers, without assigning a container to itself", "Histories are unbounded.",
  [F+"duovector.h: DuoVector"])
p("Copies are independent",
  "After copying a container, changing one copy never changes the other; assignment makes the target equal to the source. Assigning a container to itself destroys its contents.",
  "every container content", "All contents and subsequent histories.", [F+"duovector.h: DuoVector copy constructor, operator="])
p("Dump then Load restores the container",
  "Dumping all tensors and loading them into a container of the same size gives back the same tensors; distinct indexes never share a file; a failed load throws and leaves the slot with a default tensor instead of the old one; dumping an empty slot writes a default tensor.",
  "every container size and content, every path", "All sizes and contents.",
  [F+"ten_vec.h: TenVec::LoadTen, TenVec::DumpTen", "include/qlmps/one_dim_tn/mps/mps.h: MPS::Dump, MPS::Load, GenMPSTenName"])
V="include/qlmps/algorithm/vmps/"
p("Two-site sweeps never read a missing file or an empty slot",
  "Starting from a complete MPS and right environments on disk, every two-site sweep of a chain of length N>=3 only loads files that exist and only uses tensors that are in memory, for any number of sweeps.",
  "every N>=3, every number of sweeps", "All N and sweep numbers.",
  [V+"two_site_update_finite_vmps_impl.h: TwoSiteFiniteVMPS, TwoSiteFiniteVMPSSweep, TwoSiteFiniteVMPSUpdate, LoadRelatedTensTwoSiteAlg, DumpRelatedTensTwoSiteAlg, InitEnvs"])
p("Two-site sweeps keep memory bounded and finish with the MPS on disk",
  "During a two-site sweep at most three MPS tensors are in memory at once, and when the run ends every MPS tensor is on disk in its latest version and memory is empty.",
  "every N>=3, every number of sweeps>=1", "All N.",
  [V+"two_site_update_finite_vmps_impl.h: TwoSiteFiniteVMPS, LoadRelatedTensTwoSiteAlg, DumpRelatedTensTwoSiteAlg"])
p("Every local update sees up-to-date environments",
  "At each local update the left and right environments used are built from exactly the current versions of all tensors to the left and to the right.",
  "every N>=3, every number of sweeps, every update", "A stale environment only shows as slightly wrong energies.",
  [V+"two_site_update_finite_vmps_impl.h: TwoSiteFiniteVMPSUpdate, InitEnvs"])
p("A finished run can be resumed",
  "After a run that completed, starting another run on the same directories again satisfies its preconditions, so any number of runs can be chained.",
  "every N>=3, every number of runs", "All histories of runs.",
  [V+"two_site_update_finite_vmps_impl.h: TwoSiteFiniteVMPS"])
p("A crash in the middle of a sweep is not resumable",
  "If a two-site run is killed in the middle of a sweep, the next run does not rebuild the environments because the temporary directory exists; there are crash points at which it then reads a missing file or a stale environment.",
  "every crash point", "Crash points multiply with N and sweeps.",
  [V+"two_site_update_finite_vmps_impl.h: TwoSiteFiniteVMPS"])
p("Boundary search of the noised and DMRG runs",
  "The left and right boundaries found before a run satisfy left+2<=right, lie on the proper sides of the middle, and after the preparation the canonical center is at left+1 with all MPS tensors on disk and memory empty, for N>=3.",
  "every N>=3, all bond dimension profiles", "All profiles; N=2 silently destroys a file.",
  [V+"vmps_init.h: CheckAndUpdateBoundaryMPSTensors, FiniteVMPSInit, UpdateBoundaryEnvs, NeedGenerateRightEnvs"])
p("Chains of two sites lose a tensor",
  "For N=2 the preparation overwrites the file of the second tensor with an empty tensor.",
  "N=2, any content", "Not covered by tests; a property of the whole preparation.",
  [V+"vmps_init.h: CheckAndUpdateBoundaryMPSTensors"])
p("Noised sweeps load, use and dump consistently between the boundaries",
  "Between boundaries left and right with left+2<=right every sweep only loads existing files, never uses an empty slot and returns to memory containing exactly the tensors left and left+1.",
  "every N, left, right, number of sweeps", "All positions.",
  [V+"two_site_update_noise_finite_vmps_impl.h: TwoSiteFiniteVMPSSweep, LoadRelatedTensOnTwoSiteAlgWhenNoisedRightMoving, LoadRelatedTensOnTwoSiteAlgWhenNoisedLeftMoving, DumpRelatedTensTwoSiteAlgNoiseCase"])
p("Noise stays within its limits",
  "The adaptive noise stays non-negative and never exceeds the larger of its start value and the maximal noise, for every sequence of energies.",
  "every sequence of energies, parameters with 0<=decrease<=1<=increase", "All energy sequences.",
  [V+"two_site_update_noise_finite_vmps_impl.h: TwoSiteFiniteVMPSSweep", V+"single_site_update_finite_vmps_impl.h: SingleSiteFiniteVMPSSweep"])
p("DMRG leaves a complete MPS on disk for every signal schedule",
  "Whatever the moment at which a graceful stop signal arrives, after DMRG returns every MPS tensor is on disk in its latest version (what is still in memory is the same). After an emergency signal the same holds, except when the signal arrives in the window between the last update of a sweep and the post-processing: then the updated center tensor is not on disk.",
  "every N>=3, boundaries, sweep number and arrival time of signals", "Signals are asynchronous: all interleavings.",
  ["include/qlmps/algorithm/dmrg/dmrg_impl.h: DMRGExecutor::Execute, DMRGSweep_, EmergencyDumpRelatedTens_, DMRGPostProcess_, signal handlers"])
p("A stop request is honoured once and only by the run it was sent to",
  "A stop request ends the run after the current sweep (graceful) or update (emergency). The request stays set afterwards, so a later run in the same process stops prematurely.",
  "every schedule and every later run", "All schedules.",
  ["include/qlmps/algorithm/dmrg/dmrg_impl.h: DMRGExecutor signal flags"])
p("DMRG block operators are complete and fresh",
  "Every DMRG update finds all block operator files it needs, and they are computed from the current tensors.",
  "every N, boundaries, number of sweeps", "All positions.",
  ["include/qlmps/algorithm/dmrg/dmrg_impl.h: DMRGSweep_, TwoSiteUpdate_, LoadRelatedTensSweep_, DumpRelatedTensSweep_", "include/qlmps/algorithm/dmrg/dmrg_init.h: InitBlockOps, UpdateBoundaryBlockOps, NeedGenerateBlockOps"])
p("The effective Hamiltonian does not depend on where the chain is cut",
  "For every cut position, combining left block operators, the two site matrices and right block operators as the solver does gives the operator represented by the whole chain.",
  "every chain, every cut", "All chains and cuts.",
  ["include/qlmps/algorithm/dmrg/dmrg_init.h: UpdateLeftBlockOps, UpdateRightBlockOps", "include/qlmps/algorithm/dmrg/dmrg_impl.h: SetEffectiveHamiltonianTerms_", "include/qlmps/algorithm/dmrg/lanczos_dmrg_solver_impl.h"])
A="include/qlmps/algo_mpi/"
p("Task farms execute every task exactly once",
  "In every distributed contraction the master/worker exchange hands out every task exactly once, for every number of workers and tasks and every order of message arrival, and the master's result is the sum of all task results.",
  "every number of workers>=1, tasks, every message schedule", "Schedules grow exponentially.",
  [A+"env_ten_update_master.h: MasterGrowLeftEnvironment, MasterGrowRightEnvironment", A+"env_ten_update_slave.h", A+"vmps/lanczos_solver_mpi_master.h: master_two_site_eff_ham_mul_state", A+"vmps/lanczos_solver_mpi_slave.h"])
p("Task farms terminate without deadlock",
  "Every reachable state of a task farm that is not finished can make progress, every execution is finite, and at the end every worker has left its loop and no message is in flight.",
  "every number of workers>=1, tasks, every schedule", "Schedules grow exponentially.",
  [A+"env_ten_update_master.h", A+"env_ten_update_slave.h", A+"vmps/lanczos_solver_mpi_master.h", A+"vmps/lanczos_solver_mpi_slave.h", A+"dmrg/lanczos_dmrg_solver_mpi_master.h", A+"dmrg/dmrg_mpi_impl_slave.h"])
p("Master and workers follow the same order protocol",
  "The sequence of broadcast orders of the master is always understood by the workers, the workers end exactly when the master does, and effective-Hamiltonian tensors of the workers are freed exactly once per update.",
  "every number of sweeps, updates and Lanczos iterations", "All protocol histories.",
  [A+"vmps/two_site_update_finite_vmps_mpi_impl_master.h", A+"vmps/two_site_update_finite_vmps_mpi_impl_slave.h", A+"mps_algo_order.h"])
p("DMRG workers' partial sums cover every Hamiltonian term once",
  "In the distributed DMRG the dynamic first multiplication assigns each term to exactly one worker, and every following static multiplication sums every term exactly once; growing the block operators receives every operator exactly once.",
  "every worker count>=1, term count, schedule", "Schedules grow exponentially.",
  [A+"dmrg/lanczos_dmrg_solver_mpi_master.h: DynamicHamiltonianMultiplyState_, StaticHamiltonianMultiplyState_", A+"dmrg/dmrg_mpi_impl_master.h: GrowLeftBlockOps_, GrowRightBlockOps_", A+"dmrg/dmrg_mpi_impl_slave.h"])
p("The threaded sweep equals the sequential sweep",
  "In the distributed noised sweep the update runs concurrently with a loading and a dumping thread; every interleaving ends in the same memory and disk state as executing them one after another.",
  "every N, boundaries, interleavings", "Interleavings grow exponentially.",
  [A+"vmps/two_site_update_noised_finite_vmps_mpi_impl.h: TwoSiteFiniteVMPSSweep"])
T="include/qlmps/algorithm/tdvp/"
p("A TDVP step advances every bond by one time step",
  "In one TDVP sweep each two-site bond is evolved forward by tau in total and each interior site backward by tau in total, and the sequence of substeps is symmetric.",
  "every N>=3", "All N.", [T+"two_site_update_finite_tdvp_impl.h: TwoSiteFiniteTDVPSweep"])
p("TDVP sweeps load, use and dump consistently",
  "Every TDVP sweep only loads existing files, never uses an empty slot and leaves all tensors on disk; the initial state preparation acts with the operator at the requested site.",
  "every N>=3, every number of steps, site", "All N and sites.", [T+"two_site_update_finite_tdvp_impl.h: TwoSiteFiniteTDVP, TwoSiteFiniteTDVPSweep, ActOperatorOnMps"])
p("TDVP measurement records stay within bounds",
  "Recording the correlation at each step writes inside the result array and every entry of the returned array is written.",
  "every N, number of steps, both measuring modes", "All sizes.", [T+"two_site_update_finite_tdvp_impl.h: TwoSiteFiniteTDVP"])
p("Lanczos loops terminate within their arrays",
  "The Lanczos eigen-solver and exponential solver stop after at most max_iterations basis vectors and never index past their arrays, for max_iterations>=2; with fewer they do.",
  "every parameter, every sequence of norms and energies", "All numerical behaviours.",
  [V+"lanczos_vmps_solver_impl.h: LanczosSolver", T+"lanczos_expmv_solver_impl.h: LanczosExpmvSolver", "include/qlmps/algorithm/dmrg/lanczos_dmrg_solver_impl.h"])
p("Lanczos basis tensors are freed exactly once",
  "For every exit path of the Lanczos solvers all basis tensors are freed exactly once and the result tensor is not freed.",
  "every exit path and iteration count", "All exit paths.",
  [V+"lanczos_vmps_solver_impl.h: LanczosSolver, LanczosFree"])
p("Quantum number cover test is multiset inclusion",
  "IsQNCovered answers whether the second list of quantum-number sectors is included, with multiplicity, in the first.",
  "every pair of non-empty sector lists with distinct hashes for distinct sectors", "All lists.",
  [V+"two_site_update_noise_finite_vmps_impl.h: IsQNCovered"])
p("Parameter parsing is strict and complete",
  "A required parameter that is missing or of the wrong type ends the program; optional parameters take the default only if missing; the Try variants never modify the output on failure.",
  "every parameter file", "All inputs.", ["include/qlmps/case_params_parser.h: CaseParamsParserBasic"])
p("Direct product initial states have the requested quantum number",
  "Initialising an MPS as a product state gives tensors whose bond quantum numbers match, the total being the sum of the site quantum numbers.",
  "every N>=2, every choice of local states", "All states.", [M+"finite_mps_init.h: DirectStateInitMps, DirectStateInitZeroDivMps"])
p("File names of tensors, environments and block operators never collide",
  "Different tensors, environments and block operators are stored in different files.",
  "all indexes, lengths and components", "All indexes.",
  ["include/qlmps/one_dim_tn/mps/mps.h: GenMPSTenName", V+"two_site_update_finite_vmps_impl.h: GenEnvTenName", "include/qlmps/algorithm/dmrg/operator_io.h: GenOpFileName"])
O="include/qlmps/model_relevant/operators/"
p("Hubbard hopping terms are fermion hopping",
  "AddHubbardHoppingTerms(t,i,j) adds exactly -t sum_sigma (c^dag_{i,sigma} c_{j,sigma} + h.c.) where c are fermion operators satisfying the anticommutation relations, for any i<>j and any chain length.",
  "every N, i<>j, configuration", "Signs depend on all sites in between.",
  [O+"fermion/hubbard_operators.h: HubbardOperators, AddHubbardHoppingTerms"])
p("t-J hopping terms are projected fermion hopping",
  "AddTJHoppingTerms(t,i,j) adds exactly -t sum c^dag_i c_j - conj(t) sum c^dag_j c_i of the projected fermion operators for i<j and for i>j, and i=j throws.",
  "every N, i, j, configuration, t", "Signs depend on all sites in between.",
  [O+"fermion/tJ_operators.h: tJOperators, AddTJHoppingTerms"])
p("Local operator tables agree with their names",
  "Every tabulated composite operator of the spin-1/2, t-J and Hubbard sites is the product its name and comment say. The t-J operators bdnc_multi_bupa and bupc_multi_bdna are exchanged.",
  "all table entries", "Cross relations between all entries.",
  [O+"fermion/hubbard_operators.h", O+"fermion/tJ_operators.h", O+"spin/spin_one_half_operators.h"])
p("Heisenberg coupling is S.S",
  "AddHeisenbergCoupling(J,i,j) adds J times the scalar product of the two spins, symmetric in i and j.",
  "every J, i<>j", "All positions.", [O+"spin/spin_one_half_operators.h: AddHeisenbergCoupling"])
p("Disk based measurements visit the right sites and leave memory clean",
  "Measuring on-site and two-site quantities from disk evaluates exactly the requested sites with the center there, never modifies the disk and ends with empty memory, for ascending site lists; the four-site version can leave tensors in memory.",
  "every N, ascending site list", "All site lists.",
  [M+"finite_mps_measu_disk.h: MeasureOneSiteOp, MeasureTwoSiteOpGroup, MeasureFourSiteOpGroup"])
p("Multi-site averages contract each operator on its own site",
  "MultiSiteOpAvg expands physical and insertion operators into one operator per site from the first to the last site, each at its position.",
  "every strictly ascending site list", "All lists; equal neighbouring sites pass the order check but underflow.",
  [M+"finite_mps_measu_memory.h: MultiSiteOpAvg, IsOrderKept, MeasureMultiSiteOp"])
p("MPS and MPO addition add amplitudes",
  "The sum of two MPS (or MPO) of length N>=2 has the sum of the amplitudes; a chain of length one gets a bond of the wrong dimension.",
  "every N>=2, every pair", "All inputs.",
  [M+"finite_mps_ops.h: FiniteMPSAdd", "include/qlmps/one_dim_tn/mpo/finite_mpo/finite_mpo.h: FiniteMPO::operator+="])
p("The density matrix is the truncated Taylor series",
  "Without truncation ExpFiniteMPO with maximal order K returns (normalised) the sum over n<K of (-tau H)^n/n!.",
  "every K, every operator algebra", "All orders.",
  ["include/qlmps/one_dim_tn/mpo/finite_mpo/exp_finite_mpo.h: ExpFiniteMPO"])
p("MPO center bookkeeping is kept by scaling, normalising, dumping and loading",
  "Scale and Normalize keep the center, Dump then Load restores center and flags; loading an uncentralized MPO over a centralized one keeps stale flags.",
  "every history", "Histories.",
  ["include/qlmps/one_dim_tn/mpo/finite_mpo/finite_mpo.h: FiniteMPO::Scale, Normalize, Dump, Load, SetCenter_"])
p("The norm of a centralized MPS is the norm of its center tensor",
  "After Centralize(k) the sum of |amplitude|^2 over all configurations equals the sum of |element|^2 of tensor k, so normalising that one tensor normalises the state.",
  "every MPS with matching bonds and outer bonds of dimension one, every k", "All inputs.",
  ["include/qlmps/one_dim_tn/mps/finite_mps/finite_mps.h: FiniteMPS::Centralize, GetEntanglementEntropy, TruncateMPS"])
p("The inner product of two MPS is the sum of products of amplitudes",
  "FiniteMPSInnerProd(A, B) is the sum over all configurations of A's amplitude times the conjugate of B's.",
  "every N>=1, every pair of states on the same sites", "All inputs.",
  ["include/qlmps/one_dim_tn/mps/finite_mps/finite_mps_ops.h: FiniteMPSInnerProd"])
p("The MPO product is the product of the operators and the generated identity is the identity",
  "MpoProduct without compression gives the MPO whose matrix elements are those of the product of the operators, the second acting first; GenerateIdentityMPO has the matrix elements of the identity.",
  "every N>=1, every pair of operators on the same sites", "All inputs.",
  ["include/qlmps/one_dim_tn/mpo/finite_mpo/finite_mpo_utility.h: MpoProduct, GenerateIdentityMPO"])
p("Taking the trace of an MPO gives the trace and keeps its tensors",
  "Trace returns the sum of the diagonal matrix elements and keeps the tensors; it forgets the center and all canonical flags.",
  "every N>=1, every operator", "All inputs.",
  ["include/qlmps/one_dim_tn/mpo/finite_mpo/finite_mpo.h: FiniteMPO::Trace"])
p("Terms can be added to the infinite MPO generator",
  "AddTerm of the infinite MPO generator records the term. Refuted: whatever the unit cell, the terms and the exceptions caught before, no call of AddTerm returns normally.",
  "every unit cell, every sequence of calls, with and without assertions, callers that catch exceptions and go on", "There is no test of this class; the failure must be shown for every term.",
  ["include/qlmps/one_dim_tn/mpo/mpogen/ifsm.h: iFSM::AddPath", "include/qlmps/one_dim_tn/mpo/mpogen/impo_gen.h: iMPOGenerator::AddTerm", "include/qlmps/one_dim_tn/mpo/mpogen/fsm.h: FSMNode::Site"])
p("A single-site run on disk equals the optimisation in memory",
  "SingleSiteFiniteVMPS completes and leaves in the MPS files, and returns, what the same sequence of site optimisations gives when every environment is rebuilt from the current tensors; preset noises are used for their sweeps and the running noise is carried on after them. At most two tensors are in memory at any moment, none at the end, and calls can follow each other.",
  "every N>=2, every local solver and noise rule, every number of sweeps and of calls, with and without an existing temporary directory, with and without assertions", "Depends on the bookkeeping of files for every chain length and sweep count.",
  ["include/qlmps/algorithm/vmps/single_site_update_finite_vmps_impl.h: SingleSiteFiniteVMPS, SingleSiteFiniteVMPSSweep, SingleSiteFiniteVMPSUpdate, LoadRelatedTensSingleSiteAlg, DumpRelatedTensSingleSiteAlg"])
p("A single-site run that dies is detected, except between sweeps",
  "If the process dies inside a sweep after the first environment file was removed, or while the first environments are written, the next run throws. If it dies between sweeps the next run starts, but from an old tensor of site 0.",
  "every crash point between file operations, every N>=2, every solver", "Needs every crash point.",
  ["include/qlmps/algorithm/vmps/single_site_update_finite_vmps_impl.h: SingleSiteFiniteVMPS, LoadRelatedTensSingleSiteAlg, DumpRelatedTensSingleSiteAlg"])
p("VMPS optimises the projection of the Hamiltonian of the whole chain",
  "The environments that VMPS builds and the effective Hamiltonian it multiplies with, around two sites or one, give the MPO of the whole chain applied to the state that the local tensor stands for, in the basis of the outer bonds. The energy computed at any site or pair of sites is the expectation value of the chain. DMRG, with the same operators as MPO matrices, multiplies with the same effective Hamiltonian.",
  "every N>=2, every cut, all bond and physical dimensions, all tensors, every two-site or one-site tensor", "All chain lengths, dimensions and elements.",
  ["include/qlmps/algorithm/vmps/vmps_init.h: UpdateSiteLenvs, UpdateSiteRenvs", "include/qlmps/algorithm/vmps/lanczos_vmps_solver_impl.h: eff_ham_mul_two_site_state, eff_ham_mul_single_site_state", "include/qlmps/algorithm/vmps/single_site_update_finite_vmps_impl.h: CalEnergyEptSingleSite", "include/qlmps/algorithm/vmps/two_site_update_noise_finite_vmps_impl.h: CalEnergyEptTwoSite"])
p("Noise and hand-over do not change the state",
  "The noise step of the single-site and the noised two-site VMPS enlarges a bond and changes no amplitude, whatever the noise; what it adds is the noise times the effective Hamiltonian applied to the tensor, before the environment beyond the bond is contracted. Splitting the optimised tensor and moving the rest to the neighbour leaves the chain in the state of the product of the factors kept, hence in the same state when nothing is truncated.",
  "every chain, position and direction, all dimensions, tensors and noises, every decomposition", "All chain lengths, dimensions and elements.",
  ["include/qlmps/algorithm/vmps/single_site_update_finite_vmps_impl.h: SingleSiteFiniteVMPSExpand, SingleSiteFiniteVMPSUpdate", "include/qlmps/algorithm/vmps/two_site_update_noise_finite_vmps_impl.h: TwoSiteFiniteVMPSExpand, TwoSiteFiniteVMPSUpdate", "include/qlmps/algorithm/vmps/two_site_update_finite_vmps_impl.h: TwoSiteFiniteVMPSUpdate"])
p("The distributed VMPS steps give the results of the serial steps",
  "Growing an environment and multiplying with the effective Hamiltonian in tasks, one per sector of a bond, gives the tensor that the serial step gives, and the overlap that the workers add up is that of the serial step.",
  "every division of the bond into sectors, every assignment of tasks to workers, every order of arrival, all dimensions and tensors", "Every schedule and every division.",
  ["include/qlmps/algo_mpi/env_ten_update_master.h: MasterGrowLeftEnvironment, MasterGrowRightEnvironment", "include/qlmps/algo_mpi/env_ten_update_slave.h: SlaveGrowLeftEnvironment, SlaveGrowRightEnvironment", "include/qlmps/algo_mpi/vmps/lanczos_solver_mpi_master.h: master_two_site_eff_ham_mul_state", "include/qlmps/algo_mpi/vmps/lanczos_solver_mpi_slave.h: slave_two_site_eff_ham_mul_state"])
p("The energy that the eigensolver returns is that of the state it returns",
  "In exact arithmetic the vector that the Lanczos eigensolver returns is normalized, the returned energy is the expectation value of the operator in it, and it is not above that of the initial state, after any number of iterations. When the solver stopped because the residual vanished, the vector is an eigenvector.",
  "every Hermitian operator, every nonzero initial state, every number of iterations and every stop criterion", "All operators, dimensions and numbers of iterations.",
  ["include/qlmps/algorithm/vmps/lanczos_vmps_solver_impl.h: LanczosSolver, TridiagGsSolver", "include/qlmps/algorithm/dmrg/lanczos_dmrg_solver_impl.h: LanczosSolver"])
p("A local time step keeps the norm and the energy",
  "In exact arithmetic the exponential that a TDVP step applies keeps the norm of the local state and its energy, after any number of Krylov vectors; when the residual vanishes it is the exact evolution. The solver of the distributed TDVP keeps the norm too.",
  "every Hermitian operator, every nonzero state, step length and number of vectors", "All operators, dimensions and step lengths.",
  ["include/qlmps/algorithm/tdvp/lanczos_expmv_solver_impl.h: LanczosExpmvSolver, TridiagExpme1Solver", "include/qlmps/algo_mpi/tdvp/lanczos_expmv_solver_mpi.h: MasterLanczosExpmvSolver"])
p("Distributed DMRG computes what serial DMRG computes",
  "Whatever worker gets which task and in whatever order answers arrive, the distributed multiplication with the effective Hamiltonian (the first one and all later ones), the energy it adds up and the block operators it grows, at the start and behind an update, are the ones the serial code computes.",
  "every chain, cut and state, every number of workers (also more than tasks), every execution of the exchanges", "Schedules, numbers of workers and operator counts cannot be enumerated.",
  ["include/qlmps/algo_mpi/dmrg/lanczos_dmrg_solver_mpi_master.h: DynamicHamiltonianMultiplyState_, StaticHamiltonianMultiplyState_", "include/qlmps/algo_mpi/dmrg/dmrg_mpi_impl_master.h: InitUpdateRightBlockOps_, GrowLeftBlockOps_, GrowRightBlockOps_", "include/qlmps/algo_mpi/dmrg/dmrg_mpi_impl_slave.h: WorkForDynamicHamiltonianMultiplyState_, WorkForStaticHamiltonianMultiplyState_, WorkForGrowLeftBlockOps_, WorkForGrowRightBlockOps_, UpdateRightBlockOpsSlave_"])
p("Without truncation a DMRG run never raises the energy and reports the energy of its result",
  "For a Hermitian MPO, an MPS with its center on site 0 and decompositions that discard nothing, every update leaves a normalized MPS whose expectation value is the energy of that update, later energies are not above earlier ones, and the files a run leaves hold an MPS whose energy is the returned one and not above the energy of the MPS the run started from.",
  "every Hermitian MPO, chain length, initial MPS, number of sweeps, arrival of signals and place of an emergency stop", "Holds for all chains and for every prefix of every run; tests check a few models to a tolerance.",
  ["include/qlmps/algorithm/dmrg/dmrg_impl.h: Execute, TwoSiteUpdate_", "include/qlmps/algorithm/dmrg/lanczos_dmrg_solver_impl.h: LanczosSolver", "include/qlmps/algorithm/dmrg/dmrg_init.h: UpdateLeftBlockOps, UpdateRightBlockOps", "include/qlmps/algorithm/vmps/vmps_init.h: CheckAndUpdateBoundaryMPSTensors"])
p("Without truncation two-site time evolution conserves norm and energy",
  "For a Hermitian MPO and decompositions that discard nothing, two-site TDVP leaves the norm and the energy of op|initial> unchanged: after every substep, after every number of time steps, and in the files of a finished run.",
  "every Hermitian MPO, chain of at least three sites, operator, site, time step (of either sign and any size) and number of steps", "A statement about all Hamiltonians and all step sizes, at every intermediate state; tests compare a few runs to a tolerance that also covers truncation.",
  ["include/qlmps/algorithm/tdvp/two_site_update_finite_tdvp_impl.h: TwoSiteFiniteTDVP, TwoSiteFiniteTDVPSweep, TwoSiteFiniteTDVPEvolution, SingleSiteFiniteTDVPBackwardEvolution, ActOperatorOnMps", "include/qlmps/algorithm/tdvp/lanczos_expmv_solver_impl.h: LanczosExpmvSolver", "include/qlmps/one_dim_tn/mps/finite_mps/finite_mps.h: RightCanonicalizeTen"])
p("Without truncation two-site VMPS never raises the energy and returns the energy of its result",
  "For a Hermitian MPO, an MPS in canonical form with its center on one of the first two sites and decompositions that discard nothing, every update of TwoSiteFiniteVMPS leaves a normalized MPS whose expectation value is the energy of that update, later energies are not above earlier ones, and the files of a run hold an MPS whose energy is the returned one and not above the initial one; the next run may start from them.",
  "every Hermitian MPO, chain of at least three sites, initial MPS and number of sweeps and runs", "Holds for all chains and after every update; tests check a few models to a tolerance.",
  ["include/qlmps/algorithm/vmps/two_site_update_finite_vmps_impl.h: TwoSiteFiniteVMPS, TwoSiteFiniteVMPSSweep, TwoSiteFiniteVMPSUpdate", "include/qlmps/algorithm/vmps/lanczos_vmps_solver_impl.h: LanczosSolver, eff_ham_mul_two_site_state", "include/qlmps/algorithm/vmps/vmps_init.h: UpdateSiteLenvs, UpdateSiteRenvs"])
p("Without truncation single-site VMPS never raises the energy, and its noise follows the presets unless energies are positive",
  "For a Hermitian MPO, an MPS in canonical form with its center on site 0 and decompositions that discard nothing, every update of SingleSiteFiniteVMPS, with whatever noise, leaves a normalized MPS whose expectation value is the energy of that update; later energies are not above earlier ones; the files of a run hold an MPS with the returned energy, not above the initial one, and a next run may start from them. The noise is never raised: it is the preset in force as long as energies are not positive, and is multiplied by noise_decrease once per sweep while they are positive.",
  "every Hermitian MPO, chain of at least two sites, initial MPS, list of noises, parameters of the noise rule, number of sweeps and runs", "Holds for all chains, noises and rule parameters, after every update; tests check a few models with one list of noises to a tolerance.",
  ["include/qlmps/algorithm/vmps/single_site_update_finite_vmps_impl.h: SingleSiteFiniteVMPS, SingleSiteFiniteVMPSSweep, SingleSiteFiniteVMPSUpdate, SingleSiteFiniteVMPSExpand, CalEnergyEptSingleSite", "include/qlmps/algorithm/vmps/lanczos_vmps_solver_impl.h: LanczosSolver, eff_ham_mul_single_site_state", "include/qlmps/algorithm/finite_vmps_sweep_params.h: FiniteVMPSSweepParams"])
p("Without truncation noised two-site VMPS never raises the energy, and the range of its sweeps depends on dimensions only",
  "For a Hermitian MPO, an MPS that is right-canonical behind the sites of the left preparation and decompositions that discard nothing, every update of the noised TwoSiteFiniteVMPS, with whatever noise and enlarged bonds, leaves a normalized MPS whose expectation value is the energy of that update; later energies are not above earlier ones; the files of a run hold an MPS with the returned energy, not above the initial one. The preparation keeps state and energy; the boundaries of the sweeps are the first sites from the ends where the product of the physical dimensions passes the maximal bond dimension, or the middle, so a next run gets the same ones. The noise is never raised: it is the preset in force as long as energies are not positive, and is multiplied by noise_decrease once per sweep while they are positive.",
  "every Hermitian MPO, chain of at least three sites, initial MPS, nonempty list of noises, parameters of the noise rule, bond enlargement, maximal bond dimension, number of sweeps and runs", "Holds for all chains, noises and bond dimensions, after every update; tests check a few models with one list of noises to a tolerance.",
  ["include/qlmps/algorithm/vmps/two_site_update_noise_finite_vmps_impl.h: TwoSiteFiniteVMPSWithNoise, TwoSiteFiniteVMPSSweep, TwoSiteFiniteVMPSUpdate, TwoSiteFiniteVMPSExpand, CalEnergyEptTwoSite", "include/qlmps/algorithm/vmps/vmps_init.h: CheckAndUpdateBoundaryMPSTensors", "include/qlmps/one_dim_tn/mps/finite_mps/finite_mps.h: LeftCanonicalizeTen, RightCanonicalizeTen"])
p("The record of a TDVP run contains the correlations of the initial state with the evolved state",
  "TwoSiteFiniteTDVP first applies local_op0 at site_0 and inst0 (if given) to every site before it; the entry for step k and site i of the returned record is exp(i e0 k tau) <initial| S_i |psi_k>, where S_i is local_op1 at site i with inst1 (if given) on every site before it, psi_0 is the operator applied to the initial state and psi_k is the state after k time steps; without truncation psi_k keeps the norm of psi_0, so that every entry is at most |S_i^+ initial| |psi_0|; the state of the last entries is in the files.",
  "every chain of at least three sites with equal physical dimensions, initial MPS, MPO, pair of operators and strings, site, step, number of steps and energy shift", "Which operator acts on which site in which order, and with which conjugation, must be right for every chain, operator (also not symmetric) and time; tests compare a few models with symmetric operators at a few times.",
  ["include/qlmps/algorithm/tdvp/two_site_update_finite_tdvp_impl.h: TwoSiteFiniteTDVP, ActOperatorOnMps, CalPsi1OpPsi2"])
p("What truncation does to two-site VMPS and two-site TDVP runs",
  "With Dmax and the cutoff active, every two-site VMPS update reports the energy of the normalized state before its truncation; that energy is not above the one of the state it found and never below the spectrum; the chain it leaves has <psi|psi> = 1 - d for the truncation error d of that update alone and overlap 1 - d with the untruncated state; a run leaves every bond at most Dmax wide. In two-site TDVP <psi|psi> is multiplied by 1 - d at every forward substep, so the recorded overlaps decay by the square roots of these factors. (A user may expect the stored MPS to be normalized and to have the returned energy: false with truncation.)",
  "every Hermitian MPO, chain of at least three sites, mixed canonical initial MPS, number of sweeps or steps, and every truncated decomposition whose kept part is orthogonal to the discarded part", "The claims relate the reported numbers to the stored state for every truncation pattern along a run; tests compare converged energies to a tolerance and never look at the norm of the stored state.",
  ["include/qlmps/algorithm/vmps/two_site_update_finite_vmps_impl.h: TwoSiteFiniteVMPS, TwoSiteFiniteVMPSUpdate", "include/qlmps/algorithm/tdvp/two_site_update_finite_tdvp_impl.h: TwoSiteFiniteTDVP, TwoSiteFiniteTDVPEvolution"])
p("Eigenstates are fixed points of two-site VMPS",
  "If the initial MPS is an eigenstate of the Hamiltonian with energy E (any eigenstate, not only the ground state), every update of every sweep of TwoSiteFiniteVMPS without truncation reports E and the run returns E and leaves the same state, normalized, whatever the convergence settings of the eigenvalue solver and whatever LAPACK does.",
  "every Hermitian MPO, eigenstate, chain of at least three sites, number of sweeps and solver parameters with at least two iterations", "The claim covers every eigenstate of every Hamiltonian; tests start from product states or random states.",
  ["include/qlmps/algorithm/vmps/two_site_update_finite_vmps_impl.h: TwoSiteFiniteVMPS", "include/qlmps/algorithm/vmps/lanczos_vmps_solver_impl.h: LanczosSolver"])
p("Two-site TDVP is exact on eigenstates",
  "If the state to which the operator has been applied is an eigenstate of the Hamiltonian with energy E, TwoSiteFiniteTDVP without truncation multiplies it by exp(-i E tau) per time step with no time step error for any tau, the files of the run hold exp(-i E T) times that state, and the record entry for step k and site i is exp(i (e0 - E) k tau) times its value at time 0.",
  "every Hermitian MPO, eigenstate, chain of at least three sites with equal physical dimensions, operators and strings, time step, number of steps and energy shift", "Forward and backward substeps must cancel up to exactly one phase for every tau and chain length; tests compare one model at small tau to a tolerance.",
  ["include/qlmps/algorithm/tdvp/two_site_update_finite_tdvp_impl.h: TwoSiteFiniteTDVP, TwoSiteFiniteTDVPSweep", "include/qlmps/algorithm/tdvp/lanczos_expmv_solver_impl.h: LanczosExpmvSolver"])
p("From AddTerm to the result of a run",
  "For a Hamiltonian given as calls of AddTerm (Hermitian as a whole), the MPO that Gen returns can be used by VMPS and TDVP and the one of GenMatReprMPO by DMRG, and what a run does with it is about the sum H of the added terms: the energy returned by two-site VMPS, single-site VMPS and two-site DMRG without truncation is <psi|H|psi> of the stored normalized state, is not above <psi|H|psi>/<psi|psi> of the initial state and not below any lower bound of H (for instance minus the sum of the absolute values of the coefficients, if the operators have row and column sums of at most 1); an eigenvector of H is returned with its eigenvalue; two-site TDVP conserves <psi|psi> and <psi|H|psi>. Compression of the bonds and the order of the calls do not matter.",
  "every list of legal calls of AddTerm with a Hermitian sum, every symmetry, compression setting, chain of at least three sites (two for single-site), initial MPS in the canonical form the algorithms need, number of sweeps or steps", "Tests run a few models with the generator and compare one final energy; they cannot show that the sum given by the user and the operator the algorithms act with agree in every matrix element for every list of terms.",
  ["include/qlmps/one_dim_tn/mpo/mpogen/mpogen_impl.h: AddTerm, Gen, GenMatReprMPO", "include/qlmps/algorithm/vmps/two_site_update_finite_vmps_impl.h: TwoSiteFiniteVMPS", "include/qlmps/algorithm/vmps/single_site_update_finite_vmps_impl.h: SingleSiteFiniteVMPS", "include/qlmps/algorithm/dmrg/dmrg_impl.h: FiniteDMRG", "include/qlmps/algorithm/tdvp/two_site_update_finite_tdvp_impl.h: TwoSiteFiniteTDVP"])
p("Truncating a stored state",
  "TruncateMPS turns a state that is not zero into a normalized state with the same physical legs, left canonical on every site but the last, with the printed bond dimensions, none above Dmax. Its overlap with the old state is the old norm times the product of sqrt(1 - TruncErr) over the printed errors, so its squared distance from the normalized old state is at most twice the sum of the printed errors, and at most 2 (N - 1) trunc_err if no bond reached Dmax; if all printed errors are zero it is the normalized old state, amplitude by amplitude. Afterwards no canonical flag and no center are set. The zero state is divided by zero.",
  "every chain, every state with truthful flags, every target error and bond dimensions, every truncated SVD with orthonormal factors", "Tests truncate a few states and compare some overlaps within a tolerance; they cannot show that the printed errors account for the whole loss on every state and chain.",
  ["include/qlmps/one_dim_tn/mps/finite_mps/finite_mps.h: TruncateMPS"])
p("Entanglement entropies of a stored state",
  "GetEntanglementEntropy(n) of a state that is not zero returns one value per bond. For n > 1 the value of bond i is the Renyi entropy of order n of sites 0 to i in the normalized state; for n = 1 it is the von Neumann entropy of those sites, whatever eigenvectors are chosen, unless the bond keeps more dimensions than the reduced density matrix has eigenvalues other than zero, in which case the value is not a number; for n = 0 every value is zero. Afterwards the stored state is the old state divided by its norm, right canonical on every site but the first, with the flags saying so.",
  "every chain, every state with truthful flags, every order n, every SVD that keeps all singular values", "Tests compute the entropy of one or two states with known entropy; they cannot show that the value is the entropy of the reduced density matrix on every state, bond and order, nor where it is not a number.",
  ["include/qlmps/one_dim_tn/mps/finite_mps/finite_mps.h: GetEntanglementEntropy, RightCanonicalizeTen", "include/qlmps/utilities.h: mock_qlten::SVD"])
p("Centralizing, truncating and normalizing a finite MPO",
  "Centralize(k) of a finite MPO with 0 <= k < N keeps the operator, makes the tensors left of k left canonical and those right of it right canonical, and the flags and the center say so; other k are never accepted. Truncate of an operator that is not zero gives an operator on the same sites whose bond dimensions are the printed ones, at most Dmax; its overlap with the old operator is its squared norm, which is that of the old one times the product of 1 minus the printed truncation errors, so the squared distance is at most the sum of those errors times the squared norm, and zero if they are. Normalize after Centralize or Truncate returns the Frobenius norm of the operator and leaves the operator divided by it.",
  "every chain, every operator, every canonical form recorded truthfully, every QR and SVD as specified, every limit", "Tests truncate a few Hamiltonians and compare a few matrix elements; they cannot show the bound on the distance for every operator and every set of truncation errors.",
  ["include/qlmps/one_dim_tn/mpo/finite_mpo/finite_mpo.h: Centralize, LeftCanonicalize, LeftCanonicalizeTen, RightCanonicalize, RightCanonicalizeTen, Truncate, RightCanonicalizeTen_, Normalize"])
p("Variational product of two finite MPOs",
  "The variational MpoProduct of two finite MPOs on three sites or more, with at least one sweep and a start (the output if it is filled, mpo1 otherwise) that is not orthogonal to the product, ends with an operator on the same sites whose overlap with the product equals its own squared norm; its squared distance from the product is at most that of the start plus the printed truncation errors times the squared norm of the product; bond dimensions are at most Dmax; the flags and the center (site 1) are right; the last printed norm is that of the output, and it stops early only if two printed norms agree up to the tolerance. Square does this with both factors the object, from the stored guess or from the object; SquareAndNormlize returns the norm of the result and leaves it divided by it.",
  "every pair of operators, every start, every QR and SVD as specified, every limit, tolerance and number of sweeps, whatever environment files are left in the temporary directory", "Tests square one Hamiltonian; they cannot show that no sequence of truncations makes the result worse than the bound, nor what happens on short chains and with starts that do not overlap.",
  ["include/qlmps/one_dim_tn/mpo/finite_mpo/finite_mpo_utility.h: MpoProduct, MPOProductVariationalSingleStep, Generate3MPOEnvs, UpdateLenv, UpdateRenv", "include/qlmps/one_dim_tn/mpo/finite_mpo/finite_mpo.h: Square, SquareAndNormlize"])
p("Exponential of a finite MPO with truncated powers",
  "ExpFiniteMPO of an operator H on two sites or more returns the norm of a sum and the sum divided by that norm, right canonical behind the first site, where the sum is built order by order: the n-th term is 1/n times the last term times -tau H, truncated to its own bond dimension if the bond dimensions multiply to at most Dmax and otherwise optimised from the operator stored for that order (or from the last term); the sum is truncated if its bond dimension exceeds Dmax. Its distance from the Taylor polynomial and from exp(-tau H) is bounded by the printed errors, the distances of the starts and the rest of the series; without errors and optimisations it is the polynomial. The loop ends early only at an even order whose trace is below the tolerance; every order leaves its term in its directory; a debug build stops when the trace of an even term is not positive.",
  "every operator, tau, limit, tolerance, number of orders and sweeps, every QR and SVD as specified, every set of directories stored before", "Tests exponentiate one Hamiltonian with bond dimensions that hardly truncate; they cannot bound the error of every sequence of truncations and optimisations nor cover what earlier calls left in the directories.",
  ["include/qlmps/one_dim_tn/mpo/finite_mpo/exp_finite_mpo.h: ExpFiniteMPO, GenHnMpoPath", "include/qlmps/one_dim_tn/mpo/finite_mpo/finite_mpo_utility.h: MpoProduct", "include/qlmps/one_dim_tn/mpo/finite_mpo/finite_mpo.h: Truncate, Load, Dump, Trace"])
p("DMRG with truncation",
  "Every update of a DMRG run finds a normalized state whose energy is not above that of the chain before the update, and leaves a chain whose norm square and whose overlap with that state are one minus the truncation error of the update. A run returns the energy of the last state before its truncation: it is never below the spectrum of the Hamiltonian, equals the energy of the stored chain if nothing was truncated, and differs from <H> of the stored chain by at most 2 |H| sqrt(truncation error) otherwise. After a run that was not interrupted no bond of the stored chain exceeds Dmax, even if it started from larger bonds, and its center is on site 0; a run that an emergency request ends leaves such a chain too.",
  "every Hermitian MPO on three sites or more, every chain, number of sweeps and time of a request, every SVD that drops some singular values, every QR and LAPACK as specified", "Tests compare one final energy with a known one to some digits; they cannot tell whether the returned energy belongs to the stored chain for all Hamiltonians and truncations, nor whether all bonds respect the limit whatever the start.",
  ["include/qlmps/algorithm/dmrg/dmrg_impl.h: Execute, DMRGSweep_, TwoSiteUpdate_", "include/qlmps/algorithm/vmps/vmps_init.h: CheckAndUpdateBoundaryMPSTensors", "include/qlmps/algorithm/lanczos_params.h"])
p("Symmetry sectors",
  "If the MPO conserves a quantum number (total charge, spin, parity) and the initial MPS has a definite total, then two-site VMPS and two-site TDVP with truncation never leave that sector: after any number of updates or substeps every amplitude of a configuration with another total is zero, and the chain is again built of blocks that a later run can start from. The energy that VMPS returns is not below the lowest energy of that sector, even if other sectors have lower ones. An operator that changes the total before a time evolution moves the state to another sector, in which it then stays.",
  "every group of quantum numbers, Hermitian conserving MPO on three sites or more, chain in block form, number of sweeps or time steps, every truncated SVD that works block by block, every QR and LAPACK as specified", "A test starts in one sector of one model and compares an energy; that no update of any run mixes in a configuration of another sector is a statement about all amplitudes after every step.",
  ["include/qlmps/algorithm/vmps/two_site_update_finite_vmps_impl.h: TwoSiteFiniteVMPSUpdate", "include/qlmps/algorithm/tdvp/two_site_update_finite_tdvp_impl.h: TwoSiteFiniteTDVPEvolution, SingleSiteFiniteTDVPBackwardEvolution", "include/qlmps/algorithm/vmps/lanczos_vmps_solver_impl.h: LanczosSolver", "include/qlmps/one_dim_tn/mps/finite_mps/finite_mps.h: RightCanonicalizeTen"])
p("Symmetry sectors of DMRG runs",
  "If the matrix MPO given to FiniteDMRG conserves a quantum number and the initial MPS has a definite total, then the run never leaves that sector: the preparation that enlarges the bonds near the ends, every update with truncation, a normal end and an end by an emergency request all leave an MPS whose amplitudes for configurations with another total are zero and that is again built of blocks. The returned energy is that of a state of the sector, so it is not below the lowest energy of the sector, even if other sectors have lower ones.",
  "every group of quantum numbers, Hermitian conserving MPO on three sites or more, chain in block form, number of sweeps, schedule of stop and emergency requests, Dmax, every truncated SVD, QR and combiner that works block by block, every LAPACK as specified", "A test starts in one sector of one model and compares an energy; that no update, preparation or interrupted run mixes in a configuration of another sector is a statement about all amplitudes at every point where a run can end.",
  ["include/qlmps/algorithm/dmrg/dmrg_impl.h: TwoSiteUpdate_, Execute", "include/qlmps/algorithm/dmrg/dmrg_init.h: DMRGInit_", "include/qlmps/algorithm/vmps/vmps_init.h: CheckAndUpdateBoundaryMPSTensors", "include/qlmps/algorithm/dmrg/lanczos_dmrg_solver_impl.h: LanczosSolver"])
p("Selection rules of recorded dynamics",
  "If the MPO of a time evolution conserves a quantum number and the initial MPS has a definite total, then an initial operator that changes the total by a definite amount (with its string, if given) moves the evolution to the shifted sector, and with truncation every entry of the returned record is still e^{i e0 t} times the matrix element of the measured operator between the reference state and the state at that time. If the two operators do not lead back to the total of the reference state, every entry of the record is exactly zero, at all sites and times.",
  "every commutative group of quantum numbers, Hermitian conserving MPO on three sites or more, chain in block form, site, operators and strings, number and length of steps, reference state, every truncated SVD and exact QR that works block by block, every LAPACK as specified", "A test records one correlation of one model for a few steps; that truncation never lets a forbidden matrix element appear, for all models, sites and times, cannot be sampled.",
  ["include/qlmps/algorithm/tdvp/two_site_update_finite_tdvp_impl.h: ActOperatorOnMps, TwoSiteFiniteTDVP, CalPsi1OpPsi2", "include/qlmps/algorithm/tdvp/tdvp_evolve_params.h"])
p("Eigenstates are fixed points of DMRG",
  "If the initial MPS is an eigenstate of the Hamiltonian with energy E (any eigenstate, not only the ground state), every update of every sweep of FiniteDMRG without truncation reports E. A run that returns normally, and one that an emergency request ends after any update, leaves E as its energy and the files of the same state, normalized, whatever the convergence settings of the eigenvalue solver and whatever LAPACK does.",
  "every Hermitian MPO in matrix form, eigenstate, chain of at least three sites, number of sweeps, arrival of stop and emergency requests and solver parameters with at least two iterations", "The claim covers every eigenstate of every Hamiltonian and every moment at which a run is ended; tests start from product states or random states and look at the final energy.",
  ["include/qlmps/algorithm/dmrg/dmrg_impl.h: DMRGExecutor::Execute, DMRGSweep_, TwoSiteUpdate_", "include/qlmps/algorithm/dmrg/lanczos_dmrg_solver_impl.h: LanczosSolver"])
p("A time evolution that is repeated or interrupted",
  "Calling TwoSiteFiniteTDVP again with the same paths does not continue an evolution. After a finished run, in the same or in a new process, the operator acts once more on the evolved state, the environments are computed again and the times of the record start at 0, while the overlaps are taken with the first initial state. If the process dies inside a time step, every MPS file holds the tensor of the start, of the turning point or of the end of that step, none is missing, and the next call runs on this mixture without an error. If it dies while the operator is applied, the next call applies the whole operator on top. If it dies while the initial state is copied, every later call applies the operator to the stored MPS and then stops at the missing file.",
  "every chain of at least three sites, every tensor, environment and evolution function, every number of time steps before the interruption, every instruction of a time step after which the process dies, every operator and string", "The claim is about every point at which a process can die and what a later process finds; a test runs one evolution to its end in an empty directory.",
  ["include/qlmps/algorithm/tdvp/two_site_update_finite_tdvp_impl.h: TwoSiteFiniteTDVP, TwoSiteFiniteTDVPSweep, CalPsi1OpPsi2, ActOperatorOnMps"])
p("The noises of the sweep parameters decide which two-site VMPS runs",
  "TwoSiteFiniteVMPS runs the algorithm with noise exactly when FiniteVMPSSweepParams was constructed with at least one noise that is neither a zero of either sign nor NaN; sweep k then starts with noise k, and later sweeps continue with the adapted noise. Without noises, or with zeroes and NaN only, it runs the algorithm without noise. The distributed version chooses in the same way for every number of processes. The choice is made in the constructor only: noises assigned later to parameters constructed without noise have no effect, and parameters whose noises are removed later make the serial call never return a result and the distributed call end the process.",
  "every list of doubles, including signed zeroes, infinities and NaN, every number of sweeps and processes, every tensor type and update, every chain of at least three sites", "The list of noises is any list of doubles and the parameters can be changed between construction and call; the tests construct parameters with one or two fixed lists.",
  ["include/qlmps/algorithm/finite_vmps_sweep_params.h: FiniteVMPSSweepParams", "include/qlmps/algorithm/vmps/two_site_update_finite_vmps_impl.h: TwoSiteFiniteVMPS", "include/qlmps/algorithm/vmps/two_site_update_noise_finite_vmps_impl.h: TwoSiteFiniteVMPSWithNoise", "include/qlmps/algo_mpi/vmps/two_site_update_finite_vmps_mpi_impl_master.h: TwoSiteFiniteVMPS", "include/qlmps/algo_mpi/vmps/two_site_update_noised_finite_vmps_mpi_impl.h: TwoSiteFiniteVMPSWithNoise_"])
p("The sites of a system and their identity operators",
  "A SiteVec made from any nonempty list of local Hilbert spaces has as many sites as were given, each with the given sectors and direction OUT whichever direction was given, and one operator per site that has the legs of the site, is neutral and has the elements of the identity; making it never needs blocks of different divergence, however the sectors are arranged. N identical sites are the same as a list of N copies. Two SiteVecs compare equal exactly when they were made from the same sectors in the same order, and then all of their fields agree. An empty list fails an assertion, and without assertions gives a system with no sites.",
  "every list of indices with any directions, sectors and degeneracies, also repeated or empty sectors, any group of quantum numbers, with and without assertions", "Local spaces are arbitrary lists of sectors; the tests use one or two fixed indices.",
  ["include/qlmps/site_vec.h: SiteVec, SetIndexDirOut, GenIdOp"])
p("Noised runs that die",
  "When a noised two-site run dies inside a sweep, at any moment from the removal of the first right environment file until that file is written again, every tensor of the state still has a file, and the next noised run whose left boundary is not further in recomputes all right environments: it never stops at a missing file and does exactly what sweeps in memory do with the chain found in the files, where the run without noise throws. The same holds when the run dies while the first environments are written, and then the chain is the prepared one. The chain found after a death inside a sweep is mixed: on the way to the right the two tensors in memory are on disk as they were before the sweep, next to tensors of this sweep; on the way back all others are current. Between two sweeps all others and all environments are current.",
  "every chain length from three, pair of boundaries, number of finished sweeps, moment of death, update, noise list and maximal bond dimension of the second run", "A test would have to kill the process at every file operation and compare the next run with one that uses no files.",
  [V+"vmps_init.h: FiniteVMPSInit, NeedGenerateRightEnvs, UpdateBoundaryEnvs", V+"two_site_update_noise_finite_vmps_impl.h: TwoSiteFiniteVMPSWithNoise, TwoSiteFiniteVMPSSweep, LoadRelatedTensOnTwoSiteAlgWhenNoisedRightMoving, LoadRelatedTensOnTwoSiteAlgWhenNoisedLeftMoving, DumpRelatedTensTwoSiteAlgNoiseCase"])
p("DMRG runs that die",
  "When a DMRG process dies while an update of any sweep runs, after the update has loaded its data and before it writes anything, every tensor of the state still has a file, and all of them but one are the current ones. The one is the tensor of the site shared with the update before, which was only in memory; on the way to the right, from the second site after the left boundary on, its file holds what it held before the sweep. A new process whose left boundary is not further in completes: it recomputes every block operator, never stops at a missing file and does exactly the requested number of sweeps from the chain found in the files, and afterwards every tensor is on disk. A left boundary further in is no exception if the preparation of the new process keeps the right blocks: operators it finds belong to the chain on disk. The same holds when it dies while an update reads and removes operators, if at least one of this sweep is removed already, and when it dies while an update writes, after the tensor and any number of operators of the block, as long as the last update of the sweep has not written all of them; then all tensors but the one kept in memory for the next update are current. Between two sweeps all tensors but one are current and the operators on disk belong to the chain on disk, so that the next process may use them if its preparation keeps the right blocks. When it dies while the first operators are written, with those of some blocks there and the largest block missing, the tensors on disk are the prepared ones and a new process whose left boundary is not further in completes in the same way.",
  "every chain length from three, matrix shapes, pair of boundaries, number of finished sweeps, update during which the process dies, update rule, maximal bond dimension and number of sweeps of the second run", "A test would have to kill the process in every update and compare the next run with one that uses no files.",
  ["include/qlmps/algorithm/dmrg/dmrg_impl.h: DMRGExecutor::Execute, DMRGSweep_, LoadRelatedTensSweep_, DumpRelatedTensSweep_", "include/qlmps/algorithm/dmrg/dmrg_init.h: NeedGenerateBlockOps, InitBlockOps, UpdateBoundaryBlockOps"])
out = os.path.join(os.path.dirname(os.path.abspath(__file__)), "..", "properties.jsonl")
with open(out, "w") as f:
    for x in P: f.write(json.dumps(x) + "\n")
print(len(P))
