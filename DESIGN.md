# Formal model of libCEED: design

Source: CEED/libCEED at the pinned commit, read as text in /repo (nothing is built or run).
Prover: Rocq/Coq 8.16.1.  All files are in `rocq/theories`, logical prefix `Verif`.

## Conventions of the model

* **Outcomes.** API functions that return an error code are modelled as functions returning
  the new state together with the code (`0` success, positive nonterminal, negative terminal,
  as in include/ceed/types.h), or as `res A := Ok a | Err code | UB`.  Undefined behaviour of C
  (out-of-bounds access, use of freed memory, null dereference, division by zero, endless
  recursion where a definition says so) is a distinct outcome, never a default value.
* **Arrays** are lists with checked access; kernels are loop nests over such arrays in the
  `option` or `res` monad, `None`/`UB` meaning an out-of-bounds access.  Uninitialised scratch
  arrays hold arbitrary values (`junk`) over which the theorems quantify.
* **Scalars.** `CeedScalar` is an element of an arbitrary commutative ring (record `Rng`),
  so sums are exact.  Rounding, infinities and NaN are *not* modelled.  Statements about
  copying, indexing, locking and ownership use no ring law.  The algorithms that need division and
  square roots (QrModel.v and the files on top of it) are over the real numbers of the standard
  library, and a division by zero is `UB`.
* **Integers.** Sizes and loop indices are unbounded `nat`, offsets are `Z`.  `CeedInt` (32 bit)
  and `CeedSize` (64 bit) overflow is not modelled unless a definition says so; the 64-bit
  state counter of vectors and contexts is modelled with its wrap-around.
* **Files.** `*Model.v`: definitions only, each citing /repo file and lines.  `*Spec.v`:
  independent specifications.  `*Proofs.v`, `*Main.v` and others: lemmas.  `*Props.v` (and `VecFind.v`, `CtxField.v`,
  `BuildLen.v`, `JitLoad.v`): the property theorems, the concrete instances showing their
  hypotheses can be met, and `Print Assumptions`.
* Where the code violates the property a user would expect, the theorem `..._refuted` exhibits
  the violation on the faithful model and the positive theorem carries the exact guard.

## Trusted base

1. The Coq kernel (8.16.1).
2. What `Print Assumptions` lists.  Every theorem named in MANIFEST.json is "Closed under the
   global context", except those over the real numbers (every theorem of the files
   `Qr*.v` and of the files that import them, see C18 and the properties after C43 in MANIFEST.json), which depend on the axioms of the standard
   library's reals only:
   - `ClassicalDedekindReals.sig_forall_dec`,
   - `ClassicalDedekindReals.sig_not_dec` (not all of them),
   - `FunctionalExtensionality.functional_extensionality_dep`.

   (`C18_matmul` is closed.)  No file adds an axiom, parameter or admitted statement.
3. That the model definitions transcribe the cited C lines (reviewed by reading, not extracted).
4. The conventions above and the simplifications stated in the comments of the model files.

## What is modelled

| file | what | from |
|------|------|------|
| `AsmModel.v` | Assembly of the QFunction at the quadrature points, reference and blocked CPU backends backends/ref/ceed-ref-operator.c:478-664 and backends/blocked/ceed-blocked-operator.c:525-745, on top of the operator model (OpModel.v, whose simplifications apply here too) | backends/blocked/ceed-blocked-operator.c, backends/ref/ceed-ref-operator.c, ceed-opt-operator.c, interface/ceed-preconditioning.c |
| `AtdModel.v` | The diagonal of an operator at points backends/ref/ceed-ref-operator.c:1320-1553 CeedOperatorLinearAssembleAddDiagonalAtPoints_Ref and the interface in front of it, on top of AtpModel.v and AtqModel.v, whose simplifications apply here too | backends/ref/ceed-ref-operator.c, ceed-operator.c, interface/ceed-preconditioning.c |
| `AtpModel.v` | Operators at points on the reference CPU backend backends/ref/ceed-ref-operator.c:673-1073, behind CeedOperatorCreateAtPoints on the CPU backends (opt and blocked delegate to ref): fields live on nodes with a tensor basis, or directly on the points; every elem | backends/ref/ceed-ref-operator.c, interface/ceed-elemrestriction.c, interface/ceed-operator.c |
| `AtqModel.v` | Assembly of the QFunction of an operator at points backends/ref/ceed-ref-operator.c:1079-1314, on top of AtpModel.v, whose simplifications apply here too; those of AsmModel.v concerning the Q-vectors of the outputs and the objects the caller gets apply as well | backends/ref/ceed-ref-operator.c, interface/ceed-preconditioning.c |
| `BasisModel.v` | Basis application on the reference backend Vectors are the arrays obtained from them (locking is in VecModel.v); the contraction kernel is a parameter (ref, opt or AVX) | backends/ref/ceed-ref.h, ceed-basis.c, ceed-ref-basis.c, include/ceed-impl.h, include/ceed/types.h |
| `BuildModel.v` | Building operators: fields, readiness, active vector lengths Model of interface/ceed-operator.c for what the user sees while an operator is put together | ceed-basis.c, ceed-elemrestriction.c, include/ceed-impl.h, interface/ceed-operator.c |
| `CacheModel.v` | Cached assembled QFunctions: interface/ceed-preconditioning.c:1180-1380, 1933-1995, interface/ceed-operator.c:1484-1538, 2246-2264 Operators, CeedQFunctionAssemblyData objects and assembled vectors are numbers; operators point to assembly data, assembly data t | interface/ceed-operator.c, interface/ceed-preconditioning.c |
| `CmModel.v` | QFunction contexts on the memcheck backend: interface/ceed-qfunctioncontext.c over backends/memcheck/ceed-memcheck-qfunctioncontext.c One context, as in CtxModel | backends/memcheck/ceed-memcheck-qfunctioncontext.c, backends/memcheck/ceed-memcheck.h, include/ceed-impl.h, interface/ceed-qfunctioncontext.c |
| `CtxModel.v` | QFunction contexts: interface/ceed-qfunctioncontext.c over the reference backend A world holds one context, the heap and the pointers the client has been given | backends/ref/ceed-ref.h, ceed-ref-qfunctioncontext.c, include/ceed-impl.h, include/ceed/types.h, interface/ceed-qfunctioncontext.c |
| `DenseModel.v` | Small dense kernels of the interface: interface/ceed-basis.c:1066-1077 | interface/ceed-basis.c |
| `DiagModel.v` | Assembly of diagonals and point block diagonals: interface/ceed-preconditioning.c:218-450, 1151-1180, 1440-1560, 2007-2340 On top of the cached assembly of QFunctions (CacheModel.v) and the basis matrices of FullModel.v | ceed-basis.c, ceed-operator.c, interface/ceed-preconditioning.c |
| `FbModel.v` | Fallback operators Model of CeedOperatorCreateFallback and CeedOperatorGetFallback (interface/ceed-preconditioning.c) on top of the operators of BuildModel.v and the QFunctions of QfModel.v | ceed-operator.c, ceed-qfunction.c, interface/ceed-preconditioning.c |
| `FdmModel.v` | Fast diagonalisation element inverse: interface/ceed-preconditioning.c:1074-1095, 2737-2959 Scalars are real numbers (QrModel.v, whose simplifications apply: a division by zero is [UB]) | ceed-basis.c, ceed-vector.c, gallery/scale/ceed-scale.c, include/ceed/jit-source/gallery/ceed-scale.h, interface/ceed-preconditioning.c |
| `FlopModel.v` | Estimates of floating-point operations, and versions of the reference kernels that count them Model of CeedBasisGetFlopsEstimate, CeedElemRestrictionGetFlopsEstimate, CeedOperatorGetFlopsEstimate, and of the reference basis application with a counter | ceed-basis.c, ceed-elemrestriction.c, ceed-operator.c, ceed-ref-basis.c, ceed-ref-tensor.c |
| `FullModel.v` | Full assembly of linear operators in coordinate format: interface/ceed-preconditioning.c:456-855, 1116-1140, 1417-1730, 2354-2475 On top of QFunction assembly and its cache (AsmModel.v, CacheModel.v) | ceed-basis.c, ceed-operator.c, interface/ceed-preconditioning.c |
| `GalModel.v` | The gallery QFunctions: include/ceed/jit-source/gallery Each is a loop over the [Q] quadrature points of one call; arrays as lists, reading or writing outside is [UB], and so is division by zero (an infinity or NaN in C) | backends/ref/ceed-ref-qfunction.c, ceed-massapply.c, ceed-poisson2dapply.c, ceed-poisson2dbuild.c, ceed-vectormassapply.c, ceed-vectorpoisson2dapply.c, gallery/ceed-gallery-list.h, gallery/identity/ceed-identity.c, gallery/mass/ceed-mass2dbuild.c, gallery/scale/ceed-scale.c, interface/ceed-qfunction.c |
| `JitModel.v` | Source loading for just-in-time compilation Model of interface/ceed-jit-tools.c: path normalisation and the recursive expansion of include lines | interface/ceed-jit-tools.c |
| `JrModel.v` | JiT source roots and defines of a hierarchy of Ceed contexts; the list of registered backends Model of interface/ceed.c: CeedGetParent, CeedAdd/Get/RestoreJitSourceRoot(s), CeedAdd/Get/RestoreJitDefine(s), CeedGetOperatorFallbackCeed, the reader checks of Ceed | ceed-jit-source-root-default.c, ceed-register.c, include/ceed-impl.h, interface/ceed.c |
| `LabelModel.v` | Context labels of operators: interface/ceed-operator.c:345-533 and 1834-1960 One composite operator, any number of non-composite operators (its sub-operators and others) and any number of QFunction contexts | ceed-qfunction.c, include/ceed-impl.h, include/ceed/backend.h, interface/ceed-operator.c |
| `LagModel.v` | Quadrature rules and the Lagrange basis: interface/ceed-basis.c:1515-1573, 2388-2494 CeedScalar is a real number of the standard library (exact arithmetic) | interface/ceed-basis.c, interface/ceed.c |
| `McModel.v` | Vectors on the memcheck backend: interface/ceed-vector.c over backends/memcheck/ceed-memcheck-vector.c A vector keeps its data in a private buffer; arrays handed in by the client are copied into it, and access is granted to fresh copies of it | backends/memcheck/ceed-memcheck-vector.c, backends/memcheck/ceed-memcheck.h, include/ceed-impl.h, interface/ceed-vector.c |
| `MgModel.v` | Multigrid level: interface/ceed-preconditioning.c:868-1055 CeedSingleOperatorMultigridLevel | ceed-blocked-operator.c, ceed-elemrestriction.c, ceed-vector.c, include/ceed/jit-source/gallery/ceed-scale.h, interface/ceed-preconditioning.c |
| `MlModel.v` | Multigrid levels: outcomes of the creation calls and the references they keep Model of interface/ceed-preconditioning.c:868-1055 CeedSingleOperatorMultigridLevel and of its three entry points (2568-2586 CeedOperatorMultigridLevelCreate, 2606-2652 CeedOperatorM | ceed-basis.c, interface/ceed-preconditioning.c |
| `MqModel.v` | CeedQFunctionApply on the ref and on the memcheck backend interface/ceed-qfunction.c, backends/ref/ceed-ref-qfunction.c and backends/memcheck/ceed-memcheck-qfunction.c over the vectors of VecModel (ref) and McModel (memcheck) | backends/memcheck/ceed-memcheck-qfunction.c, backends/ref/ceed-ref-qfunction.c, backends/ref/ceed-ref-qfunctioncontext.c, ceed-memcheck-qfunctioncontext.c, ceed-qfunctioncontext.c, include/ceed/backend.h, interface/ceed-qfunction.c |
| `MrModel.v` | Model of element restrictions on the memcheck backend, and of the layout and at-points queries backends/memcheck/ceed-memcheck-restriction.c is a copy of the ref file; compared line by line it differs in the strided kernels (46-70, 192-216: the strides behind  | backends/memcheck/ceed-memcheck-restriction.c, ceed-memcheck-vector.c, ceed-ref-restriction.c, interface/ceed-elemrestriction.c |
| `MultModel.v` | Multiplicity of nodes across sub-operators: interface/ceed-preconditioning.c:2491-2550 The scalars are integers here: every value computed by this function is a count. | interface/ceed-operator.c, interface/ceed-preconditioning.c |
| `OpModel.v` | Operators: setup, apply and composite apply on the reference and blocked CPU backends The two backends (backends/ref/ceed-ref-operator.c, backends/blocked/ceed-blocked-operator.c) are the same code with block size 1 and 8; the model has the block size as param | backends/blocked/ceed-blocked-operator.c, backends/ref/ceed-ref-operator.c, backends/ref/ceed-ref.h, ceed-ref-qfunction.c, ceed-vector.c, include/ceed-impl.h, include/ceed/backend.h, interface/ceed-operator.c, interface/ceed-qfunction.c |
| `OptAsmModel.v` | QFunction assembly on the optimised CPU backends backends/opt/ceed-opt-operator.c, CeedOperatorLinearAssembleQFunction_Opt and ..Update_Opt | backends/opt/ceed-opt-operator.c, interface/ceed-preconditioning.c |
| `OptModel.v` | Operators on the optimised CPU backends backends/opt/ceed-opt-operator.c, the driver behind /cpu/self/opt/serial (block size 1), /cpu/self/opt/blocked (block size 8) and the AVX and XSMM resources, hence the default CPU backend | backends/opt/ceed-opt-operator.c, interface/ceed-operator.c |
| `PointsModel.v` | Evaluation of a tensor basis at arbitrary points (default implementation) | ceed-basis.c |
| `ProjModel.v` | Projection between bases: interface/ceed-basis.c:196-295, 1780-1822 | ceed-ref-basis.c, interface/ceed-basis.c |
| `QcModel.v` | Access to context data through QFunctions and by the client Model of interface/ceed-qfunction.c:332-336 CeedQFunctionGetContext, 350-367 CeedQFunctionGetContextData, 379-394 CeedQFunctionRestoreContextData, 407-422 CeedQFunctionGetInnerContext, 436-452 CeedQFu | interface/ceed-qfunction.c, interface/ceed-qfunctioncontext.c |
| `QfModel.v` | QFunction objects: fields, source strings, lookup by name Model of interface/ceed-qfunction.c (creation, fields, source path, gallery), interface/ceed-preconditioning.c:37-98 (fallback copy), the parts of interface/ceed-jit-tools.c that find source files, and  | include/ceed-impl.h, include/ceed/backend.h, interface/ceed-jit-tools.c, interface/ceed-preconditioning.c, interface/ceed-qfunction.c, interface/ceed.c |
| `QrModel.v` | Householder QR and pseudoinverse: interface/ceed-basis.c:99-111, 703-765, 1091-1215 CeedScalar is a real number of the standard library (exact arithmetic) | interface/ceed-basis.c |
| `QueModel.v` | Queries on operators and the references that operators hold Model of the query functions of interface/ceed-operator.c and of CeedOperatorDestroy, on top of the operators of BuildModel.v | ceed-basis.c, ceed-elemrestriction.c, ceed-vector.c, interface/ceed-operator.c |
| `RaModel.v` | The arrays of an element restriction: who frees them, and when they may be read Model of the creation functions of interface/ceed-elemrestriction.c on the ref backend with respect to the memory that they are given and allocate, of the unsigned and unoriented c | backends/ref/ceed-ref-restriction.c, backends/ref/ceed-ref.h, include/ceed-impl.h, interface/ceed-elemrestriction.c |
| `RefModel.v` | Reference counts and lifetimes of libCEED objects Model of the Create, ReferenceCopy, Set.../Add.. | backends/memcheck/ceed-memcheck-serial.c, backends/opt/ceed-opt-blocked.c, backends/ref/ceed-ref-basis.c, backends/ref/ceed-ref.c, ceed-basis.c, ceed-elemrestriction.c, ceed-operator.c, ceed-qfunction.c, ceed-qfunctioncontext.c, ceed-tensor.c, ceed-vector.c, include/ceed-impl.h |
| `RstrModel.v` | Element restrictions of the reference CPU backend Model of interface/ceed-elemrestriction.c (creation, apply) and backends/ref/ceed-ref-restriction.c (kernels) | backends/ref/ceed-ref-restriction.c, backends/ref/ceed-ref.h, include/ceed-impl.h, include/ceed/types.h, interface/ceed-elemrestriction.c |
| `SchurModel.v` | Symmetric Schur decomposition and simultaneous diagonalization: interface/ceed-basis.c:132-150, 1219-1352, 1373-1440 CeedScalar is a real number (exact arithmetic) as in QrModel.v, whose conventions apply: division by zero is [UB] (NaN or infinity in C), zero  | interface/ceed-basis.c |
| `StrModel.v` | C strings This file models the few functions of <string.h> that the interface uses |  |
| `TensorModel.v` | Tensor contraction kernels: ref, opt, AVX Pointer arithmetic [p + k] on read-only arrays is [skipn k p]; on the output array it is [at_off k] | ceed-avx-tensor.c, ceed-opt-tensor.c, ceed-ref-tensor.c, interface/ceed-tensor.c |
| `VecModel.v` | Vectors: interface/ceed-vector.c over the reference backend A world holds the vectors, the heap and the array pointers the client has been given | backends/ref/ceed-ref.h, ceed-ref-vector.c, include/ceed-impl.h, include/ceed/backend.h, include/ceed/types.h, interface/ceed-vector.c |
| `WorkModel.v` | Work vectors and delegates of a Ceed context Model of interface/ceed.c: the pool of work vectors with the reference count of its context, and the lookup of delegates | ceed-vector.c, include/ceed-impl.h, interface/ceed.c |

Not modelled: GPU and third-party backends (cuda, hip, sycl, magma, occa, libxsmm), Fortran,
Julia, Python and Rust interfaces, printing/view functions, floating-point rounding, allocation
failure, threads.  Within the modelled files: the memcheck backend but for its vectors, QFunction contexts, QFunctions and restrictions, the sve backend (in operators QFunctions are
arbitrary pointwise functions), timing/FLOP estimates.

## Method per property

| id | modelled | proof method |
|----|----------|--------------|
| C01-C05 | interface/ceed-vector.c access calls over backends/ref/ceed-ref-vector.c, with a heap of arrays and user steps | invariant by induction on histories; refinement to an abstract reader/writer automaton (VecSpec.v) |
| C06 | elementwise vector routines (host fallbacks) as loops over arrays | loop invariants |
| C07 | graph of reference-counted objects: create, ReferenceCopy, attach, Destroy (recursive) | counting invariant by induction on histories |
| C08-C12 | ceed-ref-restriction.c kernels in both modes, Permute/Pad, checks of Create/Apply/ApplyBlock, GetMultiplicity | loops reduced to scatter lists; sparse-matrix adjoint lemma |
| C13 | ref, opt and AVX contraction kernels | scatter lists; 4-lane tile invariant |
| C14-C17 | ceed-ref-basis.c ApplyCore, GetInterp/GetGrad, checks | induction on the dimension |
| C18 | MatrixMatrixMultiply, Householder/QR/pseudoinverse over the reals | loop invariants (array = reflectors and R), Householder algebra, triangular systems, root counting for the Chebyshev matrix |
| C19, C43 | Chebyshev recurrences, evaluation at points | induction, polynomials as coefficient lists |
| C20-C22 | QFunction field lists, strings, registries | list and string induction |
| C23 | QFunctionContext with byte-level data and ref backend | refinement to CtxSpec.v, invariant over histories |
| C24-C25 | work vectors, delegates of ceed.c | invariant over histories |
| C26-C27, C40 | SetField/CheckReady, active lengths | invariant over histories, counterexamples |
| C28-C32 | Apply/ApplyAdd front end, ref and blocked operator | refinement to the element formula of OpSpec.v |
| C33-C34 | QFunction assembly and its cache | the assembled array is the matrix of the linear QFunction; invariant over histories of any number of operators |
| C35-C36 | COO assembly, diagonals, point blocks | finite sums; matrix times vector equals the element formula of C28 |
| C37 | multiplicity across sub-operators | loop invariants over integers |
| C38 | multigrid level | adjoint lemmas of C09/C15 |
| C39 | labels | invariants over histories |
| C45, C46 | Fornberg's recurrence, Gauss and Lobatto iterations over the reals | polynomial exactness as loop invariant (synthetic division); Legendre identities, odd symmetry of the iterations |
| C47 | projection matrices by pseudoinverse over the reals | least squares from the normal equations; Kronecker product of products; composition of two applications (C14) |
| C48 | gallery QFunctions over the reals | pointwise writes by loop invariant; cofactors = determinant times any inverse; bilinear form |
| C49 | operators at points | loop invariants over fields, elements and outputs refining a sum over elements, points and nodes; histories against fresh operators |
| C50 | QFunction assembly at points | loop invariants with a moving output position; invariant over histories (which Q-vectors are clean); linear algebra at a point |
| C51 | diagonal of operators at points | loop invariants over fields, unit vectors and elements; expansion in unit vectors; reordering of finite sums; histories |
| C52 | symmetric Schur decomposition | similarity invariant over the reflections and rotations; sum of squares outside the band, with its bulge, as a measure over the sweeps; exact argument for 2 by 2 |
| C53 | simultaneous diagonalization | bubble sort invariant (columns move with their value), congruence by G D^(-1/2), Rayleigh quotients bound the scaling, Frobenius norm kept by Q |
| C54 | FDM element inverse | loops to Gram matrices and averages, Kronecker products of inverse pairs, Cauchy-Schwarz for the forms, Rayleigh quotients against clipping, application through C28 |
| C55 | QFunction assembly on the opt backend | invariant over the blocks (one block of C33 at a time), sum of block scatters is the transposed strided restriction; histories as in C33 |
| C56 | Memcheck vectors against ref vectors | refinement: simulation relation between the abstract machine of C01-C06 and the memcheck world (private buffers, lent arrays stale or up to date), one lemma per call, induction over histories |
| C57 | Memcheck contexts against ref contexts | refinement: simulation relation between the abstract machine of C23 and the memcheck context (private buffer, copies), one lemma per call, induction over histories |
| C58 | CeedQFunctionApply on ref and memcheck | refinement: one specification, a generic simulation for any backend whose vectors and contexts behave, instantiated twice (relations of C02 and C56), induction over the user's program and over histories; the certificate by tracking the write log through the call |
| C59 | restrictions on memcheck | the memcheck kernels are shown equal to ref's on the description with the strides written out and an invalidated output array; C08-C12 instantiated; injectivity of both L-layouts for the transposes; a correspondence of L-vectors through the layouts |
| C60 | at-points queries | loop invariants over the element ranges, on top of the at-points part of C08 |
| C61 | JiT lists of a hierarchy of contexts | invariant over an inductive set of histories with an event log; second invariant with the arrays still held; top-most context as a relation, recursion depth bounded by a pigeonhole on the parent chain |
| C62 | list of registered backends | exact characterisation of the undefined case, induction on the table |
| C63 | estimates of floating-point operations | counting kernels that erase to the reference application; induction over the sweeps, closed forms of the counts; induction over fields and sub-operators |
| C64 | fallback operators | invariant of the re-set fields against the invariant of the building history (C26), induction over the fields and the sub-operators |
| C65 | queries on operators | induction over the fields and over the building history (origin of each slot, counting of the set fields) |
| C66 | references held by operators | balance invariant over all histories (counts = initial + held + overwritten) |
| C67 | arrays of element restrictions | invariant over all client histories (frees + owners = 1 per array, count = handles + copies, readers = pointers held) |
| C68 | references and operators of multigrid levels | symbolic execution of the cloning loops by induction over the fields, on top of the reference counts of C65/C66 |
| C69 | context data through QFunctions | invariant over all client histories (count = handles + users + lost, lock and readers = accesses held) |
| C44 | opt operator (block-by-block restrictions) | block-wise simulation of the blocked driver, then the proof of C28; refinement over histories |
| C41-C42 | JiT include expansion and path normalisation | induction on include graphs / strings |

## Findings

Each row is a theorem about the faithful model that contradicts what a user would expect.  They come from reading the code;
none was confirmed by running it.

| id | theorem | what happens |
|----|---------|--------------|
| C03 | `C03_zero_length_leak_refuted` | an array handed to a vector of length 0 with CEED_OWN_POINTER is neither taken over nor freed (ceed-vector.c:212) |
| C04 | `C04_take_refuted` | two equal even states with different contents: TakeArray in between (ceed-vector.c:381-413) |
| C04 | `C04_shared_write_refuted` | or with the client writing its own array, shared by CEED_USE_POINTER |
| C05 | `C05_destroy_refuted` | ceed-vector.c:922-935: destroying the last handle of a vector in use is refused, after the reference count was decremented |
| C05 | `C05_destroy_negative_refuted` | the release of the lock then leaves a vector whose next Destroy drives the count to -1 |
| C05 | `C05_axpy_refuted` | AXPY (ceed-vector.c:752-765), AXPBY, PointwiseMult, Copy, CopyStrided: the failing second access leaves the first one outstanding |
| C05 | `C05_axpby_refuted` | the same for AXPBY |
| C05 | `C05_mult_refuted` | the same for PointwiseMult |
| C05 | `C05_copy_strided_refuted` | the same for CopyStrided |
| C05 | `C05_copy_self_refuted` | copying a vector onto itself (ceed-vector.c:248-292, 306-352) fails and leaves an access outstanding: every later write access is refused |
| C05 | `C05_copy_strided_self_refuted` | the same for CopyStrided onto itself |
| C05 | `C05_mult_contents_refuted` | a refused PointwiseMult into a vector without values (ceed-vector.c:841-842) makes that vector valid, full of zeros |
| C05 | `C05_device_write_refuted` | GetArrayWrite for device memory fails with CEED_ERROR_BACKEND, having allocated and zeroed the empty vector and advanced its state (ceed-ref-vector.c:138-153) |
| C06 | `C06_strided_refuted` | SetValueStrided with a negative start or a step that is not positive, CopyStrided with a step that is not positive (ceed-vector.c:494-530, 306-352): accesses out of bounds or never ends |
| C07 | `C07_parent_refuted` | delegate->parent is not counted: the context of two vectors may be destroyed before CeedVectorAXPY asks for the parent |
| C07 | `C07_parent_basis_refuted` | the same at the next creation of a basis through the delegate |
| C07 | `C07_copy_of_copy_refuted` | a copy of a copy of a restriction: Destroy of all variables touches a freed object |
| C07 | `C07_fields_refuted` | an operator that accepted 17 fields (9 inputs and 8 outputs) cannot be destroyed |
| C07 | `C07_incomplete_refuted` | an operator destroyed while some of its fields are not set: the vector of its only field is never freed |
| C07 | `C07_twice_refuted` | the same field set twice: the first vector is never freed |
| C07 | `C07_contract_refuted` | a tensor contraction object starts with count 0: the destruction of a copy frees it under the first variable |
| C08 | `C08_layout_blocked_refuted` | blocked restrictions report the unblocked layout. |
| C08 | `C08_unsigned_block_refuted` | the unsigned copy still applies the signs when applied block by block. |
| C10 | `C10_curl_one_node_refuted` | a curl-oriented restriction with one node per element |
| C10 | `C10_block_index_refuted` | the block index check admits the block one past the end |
| C10 | `C10_blocked_check_refuted` | the range check of a blocked restriction misses entries of the padded last block |
| C10 | `C10_strides_refuted` | strides of a strided restriction are not checked against the L-vector size |
| C10 | `C10_unchecked_backend_refuted` | backends other than ref do not check at all |
| C10 | `C10_points_refuted` | point indices of at-points restrictions are never checked |
| C10 | `C10_points_empty_refuted` | creating an at-points restriction without elements reads before the array |
| C10 | `C10_zero_block_refuted` | a zero block size is divided by before it is rejected |
| C12 | `C12_curl_refuted` | on a curl-oriented restriction the result is not a count. |
| C13 | `C13_avx_bounds_refuted` | with one output row and one column (e.g. one quadrature point per direction) the AVX code reads and writes past the end of an exactly sized output. |
| C13 | `C13_strided_overwrite_refuted` | transposed and not adding, every slot overwrites the previous one, so the documented [v_ajc = t_dbj u_dabc] (summed over d) is not what is computed when D > 1. |
| C16 | `C16_add_interp_refuted` | a collocated basis ignores the previous contents in ApplyAdd. |
| C16 | `C16_add_grad_refuted` | the same for the gradient |
| C17 | `C17_missing_refuted` | a mode the space does not have (here the gradient on H(div)) passes the check and dereferences the missing matrix. |
| C17 | `C17_weight_empty_refuted` | weights with zero elements in two or more dimensions read one entry of a possibly empty vector. |
| C17 | `C17_points_or_refuted` | the check joins its two conditions with "or", so one short vector is accepted ... |
| C17 | `C17_points_components_refuted` | the check at points ignores the number of components |
| C18 | `C18_zero_refuted` | a matrix of rank zero, a very ordinary argument for a factorization, gives NaN |
| C19 | `C19_one_node_refuted` | with one node both routines write a second entry. |
| C20 | `C20_seventeenth_refuted` | the seventeenth field passes every check and is written past the array. |
| C21 | `C21_fallback_refuted` | a fallback copy after only the source path was queried takes the length of a NULL kernel name. |
| C21 | `C21_root_refuted` | a JiT root directory given without a trailing slash is searched in its parent: the file is not found though it exists below the root. |
| C22 | `C22_help_refuted` | CeedInit("help") reads past the end of the string. |
| C22 | `C22_register_refuted` | the thirty-third registration reports success and is lost. |
| C22 | `C22_tie_refuted` | ties in priority are resolved by registration order. |
| C22 | `C22_shadow_refuted` | a registered name is not found if a longer name that starts with it was registered before. |
| C23 | `C23_set_with_reader_refuted` | New data is accepted while a reader is outstanding; what the reader was given is freed. |
| C23 | `C23_destroy_with_reader_refuted` | Destroy is granted while a reader is outstanding; its memory is freed |
| C23 | `C23_copy_self_refuted` | Copying values from the context's own data reads freed memory. |
| C23 | `C23_dtor_first_refuted` | with a destroy function set before the first data no data can ever be set |
| C23 | `C23_dtor_fails_refuted` | A destroy function that fails leaves the context locked: no reader is admitted, and it cannot be destroyed until a RestoreData that no GetData of the client belongs to. |
| C23 | `C23_size_refuted` | A refused SetData still changes the size of the context. |
| C23 | `C23_range_refuted` | A field may be registered beyond the end of the data; setting it leaves the block. |
| C24 | `C24_delegate_refuted` | a context whose vectors are made by its delegate loses one of its own references for every work vector created. After one request and restore, a second handle made and destroyed frees the context under the first handle. |
| C24 | `C24_restore_first_refuted` | restoring before any request reads through a null pointer |
| C24 | `C24_growing_refuted` | the bound fails over all lengths together: requests of growing length, one at a time, keep a vector each |
| C25 | `C25_second_refuted` | registering a second object delegate reads an uninitialised pointer |
| C25 | `C25_lookup_refuted` | were it stored, the lookup would not find it |
| C26 | `C26_twice_refuted` | Setting a field twice counts twice: an operator with an unset field is reported ready. |
| C26 | `C26_wiped_refuted` | A rejected second call wipes the field, and the operator is still reported ready: one of its fields has no restriction, basis or vector. |
| C27 | `C27_set_refuted` | fields can still be replaced after the operator was found ready. |
| C27 | `C27_add_refuted` | a composite that was found ready still accepts sub-operators. |
| C28 | `C28_identity_passive_refuted` | an identity QFunction between fields without basis uses the active arguments even if the fields refer to passive vectors |
| C28 | `C28_nodes_refuted` | a restriction whose element size differs from the number of basis nodes is accepted; the application reads out of bounds |
| C29 | `C29_nested_refuted` | a composite operator inside a composite operator can be applied with ApplyAdd but not with Apply. |
| C30 | `C30_taken_refuted` | while the array of a passive input is taken, an operator that was applied before still computes, from the old contents; a new operator reports the missing array. |
| C31 | `C31_inputs_none_refuted` | two inputs without basis sharing vector and restriction: null dereference |
| C31 | `C31_inputs_weight_refuted` | two quadrature weight inputs: null dereference |
| C31 | `C31_outputs_none_refuted` | two outputs without basis sharing a vector: null dereference |
| C31 | `C31_outputs_lost_refuted` | two outputs without basis sharing with a third one that has a basis: a contribution is lost |
| C31 | `C31_outputs_collocated_refuted` | sharing outputs with collocated bases: a contribution is lost |
| C33 | `C33_stale_refuted` | an assembly after an apply on an operator assembled before starts from the input values of that apply |
| C33 | `C33_shared_refuted` |  |
| C33 | `C33_empty_refuted` | no elements: the blocked backend fails, the reference backend does not |
| C34 | `C34_strip_refuted` | AssemblyDataStrip of a nested composite does not reach operators two levels down |
| C35 | `C35_two_grad_refuted` | two active inputs with the same multi-component mode: the basis matrix is read past its end |
| C36 | `C36_curl_refuted` | Tridiagonal transformations: the element diagonals are transformed with absolute values, as if they were vectors. |
| C36 | `C36_repeated_refuted` | An element with two nodes at the same place of the L-vector: the entries between the two nodes are left out. |
| C36 | `C36_bases_refuted` | Input and output fields with different basis objects (here with the same matrices): nothing is assembled; with two bases for both the terms between the bases are left out. |
| C36 | `C36_none_refuted` | active fields without basis: nothing is assembled |
| C36 | `C36_empty_refuted` | An operator without elements: the vector is not set to zero although the matrix is zero. |
| C36 | `C36_block_layout_refuted` | Point blocks with components at a stride that is neither 1 nor the number of nodes: the places of the blocks can be outside of the vector; the restriction of the blocks is not created. Strided active restrictions: the offsets are read through a null pointer. |
| C36 | `C36_block_pairs_refuted` | A node of the L-vector that belongs to no element: its rows and columns are the pair (0, 0), several times. |
| C37 | `C37_skip_refuted` | Skipping sub-operator 1 should leave one sub-operator for node 0, but the result is 2. |
| C38 | `C38_blocked_sign_refuted` | blocked backend: the unsigned copy of an oriented restriction is signed again; the prolongation has wrong signs |
| C39 | `C39_conflict_refuted` | Sub-operators with the field in different types: the label is freed and then used. |
| C39 | `C39_nested_refuted` | A composite sub-operator: its QFunction is NULL and is dereferenced. |
| C39 | `C39_added_refuted` | After another sub-operator is added the old label is refused, and asking again returns that label: the field cannot be set any more. |
| C39 | `C39_late_refuted` | A field registered after the label was made is not reached, although the set call succeeds. |
| C39 | `C39_halfway_refuted` | A set call that fails leaves the first context changed and takes a reference on the failing context that is never dropped. |
| C39 | `C39_replaced_refuted` | After CeedQFunctionSetContext the label writes into the new context at the place of the old one: another field is overwritten and "f" is not set. |
| C39 | `C39_shared_refuted` | Two operators with one context: a label taken from the context works on operator 1 until operator 0 asks for it; then it is refused. |
| C40 | `C40_stale_refuted` | The first query of a composite reports -1 although its sub-operators know the sizes. |
| C40 | `C40_late_refuted` | A sub-operator that learns its sizes after it was added is not checked: a composite is reported ready although its sub-operators conflict. |
| C40 | `C40_empty_refuted` | Checking an empty composite for readiness fixes its sizes to zero; nothing can be added afterwards. |
| C40 | `C40_rejected_refuted` | A rejected sub-operator can fix the size of the composite: input rejected, output size taken over. |
| C41 | `C41_cycle_refuted` | two headers that include each other are expanded for ever although both say "#pragma once" |
| C41 | `C41_cut_refuted` | a character that stands right before a directive on its line is lost (here the end of a comment) |
| C41 | `C41_last_line_refuted` | a directive on the last line of a file without final newline makes the scan compute with a null pointer |
| C41 | `C41_empty_refuted` | an empty header cannot be included |
| C42 | `C42_top_refuted` | ".." with one directory above it is rejected although the path is meaningful. |
| C42 | `C42_root_refuted` | ".." directly below the root makes the walk back start before the string. |
| C42 | `C42_double_slash_refuted` | with an empty component before ".." the result names another file. |
| C43 | `C43_no_points_refuted` | with zero points the transpose returns the image of whatever the previous call left. |
| C44 | `C44_in_place_refuted` | ApplyAdd with the same vector as active input and active output adds the right values on the reference and blocked backends (C28), which restrict the input once; the optimised backends restrict block by block and read entries of earlier blocks that they have already changed. CeedOperatorApplyAdd accepts the call. |
| C44 | `C44_longer_refuted` |  |
| C44 | `C44_outputs_none_refuted` | of two active outputs without basis and with the same restriction one contribution is lost, without an error (on the reference backend the operator crashes, C31). |
| C45 | `C45_silent_refuted` | for one node (or one Gauss-Lobatto point) the error of CeedLobattoQuadrature is dropped: success is returned, but there is no basis |
| C46 | `C46_zero_refuted` | the number of Gauss points is not checked; with none, the memory before and at the (empty) arrays is written |
| C46 | `C46_newton_refuted` | the derivative in the Lobatto iteration carries the factor Q instead of Q - 1, so the step is not Newton's |
| C47 | `C47_overread_refuted` |  |
| C47 | `C47_dims_refuted` |  |
| C48 | `C48_scale_context_refuted` | gallery/scale/ceed-scale.c sets no context, while Scale reads the field size through the context pointer: created by name and used without a context of the caller's own, every call dereferences NULL (Identity gets a context with size 1) |
| C49 | `C49_inputs_none_refuted` | of two active CEED_EVAL_NONE inputs with the same restriction the second reads zeros: its Q-vector is the E-vector created for it, while the restriction fills that of the first (ceed-ref-operator.c:735-737, 789-791, 911). |
| C49 | `C49_outputs_none_refuted` | of two CEED_EVAL_NONE outputs with the same vector and restriction one contribution is lost. |
| C49 | `C49_identity_refuted` | an identity QFunction with a basis on its output: the E-vector of the output is replaced by the Q-vector of the input (ceed-ref-operator.c:876-879), which in general has another length; the application fails. |
| C49 | `C49_no_points_refuted` | in an element without points the transposed basis action uses the Chebyshev coefficients left by the element before (CeedBasisApplyAtPoints with num_points 0 does not reset vec_chebyshev, C43): its nodes receive a contribution although nothing is there. |
| C49 | `C49_nodes_none_refuted` | a passive CEED_EVAL_NONE input with a restriction on nodes is accepted (CeedOperatorSetField, ceed-operator.c:922-945) but read at the offset of the points: the point of the second element gets the value of the third node of the first. |
| C50 | `C50_weight_refuted` | the first assembly sets the Q-vector of the input to zero that has the number of an active output (ceed-ref-operator.c:1167, q_vecs_in for q_vecs_out). If that input is the quadrature weight, which is computed once at setup, the assembled matrix is wrong, and all later applications are. |
| C50 | `C50_data_refuted` | the same with a passive CEED_EVAL_NONE input and an application before the first assembly: the Q-vector then borrows the array of the E-vector, the zeros end up in the data of the last element, and the assembled matrix is zero there. The E-vector counts as up to date: applications go on reading the zeros. |
| C50 | `C50_stale_refuted` | active inputs are not set to zero before an assembly. With more than one active component, an assembly after an application adds the values left by the application to those of the unit inputs: here assembly, application, assembly; the last one is wrong, one more is right. |
| C50 | `C50_outputs_refuted` | an active output whose number is not the number of an input: q_vecs_in[i] is NULL. |
| C50 | `C50_restriction_refuted` | the restriction returned with the array does not describe it: applied to the array it does not give, for an element, the values at its points (component by component), as CeedElemRestrictionApplyAtPointsInElement does for data at points. |
| C51 | `C51_passive_refuted` | assembling the diagonal runs the outputs of the operator with the unit inputs; what they give for passive outputs is added to these vectors (ceed-ref-operator.c:1453-1455; only the active output is redirected), so the caller's passive output data are destroyed. |
| C51 | `C51_coupling_refuted` | an output belongs to an input if the numbers of values on the element are equal (ceed-ref-operator.c:1470-1490); for two active fields with different restrictions of the same size (a mixed operator) couplings between the fields appear on the diagonal. Here the operator is v = 3 w, its diagonal zero. |
| C51 | `C51_orientation_refuted` | the unit vectors are set on the element, where the signs of an oriented restriction have been applied; the result goes through the restriction once more. The diagonal entries of flipped nodes have the wrong sign. |
| C51 | `C51_repeated_refuted` | if two nodes of an element are the same, the couplings between them are missing from the diagonal (as in C36). |
| C52 | `C52_diagonal_refuted` | a diagonal matrix, for which Q is the identity, is not decomposed if n > 2: the first column has zeros below the diagonal and the scaling of the reflector is 0 / 0 (ceed-basis.c:1251), so in floating point mat and lambda are NaN; CeedQRFactorization has the same division. |
| C52 | `C52_converge_refuted` | an entry next to the diagonal which has exactly the absolute value of the tolerance is neither small (\|x\| < tol, 1292) nor rotated away (\|z\| > tol, 1310): the iteration makes no progress and the error "Symmetric QR failed to converge" is raised. |
| C53 | `C53_lumped_refuted` | B diagonal and positive, the mass matrix of a collocated (lumped) discretization or the identity, gives NaN for all A if n > 2 (see C52). |
| C53 | `C53_ascending_refuted` | the documentation calls the function equivalent to the LAPACK routine sygv, which returns the values in ascending order; the values are sorted by absolute value. |
| C54 | `C54_average_refuted` | the average of an element whose assembled values have both signs can be zero, and all its data become infinite (2891). Here the mass operator with a coefficient that changes sign between the two quadrature points; the entries off the diagonal of a skew-symmetric (convection) coefficient also cancel. |
| C54 | `C54_modes_refuted` | the loop over the assembled components (2848) takes the active outputs to have the modes of the active inputs. An operator with the value and the gradient as inputs and the value as output (convection) has two components per point, and the call reads four: past the end of the array. |
| C54 | `C54_collocated_refuted` | with a collocated basis of at least three nodes the mass matrix in one dimension is diagonal, and its tridiagonalization computes 0 / 0 (C52): the call never succeeds. |
| C55 | `C55_stale_refuted` |  |
| C55 | `C55_shared_refuted` | two active inputs without basis on the same restriction always share their q_vecs on the optimised backends, so already the first assembly is wrong; on the reference backend the first one, before any application, is right. |
| C56 | `C56_scale_lost_refuted` | with a backend function CeedVectorScale (and AXPY, AXPBY, PointwiseMult, Reciprocal) does not check the access lock (ceed-vector.c:698-722): on the memcheck backend scaling a vector during write access reports success and the result is lost when the access is returned; on the ref backend the call is refused. |
| C56 | `C56_scale_accused_refuted` | scaling during read access succeeds as well, and then the client who only read is told by CeedVectorRestoreArrayRead that the array was changed (ceed-memcheck-vector.c:291-293). |
| C56 | `C56_state_refuted` | with a backend function the vector's state does not advance, so that CeedVectorGetState cannot tell that the contents changed and everything cached by state (evaluated passive inputs of operators) is stale. |
| C56 | `C56_recip_refuted` | CeedVectorPointwiseMult into a fresh vector leaves its state 0, so that CeedVectorReciprocal refuses the vector although it has values (ceed-vector.c:966-969); on the ref backend both succeed. |
| C56 | `C56_violation_sticks_refuted` | when CeedVectorRestoreArrayRead reports a write through a pointer granted for reading, the backend keeps the written copy (ceed-memcheck-vector.c:291-297 returns before the copy is freed): after CeedVectorSetValue every later reader gets that copy, not the vector's values, and every later CeedVectorRestoreArrayRead fails, the client having done nothing wrong since. |
| C56 | `C56_lent_write_refuted` | values the client writes to an array lent with CEED_USE_POINTER do not reach the vector (it works on a copy made by CeedVectorSetArray, ceed-memcheck-vector.c:45-97); on the ref backend they do, as the documentation of CEED_USE_POINTER says. |
| C56 | `C56_lent_destroy_refuted` | values set with CeedVectorSetValue, Scale, AXPY or PointwiseMult do not reach an array lent with CEED_USE_POINTER when the vector is destroyed (CeedVectorDestroy_Memcheck, ceed-memcheck-vector.c:384-402, does not copy them back) or given another array; on the ref backend they are there. |
| C56 | `C56_no_data_refuted` | CeedVectorSyncArray and CeedVectorSetValueStrided on a vector without data succeed on the memcheck backend and fail on the ref backend. |
| C57 | `C57_take_while_read_refuted` | CeedQFunctionContextTakeData does not ask for readers (ceed-qfunctioncontext.c:649-669). On the memcheck backend it frees the private buffer, and returning the read access then compares with a NULL pointer (ceed-memcheck-qfunctioncontext.c:216); on the ref backend the same calls succeed. |
| C57 | `C57_set_while_read_refuted` | CeedQFunctionContextSetData does not ask for readers either. On the memcheck backend everyone who reads before the old access is returned gets the old data, and the last return fails although nobody wrote; with larger new data it compares past the end of the old copy. |
| C57 | `C57_failed_set_refuted` | a CeedQFunctionContextSetData that is refused (data in device memory) has already freed the old data on the memcheck backend (ceed-qfunctioncontext.c:628-630); on the ref backend the old data are still there. |
| C57 | `C57_null_refuted` | CEED_USE_POINTER or CEED_OWN_POINTER with NULL empties the context on the ref backend; the memcheck backend copies from the NULL pointer (ceed-memcheck-qfunctioncontext.c:87). |
| C57 | `C57_dtor_null_refuted` | the client's destroy function (CeedQFunctionContextSetDataDestroy) gets the lent or owned pointer, never the context's data: after CEED_COPY_VALUES it gets NULL on the memcheck backend (ceed-memcheck-qfunctioncontext.c:243-245) and the data on the ref backend. |
| C57 | `C57_dtor_while_read_refuted` | the destroy function runs although a reader holds the data: the memcheck backend asks for no access (ceed-memcheck-qfunctioncontext.c:230-262) where the ref backend refuses. |
| C57 | `C57_dtor_first_refuted` | a client who registers the destroy function before the first data cannot set data at all on the ref backend, nor destroy the context (CeedQFunctionContextDestroyData asks for access to data that are not there, ceed-qfunctioncontext.c:111-131); on the memcheck backend the function is called with NULL and the call succeeds. |
| C57 | `C57_violation_sticks_refuted` | when CeedQFunctionContextRestoreDataRead reports a write, the written copy is kept (ceed-memcheck-qfunctioncontext.c:218 returns before it is freed): later readers get it instead of the data, even of new data, and every later return fails. |
| C57 | `C57_dtor_fails_refuted` | CeedQFunctionContextSetData reports a failing destroy function; the ref backend leaves the context locked for ever (ceed-qfunctioncontext.c:122-128), the memcheck backend does not. |
| C58 | `C58_nan_result_refuted` | a function whose result is legitimately a NaN succeeds on ref; on memcheck the call fails, the output and the context are never given back (so that every later use of them fails), only the inputs are. |
| C58 | `C58_error_keeps_access_refuted` | when the user's function returns an error, CeedQFunctionApply returns on both backends without giving back anything: inputs, outputs and a writable context stay locked for good. |
| C58 | `C58_source_missing_refuted` | memcheck looks for the source file of the QFunction only to print it in a message, but when the file is not there CeedQFunctionApply fails after the function has run, and the output stays locked; ref never looks. |
| C58 | `C58_tail_lost_refuted` | an output vector longer than [size * Q] keeps its further entries on ref; on memcheck they become NAN, and the call succeeds. |
| C58 | `C58_read_output_refuted` | a function that adds to its output works on ref and sees NAN on memcheck; if it then writes a number computed otherwise the difference goes unnoticed. |
| C58 | `C58_context_write_refuted` | a write to a context given for reading is reported by memcheck, but after the outputs were given back: the call returns an error and the output has changed; and the changed copy is what the next reader gets, so that a next, correct, call fails as well. |
| C58 | `C58_alias_keeps_access_refuted` | when an input of a call is also an output (or an output is in use) the call fails with the context and the inputs taken so far still locked, on both backends. |
| C59 | `C59_raw_array_refuted` | with CEED_STRIDES_BACKEND the same L-vector array means different things on the CPU backends: code that fills the array assuming the CPU order {1, elem_size, elem_size*num_comp} of ref instead of asking CeedElemRestrictionGetLLayout gathers permuted values on memcheck, without any error. |
| C59 | `C59_tail_refuted` | applied to an output vector longer than the E-vector (which CeedElemRestrictionApply accepts), ref keeps the rest of the vector and memcheck overwrites it with NaN. |
| C60 | `C60_layout_refuted` | the position documented for CeedElemRestrictionGetAtPointsElementOffset ("point i, component j, element elem is at i*e_layout[0] + j*e_layout[1] + elem_offset") is wrong on the CPU backends as soon as there are two components: elem_size is 0 for at-points restrictions, so the reported layout is {1, 0, 0} and all components of a point share one address. |
| C60 | `C60_elem_unchecked_refuted` | the element number is not checked by the at-points queries: for element num_elem (one past the last) CeedElemRestrictionGetNumPointsInElement succeeds and subtracts a point index from an element range, and further out it reads outside the array. |
| C60 | `C60_padding_refuted` | the entries added to the E-vector so that the last element can be read as if it had the maximal number of points are never written by the apply: they keep whatever the vector held. |
| C61 | `C61_fallback_defines_refuted` | CeedGetOperatorFallbackCeed copies the defines with CeedAddJitSourceRoot (ceed.c:685): the fallback context gets no define at all, and every define becomes a bogus source directory of it. |
| C61 | `C61_fallback_stale_refuted` | the fallback has no parent link to its origin and is filled once: a source root added to the origin later does not reach it, although the next CeedGetOperatorFallbackCeed returns the same context. |
| C61 | `C61_refused_leaks_refuted` | a refused addition returns without giving back the reference CeedGetParent took (ceed.c:1365, 1396): the count stays one too high, so that the context is still not freed after its owner destroyed it. |
| C61 | `C61_unmatched_restore_refuted` | Restore does not check that something is out. One Restore too many refuses every later addition, and the next Get brings the counter back to zero, so that an addition may move the array under the reader. |
| C61 | `C61_delegate_reader_refuted` | CeedSetDelegate while an array of the delegate is out: the matching Restore is counted on the new parent, the delegate can then never be destroyed without an error, and the parent refuses additions though nobody reads. |
| C61 | `C61_delegate_hides_refuted` | source roots added to a context before it becomes a delegate are not seen any more, neither through it nor through its new parent. |
| C61 | `C61_destroy_refused_refuted` | CeedDestroy refuses to destroy a context whose list is being read only after it has given up the last reference: the Restore that follows frees the context itself and returns success, and the next use is a use after free. |
| C62 | `C62_list_refuted` | CeedRegistryGetList writes "*resources[i]" where "(*resources)[i]" is meant (ceed.c:1016-1017): with any compiled backend other than the one registered first, it writes through memory behind the caller's variable. |
| C63 | `C63_transpose_refuted` | "P_1d = Q_1d; Q_1d = P_1d;" (ceed-basis.c:895-896) does not swap: the estimate for the transpose is that of a basis with Q_1d nodes. It is right exactly if P_1d = Q_1d, too large if P_1d < Q_1d and too small if P_1d > Q_1d. |
| C63 | `C63_grad_refuted` | ... but it executes more than the estimate if P_1d < Q_1d: "tensor_flops * 2" (ceed-basis.c:947) counts the second stage at the cost of the first. |
| C63 | `C63_grad_passes_refuted` | with more nodes than quadrature points the gradient is one sweep per direction: dim times the cost of the interpolation, where the estimate says twice. The estimate is right exactly for dim = 2. |
| C63 | `C63_nontensor_refuted` | for non-tensor bases the estimate (ceed-basis.c:978) leaves out the factor 2 that the estimate of tensor bases has: every application executes twice the estimate. |
| C63 | `C63_overflow_refuted` | "num_elem * num_qpts * qf_flops" (ceed-operator.c:1789) first multiplies two CeedInt: with 3,000,000 elements of 1000 quadrature points (signed overflow) the estimate is undefined although it is far below the range of the CeedSize result. |
| C63 | `C63_point_eval_refuted` |  |
| C64 | `C64_null_sub_refuted` | a sub-operator whose Ceed has no fallback gives a NULL fallback (and success), which CeedOperatorCreateFallback (ceed-preconditioning.c:135-138) hands to CeedCompositeOperatorAddSub: a NULL pointer is dereferenced. |
| C64 | `C64_stale_refuted` | the fallback is made once; a field that is changed later (nothing forbids it, see C27) is changed in the operator only, and every later fallback call works with the old field. |
| C64 | `C64_no_points_refuted` | an operator at points is ready without points (ceed-operator.c:1417); making its fallback then takes a reference to a NULL restriction. |
| C64 | `C64_blank_refuted` | a field left blank or unset by an operator reported ready (see C26) is dereferenced. |
| C64 | `C64_attributes_refuted` | the copy of the QFunction keeps the context but not its other attributes: the context of a QFunction declared read-only (CeedQFunctionSetContextWritable) is accessed for writing in the fallback, and the user's flop estimate is lost, so that the fallback operator has no flop estimate. |
| C65 | `C65_leak_refuted` | when two active fields use different bases, or different restrictions (CEED_BASIS_NONE counts as a basis, so one active field with CEED_EVAL_NONE beside one with CEED_EVAL_INTERP is enough), the refused query leaves two references behind: one in the output variable of the caller, who got an error code, and one that nobody can release (ceed-operator.c:228-230, 311-313). |
| C65 | `C65_composite_refuted` | for a composite operator the query is refused, although its documentation promises success with NULL (ceed-operator.c:199-201, 281-283): CeedOperatorGetFields is called before the test for composite operators and refuses them. |
| C66 | `C66_incomplete_refuted` | an operator that is given up before it is complete leaks what was set in slots with a high index: CeedOperatorDestroy walks only the first num_fields slots of each array (ceed-operator.c:2284, 2299), although the slots are numbered by the QFunction. Setting only the second input leaves its basis referenced for ever. |
| C66 | `C66_twice_refuted` | setting a field again (never refused, see C27) overwrites the pointer to the old field (ceed-operator.c:978): its references are never released. |
| C66 | `C66_refused_refuted` | a call that is refused for its active length has already replaced the field by a blank structure (ceed-operator.c:978): the references of the field that was set before are never released. |
| C67 | `C67_blocked_refuted` | CeedElemRestrictionCreateBlockedOriented and CreateBlockedCurlOriented with CEED_OWN_POINTER free the offsets but never the orientations (ceed-elemrestriction.c:1035, 1110). |
| C67 | `C67_failed_refuted` | when the backend refuses the arrays (an offset out of range) the call has made a restriction without Destroy function: with CEED_OWN_POINTER the array is freed neither by the failed call nor by CeedElemRestrictionDestroy, and the backend data and, for a blocked restriction, the padded arrays stay allocated. |
| C67 | `C67_copy_refuted` | CeedElemRestrictionCreateUnsignedCopy and CreateUnorientedCopy copy the number of readers of the original; a copy made while somebody reads the original can never be destroyed, although nobody reads it. |
| C67 | `C67_restore_refuted` | CeedElemRestrictionRestoreOffsets and the functions for orientations do not check that something was obtained: a restore too many makes the count of readers wrap around, and the next reader is not counted: its pointer does not keep the restriction from being destroyed and then points to freed memory. |
| C67 | `C67_refused_refuted` | a refused CeedElemRestrictionDestroy has already lowered the count. A reference taken after it is not counted in full: the next Destroy frees the restriction although a handle is left, and using that handle is undefined. |
| C67 | `C67_copy_of_copy_refuted` | an unsigned copy of an unsigned copy releases a reference of the original that it never took (see also C07): here the second copy frees the arrays that the first copy still uses. |
| C67 | `C67_sizes_refuted` | CeedElemRestrictionCreateBlockedOriented does not check that the number of elements is not negative (ceed-elemrestriction.c:1012); with -1 elements it reads before the arrays of the user. All other creation functions check. |
| C68 | `C68_leak_refuted` | CeedOperatorMultigridLevelCreateTensorH1 and CeedOperatorMultigridLevelCreateH1 destroy their reference to the basis of the fine operator only inside the conditional that makes transfer operators (ceed-preconditioning.c:2636, 2701), so that a successful call that asks for the coarse operator alone leaks a reference to that basis, which is then never freed. |
| C68 | `C68_failed_refuted` | a call that fails keeps references. With transfer operators but without p_mult_fine all three calls return an error after the fine restriction and the new basis have been taken (ceed-preconditioning.c:939-946), and the reference to the restriction of the fine operator and the new basis are lost; without interp_c_to_f the reference to the basis of the fine operator is lost (2631, 2695). |
| C68 | `C68_dim4_refuted` | CeedOperatorMultigridLevelCreateTensorH1 takes the cube root of the number of coarse nodes in every dimension but one and two (ceed-preconditioning.c:2638). In dimension four, which CeedBasisCreateTensorH1 accepts, 3^4 = 81 coarse nodes give 4 nodes per direction, the call succeeds, and P_1d more entries of interp_c_to_f are read than the matrix has. |
| C69 | `C69_refused_refuted` | CeedQFunctionGetContextData takes a reference to the context and returns without dropping it when access is refused (ceed-qfunction.c:354-366), so that after a refused request - for example because another QFunction with the same context has access - the context and its data are never freed. CeedQFunctionGetInnerContextData does not have this fault. |
| C69 | `C69_writable_refuted` | CeedQFunctionRestoreContextData looks at the present value of is_context_writable. If CeedQFunctionSetContextWritable is called between obtaining and restoring, the restore is refused in either variant, the lock stays and the next request for the data is refused as well; only setting the flag back makes the restore succeed, and in the variant that is not inner a reference has been lost by then. |
| C69 | `C69_replaced_refuted` | if the context of a QFunction is replaced between obtaining and restoring, the restore goes to the new context: it succeeds by giving back the access of another QFunction, and write access is then granted while that other QFunction still reads. |
| C69 | `C69_same_refuted` | CeedQFunctionSetContext destroys the old context before it references the new one (ceed-qfunction.c:935-937): setting the context that the QFunction already has, after the client gave its own handle away, uses freed memory. |
| C69 | `C69_reader_refuted` | CeedQFunctionContextDestroy checks the write lock but not the readers (ceed-qfunctioncontext.c:935), so that the last destroy frees data that is being read, while it is refused when the data is being written. |

## Checking the theorems against wrong programs

`seeded/LOG.jsonl` records edits of the model as realistic bugs (wrong boundary, swapped argument, dropped update, missed case),
each with the claim it breaks and the theorems that stopped proving.
