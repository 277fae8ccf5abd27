{"id": "C01", "title": "Vector array access is exclusive-writer / multiple-reader", "statement": "After any history of CeedVector calls by a client that keeps the rules, in which every call taking two accesses (Copy, CopyStrided, AXPY, AXPBY, PointwiseMult) succeeded or took none, the number of array accesses granted for writing and not restored is 0 or 1, never positive together with the number of outstanding read accesses, and both equal the counters kept by the vector; a call that would break this (get/set/sync/take while a writer or, for modifying calls, a reader is outstanding; restore with nothing outstanding) returns an error instead of an array and changes nothing, and any number of readers is admitted when no writer is outstanding.", "quantifier": "every finite history of SetArray/SetValue/GetArray/GetArrayRead/GetArrayWrite/Restore*/TakeArray/SyncArray calls on a vector, in any order, including failed calls", "why_tests_cant": "the claim is about all call histories; tests try a handful of bad orders one call at a time", "anchors": ["interface/ceed-vector.c:CeedVectorGetArray", "interface/ceed-vector.c:CeedVectorGetArrayRead", "interface/ceed-vector.c:CeedVectorGetArrayWrite", "interface/ceed-vector.c:CeedVectorRestoreArray", "interface/ceed-vector.c:CeedVectorRestoreArrayRead", "interface/ceed-vector.c:CeedVectorSetArray", "interface/ceed-vector.c:CeedVectorTakeArray"]}
{"id": "C02", "title": "Vector data is what was last stored through the API", "statement": "Reading a vector returns the values last put there: the array given to CeedVectorSetArray (copied: later changes of the user's array are not seen; used by pointer: they are, and library writes land in the user's array), the constant of SetValue, or the values written through a granted write access; an access call on one vector never changes the contents seen through another vector that does not share the array. (A call naming one vector changes another vector only when both share the array.)", "quantifier": "every history of vector calls and of user writes to user arrays, over any number of vectors and arrays of any length", "why_tests_cant": "needs all interleavings of user writes, copies and accesses; tests check fixed scripts", "anchors": ["interface/ceed-vector.c:CeedVectorSetArray", "interface/ceed-vector.c:CeedVectorSetValue", "interface/ceed.c:CeedSetHostGenericArray", "backends/ref/ceed-ref-vector.c:CeedVectorSetArray_Ref", "backends/ref/ceed-ref-vector.c:CeedVectorGetArrayWrite_Ref"]}
{"id": "C03", "title": "Vector arrays are freed exactly once and user arrays are never freed", "statement": "Over any history, memory the vector allocated or was given with CEED_OWN_POINTER is released exactly once (on replacement or on destruction of the last handle), arrays passed with CEED_USE_POINTER or CEED_COPY_VALUES are never released by the library, and no released array is read or written by an API call; after the last destroy nothing the library owned remains allocated. Finding: an array given with CEED_OWN_POINTER to a vector of length 0 is never taken over, so it leaks.", "quantifier": "every history of vector calls, with arrays passed in any copy mode", "why_tests_cant": "leaks, double frees and use after free depend on the whole history of copy modes", "anchors": ["interface/ceed.c:CeedSetHostGenericArray", "backends/ref/ceed-ref-vector.c:CeedVectorDestroy_Ref", "backends/ref/ceed-ref-vector.c:CeedVectorTakeArray_Ref", "interface/ceed-vector.c:CeedVectorDestroy"]}
{"id": "C04", "title": "Vector state number changes whenever the contents may have changed", "statement": "CeedVectorGetState is odd exactly while write access is outstanding; every successful SetArray, SetValue, write access with its restore, and modifying arithmetic call advances it, read access, failed refused calls and TakeArray leave it unchanged; so, over fewer than 2^62 calls, equal states at two points of a history mean that no modifying API call succeeded on that vector in between, and a vector owning its array has the same contents. Findings: TakeArray drops the contents without changing the state, and a client write to an array shared by CEED_USE_POINTER is not seen by the state.", "quantifier": "every history of vector calls; any pair of points in it, with the 64-bit wrap made explicit", "why_tests_cant": "a cache keyed by the state is only sound if this holds between any two points of any history", "anchors": ["interface/ceed-vector.c:CeedVectorGetState", "interface/ceed-vector.c:CeedVectorTakeArray", "interface/ceed-vector.c:CeedVectorRestoreArray"]}
{"id": "C05", "title": "A vector call that fails with a nonterminal error leaves the vector unchanged", "statement": "When a CeedVector call returns a positive (nonterminal) error code the whole state is the one before the call, except for Destroy, Copy, CopyStrided, AXPY, AXPBY and PointwiseMult; and for every call the contents and lengths of all vectors are unchanged, except for a PointwiseMult into a vector without values. Findings: Destroy on a locked last handle has already decremented the reference count; AXPY, AXPBY, PointwiseMult, CopyStrided that fail acquiring the second array, and Copy or CopyStrided of a vector onto itself, leave an access outstanding; a refused PointwiseMult turns an output without values into zeros; GetArrayWrite for device memory fails in the backend after allocating zeros and advancing the state.", "quantifier": "every vector state reachable by a history and every call", "why_tests_cant": "types.h promises this for every failing call, tests check only the returned code", "anchors": ["include/ceed/types.h:CeedErrorType", "interface/ceed-vector.c:CeedVectorGetArray", "interface/ceed-vector.c:CeedVectorDestroy", "interface/ceed-vector.c:CeedVectorAXPY"]}
{"id": "C06", "title": "Vector arithmetic is elementwise and stays in bounds", "statement": "SetValueStrided, CopyStrided, Copy, Scale, AXPY, AXPBY, PointwiseMult, Reciprocal and Norm compute exactly their documented elementwise result for every length, step and admissible aliasing, change no other entry, and access no array out of bounds (findings: strided calls with a negative start or a step that is not positive are not rejected).", "quantifier": "all vector lengths, contents, start/stop/step values (start not negative, step positive), scalars and aliasing patterns accepted by the checks", "why_tests_cant": "the input space is unbounded; tests use lengths around 10", "anchors": ["interface/ceed-vector.c:CeedVectorSetValueStrided", "interface/ceed-vector.c:CeedVectorCopyStrided", "interface/ceed-vector.c:CeedVectorAXPY", "interface/ceed-vector.c:CeedVectorAXPBY", "interface/ceed-vector.c:CeedVectorPointwiseMult", "interface/ceed-vector.c:CeedVectorScale", "interface/ceed-vector.c:CeedVectorReciprocal", "interface/ceed-vector.c:CeedVectorNorm", "interface/ceed-vector.c:CeedVectorCopy"]}
{"id": "C07", "title": "Reference-counted objects die exactly with their last reference", "statement": "For any history of create, reference-copy, attach-to-another-object, get and destroy calls on libCEED objects, an object is freed exactly when the last user handle or holding object releases it; no call touches a freed object; the count of an object is the number of its holders; Destroy of any handle succeeds; when no user handle is left, no reference cycle was built and no operator was destroyed with field structs it does not reach, no object remains. Guards: no context outlives the context it is a delegate of when CeedVectorAXPY (AXPBY, PointwiseMult), a basis creation or CeedBasisApplyAtPoints runs; at most CEED_FIELD_MAX fields per operator; no copy of a restriction that is itself an unsigned/unoriented copy; no CeedTensorContractCreate by the user. Finding: without each of these guards the claim is false: the parent of a delegate is not counted, so that AXPY or a basis creation after CeedDestroy of the parent reads freed memory; CeedElemRestrictionCreateUnsignedCopy of a copy releases a base it never counted; CeedOperatorDestroy reads behind its field arrays after 17 fields; an operator destroyed before all fields are set, or with a field set twice, leaks the objects of those fields; a tensor contraction object starts with count 0.", "quantifier": "every history over any number of handles and objects, any (acyclic) graph of holding relations; copies onto an occupied handle and self-copies included", "why_tests_cant": "every order of copies and destroys must be right; tests do two or three", "anchors": ["interface/ceed-vector.c:CeedVectorReferenceCopy", "interface/ceed-vector.c:CeedVectorDestroy", "interface/ceed-elemrestriction.c:CeedElemRestrictionDestroy", "interface/ceed-basis.c:CeedBasisDestroy", "interface/ceed-operator.c:CeedOperatorDestroy", "interface/ceed-qfunction.c:CeedQFunctionDestroy", "interface/ceed.c:CeedDestroy", "interface/ceed-tensor.c:CeedTensorContractDestroy", "interface/ceed-qfunction.c:CeedQFunctionSetContext"]}
{"id": "C08", "title": "Element restriction gathers exactly the addressed L-vector entries", "statement": "CeedElemRestrictionApply without transpose stores in E-vector entry (node, component, element), laid out as CeedElemRestrictionGetELayout reports, exactly the L-vector entry at offset(element,node) + component*comp_stride (strided: node*s0+comp*s1+elem*s2), with the orientation sign or the 3-point curl transformation applied; every in-range entry of the E-vector is written and nothing else. For blocked restrictions elements of a block are interlaced. (Findings: blocked restrictions report the unblocked E-layout; the unsigned copy of a restriction still applies the signs when applied block by block.)", "quantifier": "all numbers of elements, element sizes, components, component strides, offsets and L-vectors; standard, strided, oriented, curl-oriented and at-points restrictions", "why_tests_cant": "index arithmetic must be right for every size; tests fix a few meshes", "anchors": ["interface/ceed-elemrestriction.c:CeedElemRestrictionApply", "backends/ref/ceed-ref-restriction.c:CeedElemRestrictionApplyOffsetNoTranspose_Ref_Core", "backends/ref/ceed-ref-restriction.c:CeedElemRestrictionApplyStridedNoTranspose_Ref_Core", "backends/ref/ceed-ref-restriction.c:CeedElemRestrictionApplyOrientedNoTranspose_Ref_Core", "backends/ref/ceed-ref-restriction.c:CeedElemRestrictionApplyCurlOrientedNoTranspose_Ref_Core", "backends/ref/ceed-ref-restriction.c:CeedElemRestrictionApplyAtPointsInElement_Ref_Core"]}
{"id": "C09", "title": "Restriction transpose is the exact adjoint and accumulates", "statement": "CeedElemRestrictionApply with CEED_TRANSPOSE adds E^T u to the output, where E is the gather of the same restriction: for all u, w, dot(E w, u) = dot(w, E^T u); existing contents of the output are kept and added to.", "quantifier": "all restrictions of every type, all vectors, over any commutative ring of scalars", "why_tests_cant": "an algebraic identity over all vectors and all index maps", "anchors": ["backends/ref/ceed-ref-restriction.c:CeedElemRestrictionApplyOffsetTranspose_Ref_Core", "backends/ref/ceed-ref-restriction.c:CeedElemRestrictionApplyStridedTranspose_Ref_Core", "backends/ref/ceed-ref-restriction.c:CeedElemRestrictionApplyOrientedTranspose_Ref_Core", "backends/ref/ceed-ref-restriction.c:CeedElemRestrictionApplyCurlOrientedTranspose_Ref_Core"]}
{"id": "C10", "title": "Restriction application never leaves the arrays when creation was validated", "statement": "If the offsets lie in the range the creation call checks (0 <= offset and offset + (num_comp-1)*comp_stride < l_size), both transpose modes access only entries inside the L- and E-vectors; the creation check accepts exactly those offsets. (Findings: blocked creation misses offsets of the padded last block; strides are not checked against l_size; point indices are never checked; creating an at-points restriction without elements reads before its array; a zero block size is divided by before it is rejected; backends other than /cpu/self/ref/* do not check; curl-oriented with one node per element reads outside; applying one block accepts a block index one past the end.)", "quantifier": "all sizes, offsets and vectors of the lengths the interface checks", "why_tests_cant": "an out-of-bounds access exists or not for all index maps; sanitizer runs sample", "anchors": ["backends/ref/ceed-ref-restriction.c:CeedElemRestrictionCreate_Ref", "interface/ceed-elemrestriction.c:CeedElemRestrictionApply", "interface/ceed-elemrestriction.c:CeedElemRestrictionApplyBlock", "backends/ref/ceed-ref-restriction.c:CeedElemRestrictionApplyCurlOrientedNoTranspose_Ref_Core"]}
{"id": "C11", "title": "Blocked restrictions agree with unblocked ones", "statement": "For any block size, a blocked restriction built from the same offsets (padding the last block by repeating the last element) delivers each element's entries at the interlaced position of its block, and its transpose adds to the L-vector exactly what the unblocked transpose adds: padding lanes contribute nothing. Applying block by block equals applying all at once.", "quantifier": "all block sizes >= 1, element counts (including not divisible by the block size), sizes and offsets", "why_tests_cant": "remainder handling must be right for all residues", "anchors": ["interface/ceed-elemrestriction.c:CeedPermutePadOffsets", "interface/ceed-elemrestriction.c:CeedElemRestrictionCreateBlocked", "backends/ref/ceed-ref-restriction.c:CeedElemRestrictionApplyOffsetTranspose_Ref_Core", "interface/ceed-elemrestriction.c:CeedElemRestrictionApplyBlock"]}
{"id": "C12", "title": "Multiplicity counts how often each node is referenced", "statement": "CeedElemRestrictionGetMultiplicity returns, for each L-vector entry, the number of (element, node, component) triples mapped to it. (Finding: on a curl-oriented restriction the returned numbers are not these counts; on its unoriented copy they are.)", "quantifier": "all restrictions, all sizes", "why_tests_cant": "counting statement for all index maps", "anchors": ["interface/ceed-elemrestriction.c:CeedElemRestrictionGetMultiplicity"]}
{"id": "C13", "title": "Tensor contraction computes the contraction on every backend", "statement": "CeedTensorContractApply computes v[a,j,c] = (add ? v[a,j,c] : 0) + sum_b t[j,b] u[a,b,c] (t read transposed in transpose mode) and writes no other entry; the ref, opt and AVX implementations give the same result for all A,B,C,J, including all remainders of the AVX tile sizes. CeedTensorContractStridedApply does this for each slot d (not transposed) or sums the slots into v (transposed, adding). Finding: with C = J = 1 and A > 4, A mod 4 in {1,2}, the AVX code reads and writes past the end of an exactly sized v. Finding: the strided transpose without add keeps only the last slot instead of the documented sum.", "quantifier": "all sizes A,B,C,J, matrices and vectors over any commutative ring; AVX kernels modelled with 4-lane loads and stores", "why_tests_cant": "remainder loops depend on all residues of J mod 4/8 and C mod 8; tests touch few", "anchors": ["backends/ref/ceed-ref-tensor.c:CeedTensorContractApply_Ref", "backends/opt/ceed-opt-tensor.c:CeedTensorContractApply_Opt", "backends/avx/ceed-avx-tensor.c:CeedTensorContractApply_Avx"]}
{"id": "C14", "title": "Tensor-product basis application equals the full matrix the basis reports", "statement": "Applying a tensor H1 basis (interpolation, gradient) dimension by dimension gives, for every component and element, the product with the full matrix CeedBasisGetInterp/CeedBasisGetGrad reports for that basis (the Kronecker product of the 1D matrices, gradient in one direction at a time). Same for non-tensor bases and the matrices they report. Guards: the collocation test (equality within 1e-14 in C) is exact on the matrix at hand, the collocated gradient meets its defining equation (see C18), and the AVX kernel is used with at least two 1D nodes and points.", "quantifier": "all dimensions, P_1d, Q_1d, numbers of components and elements, all 1D matrices and inputs", "why_tests_cant": "equality of two algorithms for all sizes, dimension not bounded", "anchors": ["backends/ref/ceed-ref-basis.c:CeedBasisApplyCore_Ref", "interface/ceed-basis.c:CeedBasisGetInterp", "interface/ceed-basis.c:CeedBasisGetGrad"]}
{"id": "C15", "title": "Basis application in transpose mode is the adjoint", "statement": "For each evaluation mode, dot(B u, v) = dot(u, B^T v) where B and B^T are CeedBasisApply with CEED_NOTRANSPOSE and CEED_TRANSPOSE of the same basis, tensor or not.", "quantifier": "all bases, sizes and vectors", "why_tests_cant": "algebraic identity over all inputs", "anchors": ["backends/ref/ceed-ref-basis.c:CeedBasisApplyCore_Ref", "interface/ceed-basis.c:CeedBasisApply", "interface/ceed-tensor.c:CeedTensorContractStridedApply"]}
{"id": "C16", "title": "Basis ApplyAdd adds, Apply overwrites", "statement": "CeedBasisApply overwrites the output independently of its previous contents and of uninitialised scratch memory, and CeedBasisApplyAdd (transpose) of a basis that is not collocated adds the same result to the previous contents. Finding: the reference implementation overwrites in ApplyAdd when the basis is collocated (interpolation by memcpy, gradient through the collocated path).", "quantifier": "all bases, sizes, vectors and previous contents", "why_tests_cant": "needs arbitrary previous contents and all branches of the implementation", "anchors": ["backends/ref/ceed-ref-basis.c:CeedBasisApplyCore_Ref", "backends/ref/ceed-ref-basis.c:CeedBasisApplyAdd_Ref", "interface/ceed-basis.c:CeedBasisApplyAdd"]}
{"id": "C17", "title": "The dimension check of basis application is sufficient for memory safety", "statement": "When the length checks of CeedBasisApply[Add] pass and the basis has a matrix for the mode, application reads and writes only inside the given vectors (weights: at least one element); CeedBasisApplyAtPoints does so with vectors as long as documented. Findings: a mode the space lacks passes the check and dereferences a missing matrix; weights with zero elements read an empty vector; the AtPoints check joins its conditions with 'or' and forgets the number of components.", "quantifier": "all bases, modes, element counts and vector lengths", "why_tests_cant": "all combinations of lengths and modes", "anchors": ["interface/ceed-basis.c:CeedBasisApplyCheckDims", "interface/ceed-basis.c:CeedBasisApplyAtPointsCheckDims", "backends/ref/ceed-ref-basis.c:CeedBasisApplyCore_Ref"]}
{"id": "C18", "title": "Dense linear algebra helpers compute what they document", "statement": "In exact real arithmetic: CeedMatrixMatrixMultiply is the matrix product (over any ring). CeedQRFactorization with n <= m and independent first min(n, m-1) columns leaves the R factor on and above the diagonal and reflectors below it such that A = Q R with Q orthogonal, and CeedHouseholderApplyQ with those arrays multiplies any matrix stored with non-overlapping row and column strides by Q or by its transpose and changes nothing else; with and without transpose it undoes itself for any array of reflectors. n > m is refused. CeedMatrixPseudoinverse of a matrix with independent columns is a left inverse P with A P symmetric (the Moore-Penrose inverse; the inverse of a square matrix). The collocated 1D gradient composed with interpolation is the gradient, and the Chebyshev coefficients reproduce the interpolation matrix at distinct quadrature points. Finding: with dependent leading columns, for example a zero column, which has a QR factorization, 0/0 is computed.", "quantifier": "all sizes, all real matrices, all strides; the rank conditions are shown to be exactly necessary", "why_tests_cant": "quantifies over all matrices and sizes", "anchors": ["interface/ceed-basis.c:CeedMatrixMatrixMultiply", "interface/ceed-basis.c:CeedQRFactorization", "interface/ceed-basis.c:CeedHouseholderApplyQ", "interface/ceed-basis.c:CeedMatrixPseudoinverse", "interface/ceed-basis.c:CeedBasisGetCollocatedGrad", "interface/ceed-basis.c:CeedBasisGetChebyshevInterp1D"]}
{"id": "C19", "title": "Point evaluation uses Chebyshev polynomials and their derivatives", "statement": "The polynomial values used to evaluate a basis at an arbitrary point are those of the Chebyshev polynomials of the second kind, and the derivative values are those of their formal derivatives, for every number of nodes >= 2 (finding: with one node the routines write outside the array).", "quantifier": "all numbers of nodes and all points, over any commutative ring", "why_tests_cant": "statement about all degrees and points", "anchors": ["interface/ceed-basis.c:CeedChebyshevPolynomialsAtPoint", "interface/ceed-basis.c:CeedChebyshevDerivativeAtPoint"]}
{"id": "C20", "title": "QFunction field lists are consistent and become immutable", "statement": "Field names are unique across inputs and outputs, fields keep the order in which they were added, an add is accepted exactly when the QFunction is not frozen, the name is new, a weight input has size one (a weight output is never accepted) and fewer than sixteen fields of that kind exist; a rejected AddInput/AddOutput changes nothing, and after the first successful apply, field query or fallback copy every add fails and the lists stay as they were. Finding: the seventeenth input or output field is accepted and written past the end of the field array.", "quantifier": "every history of AddInput/AddOutput/GetFields/Apply calls with arbitrary names, sizes and modes", "why_tests_cant": "all histories and field counts", "anchors": ["interface/ceed-qfunction.c:CeedQFunctionAddInput", "interface/ceed-qfunction.c:CeedQFunctionAddOutput", "interface/ceed-qfunction.c:CeedQFunctionSetImmutable", "interface/ceed-qfunction.c:CeedQFunctionGetFields", "interface/ceed-qfunction.c:CeedQFunctionApply"]}
{"id": "C21", "title": "QFunction source strings split and rejoin without loss", "statement": "A source is accepted at creation exactly if it is empty or contains a colon. For every accepted 'path:name' (name without colon) and after every history of calls the kernel name is the part after the last colon and the source path is the part before it if that file can be opened, otherwise that part in the directory of the first JiT root where it can be opened. The fallback QFunction has the same fields, vector length, kernel name and source path, provided the kernel name was queried before if the source path was. Findings: a fallback copy after only the source path was queried takes strlen of a NULL kernel name; a JiT root directory given without trailing slash is searched in its parent directory.", "quantifier": "all source strings", "why_tests_cant": "all strings, including several colons and empty parts", "anchors": ["interface/ceed-qfunction.c:CeedQFunctionGetKernelName", "interface/ceed-qfunction.c:CeedQFunctionGetSourcePath", "interface/ceed-preconditioning.c:CeedQFunctionCreateFallback"]}
{"id": "C22", "title": "Gallery and backend lookup by name prefix is deterministic and most specific", "statement": "CeedInit (registered prefixes without colon, request other than exactly 'help') selects backend i exactly if the requested stem (text up to ':' after an optional 'help:') has at least two characters, backend i's prefix starts with it, no other such backend has a smaller priority number and no earlier one an equal number; success does not depend on registration order, nor does the choice unless two candidates tie in priority; up to 32 registrations fill the table in order. CeedQFunctionCreateInteriorByName uses the first registered entry with the longest common prefix; with init functions that compare names (the whole shipped gallery) success means the exact name was found, and a registered name is found exactly if no earlier registered name starts with it. Findings: CeedInit(\"help\") reads past the end of the string; the thirty-third CeedRegister reports success and is lost; a registered gallery name is shadowed by an earlier longer name.", "quantifier": "all lists of registered names and priorities, all requested strings", "why_tests_cant": "all registration orders and all strings", "anchors": ["interface/ceed.c:CeedInit", "interface/ceed.c:CeedRegisterImpl", "interface/ceed-qfunction.c:CeedQFunctionCreateInteriorByName"]}
{"id": "C23", "title": "QFunctionContext data is protected and typed", "statement": "Context data access is exclusive-writer/multiple-reader over every history: while the client holds write access there is no reader and no further access, new data or take is granted; while readers are outstanding no write access is granted; and no RestoreDataRead is accepted without a reader. A client that never uses dead blocks or withdrawn pointers sees exactly the abstract machine (contents, size, state, fields). A registered field reads back the bytes last set through its label whatever other calls happen in between (no new data, no writes inside its range, sets only of disjoint fields); setting a field changes exactly the bytes of its range; the state changes (by 2) exactly if the value changes; a wrong type or a NULL label is refused without effect; labels stand for the field with the given name and names are unique. Findings: SetData and Destroy are granted while readers are outstanding, and their memory is freed; CopyValues from the context's own buffer reads freed memory; with a destroy function set before the first data no data can ever be set; a failing destroy function leaves the context locked; a refused SetData still changes the size; registration does not check that a field lies inside the data.", "quantifier": "every history of context calls; any registered field layout", "why_tests_cant": "all histories and layouts", "anchors": ["interface/ceed-qfunctioncontext.c:CeedQFunctionContextGetData", "interface/ceed-qfunctioncontext.c:CeedQFunctionContextSetGeneric", "interface/ceed-qfunctioncontext.c:CeedQFunctionContextGetGenericRead", "interface/ceed-qfunctioncontext.c:CeedQFunctionContextSetData", "backends/ref/ceed-ref-qfunctioncontext.c:CeedQFunctionContextSetData_Ref"]}
{"id": "C24", "title": "Work vectors handed out are never shared", "statement": "For a context that implements VectorCreate itself and any history of CeedGetWorkVector, CeedRestoreWorkVector, CeedReference and CeedDestroy by a user that holds a handle: a request never fails, the vector given is at least as long as requested and outstanding to nobody else; if a vector kept is free and long enough, none is created; exactly the outstanding vectors can be restored (others give an error) and are kept; for every length the number of vectors kept of that length never exceeds the largest number of vectors at least that long outstanding at one time; the context is freed, with all its work vectors, exactly when its last handle is destroyed and no work vector is outstanding. Findings: with a delegated VectorCreate each new work vector costs the context one of its own references, so it is freed while a handle exists; restoring before any request is a null dereference; requests of growing length keep one vector each.", "quantifier": "every interleaving of get and restore calls with any lengths", "why_tests_cant": "all interleavings", "anchors": ["interface/ceed.c:CeedGetWorkVector", "interface/ceed.c:CeedRestoreWorkVector", "interface/ceed.c:CeedWorkVectorsCreate"]}
{"id": "C25", "title": "Object delegation resolves to the delegate registered for the object", "statement": "After any sequence of CeedSetDelegate and at most one CeedSetObjectDelegate, CeedGetObjectDelegate returns the delegate set for that object name if one was set and otherwise the latest default delegate. Findings: setting a second object delegate reads an uninitialised pointer; and the lookup only ever compares and returns the first object delegate.", "quantifier": "all lists of object delegates and all object names", "why_tests_cant": "all registration lists", "anchors": ["interface/ceed.c:CeedGetObjectDelegate", "interface/ceed.c:CeedSetObjectDelegate"]}
{"id": "C26", "title": "An operator reported ready has every QFunction field set", "statement": "If no field of an operator is set again after it was set successfully and CeedOperatorCheckReady succeeds, every input and output field of the QFunction has been set by a successful call whose restriction, basis and component counts fit the field; all fields agree on the number of elements, on the number of quadrature points (operators that are not at points), on the point sets and on the active vector length. Conversely an operator with all fields set, one of them with a restriction, is ready; calls that all succeed in one order succeed in every order and leave the same operator. Findings: setting one field twice counts twice, so an operator with an unset field can be reported ready; a rejected second call for a field wipes that field, and the operator is still reported ready.", "quantifier": "every history of CeedOperatorSetField calls with arbitrary fields, successful or rejected", "why_tests_cant": "all orders and repetitions of calls", "anchors": ["interface/ceed-operator.c:CeedOperatorSetField", "interface/ceed-operator.c:CeedOperatorCheckReady", "interface/ceed-operator.c:CeedOperatorCheckField"]}
{"id": "C27", "title": "A ready operator can no longer be changed", "statement": "After CeedOperatorCheckReady succeeded, the QFunction can no longer be changed, and the number of elements, the number of quadrature points and the known active vector lengths of the operator never change again, whatever is called. Findings: the immutability flag that SetField and AddSub test is never set for operators, in any history, so fields can be replaced and sub-operators added (even unready ones) after the operator was found ready, although the code says it 'cannot be changed after set as immutable'.", "quantifier": "every history of calls after readiness", "why_tests_cant": "all histories", "anchors": ["interface/ceed-operator.c:CeedOperatorCheckReady", "interface/ceed-operator.c:CeedOperatorSetField", "interface/ceed-operator.c:CeedCompositeOperatorAddSub", "interface/ceed-operator.c:CeedOperatorIsImmutable"]}
{"id": "C28", "title": "Operator apply equals the finite element formula", "statement": "On the reference and blocked CPU backends CeedOperatorApplyAdd adds sum over elements of E_e^T B^T f(B E_e u) to each output vector and changes nothing else, with f applied at all quadrature points of the element, passive inputs taken from their vectors and every element contributing exactly once; this holds for the first and every later application. Guards: fields are sound (restriction and basis agree on nodes, components and points), the sharing conditions of C31 hold. Findings: a restriction whose element size differs from the number of basis nodes is accepted and the application reads out of bounds; an identity QFunction between fields without basis uses the active arguments even if the fields refer to passive vectors.", "quantifier": "all numbers of elements, fields, sizes, restrictions, bases and QFunctions (as arbitrary functions)", "why_tests_cant": "functional correctness for all operators", "anchors": ["backends/ref/ceed-ref-operator.c:CeedOperatorApplyAdd_Ref", "backends/ref/ceed-ref-operator.c:CeedOperatorSetupInputs_Ref", "backends/ref/ceed-ref-operator.c:CeedOperatorInputBasis_Ref", "backends/ref/ceed-ref-operator.c:CeedOperatorOutputBasis_Ref"]}
{"id": "C29", "title": "Apply overwrites, ApplyAdd accumulates, composite operators sum", "statement": "CeedOperatorApply leaves out = A(in) regardless of previous contents, ApplyAdd leaves out + A(in), and ApplyAdd of a composite operator (any nesting) adds the sum of its sub-operators in any order; Apply of a composite operator of single operators gives that sum, zero with no sub-operators; an operator with no elements gives zero. Guard: no input vector is an output vector. Finding: Apply of a composite operator inside a composite operator fails with an error although ApplyAdd works.", "quantifier": "all operators, trees of composite operators, vectors", "why_tests_cant": "all trees and orders of sub-operators", "anchors": ["interface/ceed-operator.c:CeedOperatorApply", "interface/ceed-operator.c:CeedOperatorApplyAdd", "interface/ceed-operator.c:CeedCompositeOperatorAddSub"]}
{"id": "C30", "title": "Cached restricted inputs are never stale", "statement": "The reference operator keeps restricted passive inputs between applications; after any history of vector modifications through the API (including taking an array and setting a new one) and operator applications with valid vectors, the results are those of a new operator for every application. Finding: while the array of a passive input is taken, an operator applied before still computes from the old contents without an error.", "quantifier": "every interleaving of vector calls and operator applies", "why_tests_cant": "all interleavings", "anchors": ["backends/ref/ceed-ref-operator.c:CeedOperatorSetupInputs_Ref", "interface/ceed-vector.c:CeedVectorGetState"]}
{"id": "C31", "title": "Sharing of duplicate restrictions does not change the result", "statement": "When several operator fields use the same vector and restriction, the reference operator restricts inputs once and accumulates outputs into one E-vector; the result equals that of an operator with separate copies of the restrictions. Guards: of sharing inputs the first has a basis; of sharing outputs all but the first have a basis that is not collocated. Findings: sharing inputs without basis, or two quadrature weight inputs, dereference a null vector; two sharing outputs without basis do the same; two outputs without basis sharing with a third that has one lose a contribution; sharing outputs with collocated bases lose a contribution.", "quantifier": "all lists of fields with arbitrary sharing pattern", "why_tests_cant": "all sharing patterns and field orders", "anchors": ["backends/ref/ceed-ref-operator.c:CeedOperatorSetupFields_Ref", "backends/ref/ceed-ref-operator.c:CeedOperatorApplyAdd_Ref", "backends/ref/ceed-ref-operator.c:CeedOperatorOutputBasis_Ref"]}
{"id": "C32", "title": "The blocked operator backend gives the same result as the serial one", "statement": "For every number of elements, the blocked operator (blocks of 8, last block padded) adds to the output vectors exactly what the element-by-element operator adds, for any QFunction acting point by point.", "quantifier": "all element counts, fields, pointwise QFunctions and inputs", "why_tests_cant": "all residues modulo the block size", "anchors": ["backends/blocked/ceed-blocked-operator.c:CeedOperatorApplyAdd_Blocked", "backends/ref/ceed-ref-operator.c:CeedOperatorApplyAdd_Ref"]}
{"id": "C33", "title": "The assembled QFunction represents the QFunction", "statement": "For an operator with active inputs and outputs, CeedOperatorLinearAssembleQFunction returns, at the documented position [element, input component, output component, point], the QFunction output component for the unit active input component with the passive inputs as they are; for a linear QFunction the matrix at each point, multiplied with the values of any active input vector, gives the QFunction output of an application. This holds after every history of vector changes, applications and assemblies in which the operator was not applied since its first assembly or was assembled again since and, if it was applied at all, no two active inputs without basis read the same restriction; applications compute the same with or without assemblies between them. Operators without active inputs and outputs, or that are two restrictions, are refused. Findings: an assembly after an apply on an operator that was assembled before starts from the input values of that apply instead of zero, so the assembled values are wrong; two active inputs without basis on one restriction (possible next to a field with basis, C31) share memory after an apply, so that the first assembly counts each of them for both; for an operator without elements the blocked backend fails where the reference backend returns an empty vector.", "quantifier": "all linear QFunctions, sizes, numbers of fields; every history of apply and assemble calls", "why_tests_cant": "all histories of apply/assemble and all linear QFunctions", "anchors": ["backends/ref/ceed-ref-operator.c:CeedOperatorLinearAssembleQFunctionCore_Ref", "interface/ceed-preconditioning.c:CeedOperatorLinearAssembleQFunction"]}
{"id": "C34", "title": "Cached assembled QFunctions are refreshed when required", "statement": "CeedOperatorLinearAssembleQFunctionBuildOrUpdate returns freshly assembled values (right where C33 says so) unless reuse was enabled and no update was requested since the last assembly by an operator sharing the data; then it returns the vector of the last call with the contents the caller left in it. Until stripped, all calls by operators sharing the data return the same vector. Sharing between multigrid levels is sound: values right for the fine operator are right for the coarse one. Setting the flags of a composite operator of any depth sets them for all its single operators; stripping a composite of single operators strips them. Finding: CeedOperatorAssemblyDataStrip on a nested composite does not reach operators two levels down, which then return outdated values.", "quantifier": "every history of SetQFunctionAssemblyReuse, SetQFunctionAssemblyDataUpdateNeeded, AssemblyDataStrip, multigrid sharing, context and vector changes, writes to returned vectors, applications and assembly calls on any number of operators", "why_tests_cant": "all histories of flags", "anchors": ["interface/ceed-preconditioning.c:CeedOperatorLinearAssembleQFunctionBuildOrUpdate", "interface/ceed-preconditioning.c:CeedQFunctionAssemblyDataIsUpdateNeeded", "interface/ceed-operator.c:CeedOperatorSetQFunctionAssemblyReuse"]}
{"id": "C35", "title": "Full assembly agrees with operator application", "statement": "The triplets (row, col, value) from CeedOperatorLinearAssembleSymbolic and CeedOperatorLinearAssemble, summed into a matrix, applied to any vector give the same result as CeedOperatorApply, for single operators and composite operators of single operators, as long as the passive vectors are unchanged, the active inputs (and the active outputs) of each single operator have one restriction and one basis and at most one field per evaluation mode that has several components per point, and the cached QFunction data of each are current (C34); rows and columns are valid indices, the values are in the order of the positions, and values beyond the last entry are zero. Nested composite operators and several active restrictions or bases are rejected with an error. Finding: two active inputs with the same evaluation mode with several components (two gradients in 2D) are not rejected; the basis matrix is read past its end.", "quantifier": "all linear single and composite operators, restrictions (standard, oriented, curl-oriented), bases, inputs", "why_tests_cant": "matrix identity for all operators", "anchors": ["interface/ceed-preconditioning.c:CeedSingleOperatorAssemble", "interface/ceed-preconditioning.c:CeedSingleOperatorAssembleSymbolic", "interface/ceed-preconditioning.c:CeedOperatorLinearAssemble", "interface/ceed-preconditioning.c:CeedOperatorLinearAssembleSymbolic"]}
{"id": "C36", "title": "Assembled diagonals agree with the operator", "statement": "CeedOperatorLinearAssembleDiagonal overwrites a vector with the diagonal of the operator's matrix (entry q is entry q of the result of CeedOperatorApply for the unit vector q), CeedOperatorLinearAssembleAddDiagonal adds it, and the point-block versions give at the place of (node, component out, component in) the matrix entry between these components of the node, at the places CeedOperatorLinearAssemblePointBlockDiagonalSymbolic reports (injective over the nodes covered by elements); composite operators, nested or not, give the sum. Conditions: the operators have elements; each has one active restriction without tridiagonal transformations and one active basis object for both inputs and outputs; the nodes of an element have different places; the cached QFunction data are current (C34); for point blocks offset-based restrictions with component stride 1 or blocks inside the vector. Operators that are not square and different input and output restrictions are rejected. Findings: an operator without elements leaves the vector unchanged although documented as overwritten; curl-oriented restrictions, elements with repeated nodes, different basis objects for input and output, and active fields without basis silently give a wrong diagonal; the point-block functions read through a null pointer for strided restrictions and fail for other component strides; the symbolic point-block pairs are not unique when a node belongs to no element.", "quantifier": "all linear single operators and nested composites, histories of calls, element restrictions (strided, standard, oriented), bases, sizes", "why_tests_cant": "matrix identity for all operators", "anchors": ["interface/ceed-preconditioning.c:CeedSingleOperatorLinearAssembleAddDiagonal_Mesh", "interface/ceed-preconditioning.c:CeedOperatorLinearAssembleDiagonal", "interface/ceed-preconditioning.c:CeedOperatorCreateActivePointBlockRestriction"]}
{"id": "C37", "title": "Composite multiplicity honours the skip list", "statement": "For a composite operator whose sub-operators are non-composite with one active input restriction each, of L-size equal to the length of the multiplicity vector, CeedCompositeOperatorGetMultiplicity leaves at each node the number of sub-operators that touch it, whatever the vector held before. Finding: the skip list is ignored: the result is the same for every skip list, so sub-operators listed to be skipped are still counted.", "quantifier": "all composite operators and skip lists", "why_tests_cant": "all skip lists; the existing test passes an empty list", "anchors": ["interface/ceed-preconditioning.c:CeedCompositeOperatorGetMultiplicity"]}
{"id": "C38", "title": "Multigrid prolongation and restriction are adjoint", "statement": "The prolongation and restriction operators created by CeedOperatorMultigridLevelCreate are transposes of each other: both apply successfully and dot(P u, v) = dot(u, R v), for every multiplicity vector, on the ref and blocked backends, at any time while the scaling vector is unchanged. The scaling vector holds the inverse of (given multiplicity) x (number of element nodes mapped to the entry), no other vector is written, and on the ref backend (or without orientations) the prolongation of a coarse function whose interpolated values agree, up to orientation, with a function g of the fine nodes is g divided by the given multiplicity. Finding: on the blocked backend the unsigned copy of an oriented fine restriction is turned back into a signed one, so the prolongation has wrong signs (adjointness still holds).", "quantifier": "all fine/coarse restrictions, interpolation matrices and vectors", "why_tests_cant": "identity over all vectors", "anchors": ["interface/ceed-preconditioning.c:CeedSingleOperatorMultigridLevel", "interface/ceed-preconditioning.c:CeedOperatorMultigridLevelCreate"]}
{"id": "C39", "title": "Context labels on composite operators reach all matching sub-operators", "statement": "Asking a composite operator of non-composite sub-operators for a context field gives a label exactly if some sub-operator context registered it, provided those that did agree on type and number of values. Setting values through that label, when it succeeds, has on every sub-operator context that had registered the field when the label was made the effect of that context's own set call, leaves every other context as it was and marks every sub-operator for re-assembly; it succeeds when the sub-operators are still those of that time and each of these contexts would accept the values; reading through the label afterwards, or from any of these contexts, returns the values set. This holds over every history in which no QFunction has been given another context since the label was made and the contexts have not been over-released. Findings: with differing types or numbers of values the freed label is dereferenced; a composite sub-operator makes the label routine dereference NULL; after another sub-operator is added the label is refused for ever and asking again returns it; a field registered after the label was made is silently missed; a set that fails at one context leaves earlier ones changed and leaks a reference on the failing one; after CeedQFunctionSetContext the label writes at the old offset into the new context; a label obtained through one operator is then refused by another operator that shares the context.", "quantifier": "all composite operators, registered fields and histories of set calls", "why_tests_cant": "all layouts and histories", "anchors": ["interface/ceed-operator.c:CeedOperatorGetContextFieldLabel", "interface/ceed-operator.c:CeedOperatorContextSetGeneric", "interface/ceed-operator.c:CeedOperatorContextGetGenericRead"]}
{"id": "C40", "title": "Active vector lengths are reported correctly", "statement": "CeedOperatorGetActiveVectorLengths on a single operator returns the common L-vector size of the active fields of each side, and -1 exactly if there is none. On a tree of composite operators whose known sizes agree it never fails and returns the common size or -1, and after as many queries as the tree is deep it returns every size some sub-operator knows. AddSub rejects a conflicting sub-operator; a composite of single operators always reports sizes that all its sub-operators share or leave open. Findings: the first query of a composite may return -1 although the sub-operators know the sizes; sizes a sub-operator learns after it was added are not checked; checking an empty composite fixes its sizes to zero so that nothing can be added; a rejected sub-operator can fix a size of the composite.", "quantifier": "all histories of AddSub, SetField and length queries", "why_tests_cant": "all orders of calls", "anchors": ["interface/ceed-operator.c:CeedOperatorGetActiveVectorLengths", "interface/ceed-operator.c:CeedCompositeOperatorAddSub"]}
{"id": "C41", "title": "JiT source inclusion is complete and repeats no file", "statement": "If CeedLoadSourceToBuffer succeeds and directives stand at the start of their lines, the nonblank lines of the buffer (up to indentation) are the lines of the root file and of exactly the files reachable from it through local and ceed include lines, every file once under its normalised path and in order, without '#pragma once', standard headers and expanded include lines; wherever a file includes another, all lines of the included file stand before the lines after the include line; and no reachable file is on an include cycle. If all reachable files are readable, nonempty, have a newline after each directive, resolvable include lines and no cycle, loading succeeds. Findings: a cycle of headers protected by '#pragma once' recurses without end; a character right before a directive on its line is lost; a directive on an unterminated last line is undefined behaviour; an empty header is an error.", "quantifier": "all include graphs", "why_tests_cant": "all graphs; tests use one file", "anchors": ["interface/ceed-jit-tools.c:CeedLoadSourceToInitializedBuffer", "interface/ceed-jit-tools.c:CeedNormalizePath"]}
{"id": "C42", "title": "Path normalisation keeps the meaning of a path", "statement": "For an absolute path without empty components, CeedNormalizePath succeeds exactly if every '..' other than the last component has at least two (resolved) directories above it; the result is the resolved directories followed by the last component, so it names the same file, contains no '.' or '..' except possibly as last component, and two accepted paths (last component an ordinary name) have equal normal forms exactly if they name the same file. Findings: '..' with one directory above it ('/a/../b') is rejected as malformed; '/../b' reads before the start of the string; an empty component before '..' ('/a//../b') yields a path to another file.", "quantifier": "all strings", "why_tests_cant": "all strings", "anchors": ["interface/ceed-jit-tools.c:CeedNormalizePath"]}
{"id": "C43", "title": "Evaluation at arbitrary points is the tensor Chebyshev expansion and agrees with the basis", "statement": "CeedBasisApplyAtPoints of a tensor basis on one element gives at every point the product over directions of one-dimensional Chebyshev expansions of the nodal basis functions (derivative in one direction for the gradient); transpose mode is its adjoint (ApplyAdd adds, if the Chebyshev basis is not collocated); at the quadrature points it agrees with CeedBasisApply when the map to coefficients interpolates the basis. Guard: at least two 1D quadrature points and, for the transpose, at least one point. Finding: with zero points the transpose returns the image of coefficients left by an earlier call.", "quantifier": "all dimensions, sizes, numbers of points, coordinates and inputs, all three contraction kernels", "why_tests_cant": "equality of an algorithm with a formula for all dimensions, points and inputs", "anchors": ["interface/ceed-basis.c:CeedBasisApplyAtPoints_Core", "interface/ceed-basis.c:CeedBasisApplyAtPoints", "interface/ceed-basis.c:CeedBasisGetChebyshevInterp1D"]}
{"id": "C44", "title": "Operators on the optimised CPU backends apply the same finite element formula", "statement": "CeedOperatorApplyAdd on the optimised CPU backends (the default resource; active inputs and outputs restricted block by block, with any block size) adds to every output vector exactly the transposed restriction of the integrated QFunction values, and CeedOperatorApply overwrites with it; nothing else changes, whatever applications and vector changes came before; hence every history of vector changes and applications ends with the same vectors as on the reference backend. Guards: fields as in C28/C31, active vectors of exactly the length of the restriction, active input not an output. Findings: applied in place, later blocks read entries already changed (ref is right); a longer active vector fails (ref accepts it); of two outputs without basis sharing vector and restriction one contribution is lost silently.", "quantifier": "all operators, QFunctions, block sizes, element counts, inputs, histories of set/take/apply/applyadd; any commutative ring, all three contraction kernels", "why_tests_cant": "equality of two drivers with a formula for all operators, block sizes and histories; the last, partial block and shared restrictions depend on combinations tests do not enumerate", "anchors": ["backends/opt/ceed-opt-operator.c:CeedOperatorApplyAdd_Opt", "backends/opt/ceed-opt-operator.c:CeedOperatorSetupFields_Opt", "backends/opt/ceed-opt-operator.c:CeedOperatorInputBasis_Opt", "backends/opt/ceed-opt-operator.c:CeedOperatorOutputBasis_Opt"]}
{"id": "C45", "title": "The Lagrange basis interpolates and differentiates polynomials exactly", "statement": "Whenever CeedBasisCreateTensorH1Lagrange creates a basis, with any numbers of nodes and points and both quadrature modes, its 1D matrices map the values of any polynomial of degree below P at the nodes (those of CeedLobattoQuadrature(P)) to its exact values and derivatives at the quadrature points; at a point that is a node the row is a unit row, so P Gauss-Lobatto points give a collocated basis. It creates one unless the quadrature iterations divide by zero or nodes coincide. Finding: for P = 1, or one Gauss-Lobatto point, sizes the function accepts, success is returned and no basis is created (CEED_ERROR_HANDLER=return; else the process aborts).", "quantifier": "all P, Q, dim, num_comp, quadrature modes, all polynomials of degree < P", "why_tests_cant": "exactness for all degrees and all polynomials; tests sample a few P, Q and polynomials with tolerances", "anchors": ["interface/ceed-basis.c:CeedBasisCreateTensorH1Lagrange"]}
{"id": "C46", "title": "Quadrature points are Newton iterates for Legendre polynomials", "statement": "CeedGaussQuadrature, for every Q >= 1, writes exactly Q points and weights, symmetric, point i being the result of Newton's method for the Legendre polynomial P_Q from -cos(pi(2i+1)/(2Q)), stopped at the first iterate y with |P_Q(y)| <= 10 eps or after 101 steps, with weight 2/((1-x^2)P_Q'(y)^2), positive exactly for points inside (-1,1). CeedLobattoQuadrature, for every Q >= 2, with or without weights, sets the end points +-1 and their weights 2/(Q(Q-1)) exactly, is symmetric, has positive weights 2/(Q(Q-1)P_(Q-1)(y)^2), and stops when |P_(Q-1)'(y)| is at rounding level or after 101 steps; Q < 2 is an error. Guard: no iterate hits a zero of the denominator. Findings: Q = 0 is not rejected for Gauss and writes outside the arrays; the Lobatto step is not Newton's (factor Q for Q-1 in the derivative), convergence is only linear.", "quantifier": "all Q, all eps, all output arrays long enough", "why_tests_cant": "all sizes; symmetry and positivity for every Q, the meaning of the computed derivative", "anchors": ["interface/ceed-basis.c:CeedGaussQuadrature", "interface/ceed-basis.c:CeedLobattoQuadrature"]}
{"id": "C47", "title": "CeedBasisCreateProjection transfers functions between nested spaces", "statement": "For two bases of the same dimension, FE space and quadrature, with interpolation to quadrature points of basis_to of full column rank, the projection matrices (1D for two tensor bases, full otherwise, one gradient matrix per direction for H1) are, up to replacing entries below 10 eps by zero, the least-squares best approximation at the quadrature points of the functions (derivatives) of basis_from by functions of basis_to. If the space of basis_from lies in that of basis_to (and no entry is rounded), the created basis is consistent, has the nodes of basis_from and as points the nodes of basis_to, and for every u applying it and then interpolating with basis_to gives exactly what basis_from gives, in INTERP and, per direction, GRAD mode, for any dimension, component and element count; the projection of a space to itself is the identity. Different numbers of quadrature points, different FE spaces and too few points are refused. Findings: only the total number of points is compared, so two tensor bases of different dimension with the same total are accepted: the 1D matrix of basis_to is read past its end, or only its first rows are used and the result does not have the nodes of basis_from.", "quantifier": "all bases (tensor and non-tensor, H1, H(div), H(curl)), all dimensions and sizes, all u, exact arithmetic", "why_tests_cant": "tests project a few polynomials between two fixed bases; the claim is for all bases, dimensions and coefficients", "anchors": ["interface/ceed-basis.c:CeedBasisCreateProjection", "interface/ceed-basis.c:CeedBasisCreateProjectionMatrices"]}
{"id": "C48", "title": "The gallery mass and Poisson QFunctions are the weak mass and Laplace operators", "statement": "For every number of points Q and arrays as long as the declared fields (any Jacobians, weights, data): Mass{1,2,3}DBuild followed by MassApply (Vector3MassApply) gives at every point and component w det(J) u and writes nothing else. Poisson{1,2,3}DBuild followed by the matching Poisson apply (one or three components) gives, for any invertible Jacobians with inverse X = dX/dx, w det(J) X X^T grad u per direction and component and writes nothing else; tested with any t the result is w det(J) (grad t).(grad u) in physical gradients, hence symmetric and nonnegative where w det(J) is. A singular Jacobian at any point makes the Poisson builds divide by zero. Identity copies and Scale multiplies exactly the first size*Q entries. No array access is out of bounds. Finding: the gallery Scale has no context although it reads the size through the context pointer: used as created it dereferences NULL.", "quantifier": "all Q, Jacobians, weights, inputs, dimensions 1 to 3, one or three components, exact arithmetic", "why_tests_cant": "tests apply a few of these functions on one affine mesh (t402, t5xx, ex1/ex2); a transposed or cyclically wrong cofactor is invisible for symmetric or diagonal Jacobians, and agreement for all invertible Jacobians is an algebraic identity", "anchors": ["include/ceed/jit-source/gallery/ceed-mass1dbuild.h", "include/ceed/jit-source/gallery/ceed-mass2dbuild.h", "include/ceed/jit-source/gallery/ceed-mass3dbuild.h", "include/ceed/jit-source/gallery/ceed-massapply.h", "include/ceed/jit-source/gallery/ceed-vectormassapply.h", "include/ceed/jit-source/gallery/ceed-poisson1dbuild.h", "include/ceed/jit-source/gallery/ceed-poisson2dbuild.h", "include/ceed/jit-source/gallery/ceed-poisson3dbuild.h", "include/ceed/jit-source/gallery/ceed-poisson2dapply.h", "include/ceed/jit-source/gallery/ceed-poisson3dapply.h", "include/ceed/jit-source/gallery/ceed-vectorpoisson3dapply.h", "include/ceed/jit-source/gallery/ceed-identity.h", "include/ceed/jit-source/gallery/ceed-scale.h", "gallery/scale/ceed-scale.c:16-24"]}
{"id": "C49", "title": "Operators at points add exactly the point-wise weak form, element by element", "statement": "For a CeedOperator created with CeedOperatorCreateAtPoints on the CPU backends, with any number of elements, a different positive number of points in each, fields on nodes with a tensor basis (values or gradients) or directly on the points, weights, passive and active fields, and fields sharing vector and restriction: CeedOperatorApplyAdd adds to every entry of every output vector the transposed restriction of the sum over the points of the element of the basis functions (evaluated at the point by their Chebyshev expansion) times the QFunction output there, computed from the inputs evaluated at that point, and changes no other vector; CeedOperatorApply overwrites instead. The result does not depend on what earlier applications left behind (E-vectors, vector states, Chebyshev work vectors): any history of applications and changes of the vectors, including the point coordinates, equals the one with a new operator per application. Guards: active vectors of nodal fields have exactly the L-vector length, neither the active input nor the coordinate vector is an output, accumulating bases are not collocated, the QFunction vector length divides every point count. Findings: a second active input, or one of two outputs, on the points with the same vector and restriction is read as zero, or lost; an identity QFunction with a basis on its output fails; an element without points adds the contribution of stale coefficients; a CEED_EVAL_NONE input on nodes is accepted but read at the wrong place.", "quantifier": "all operators within the guards, meshes, points, vectors, kernels and histories of applications, exact arithmetic", "why_tests_cant": "t590-t599 use one or two meshes with fixed points; aliasing of E-vectors, offsets into the points of earlier elements and state left in the bases only show for particular combinations of fields and histories", "anchors": ["backends/ref/ceed-ref-operator.c:673-1073", "interface/ceed-operator.c:905-960", "interface/ceed-operator.c:1054-1076"]}
{"id": "C50", "title": "Assembling the QFunction of an operator at points gives its matrix at every point, and leaves later applications right", "statement": "For an operator at points within the guards of C49, with active inputs and outputs on nodes, CeedOperatorLinearAssembleQFunction (and its BuildOrUpdate form) returns an array that for each element, one after the other, holds [active input component, active output component, point of the element]: the value of that output component at the point for a unit value of that input component, zero for the other active ones, and the actual passive inputs. For a QFunction linear in its active inputs, this matrix times the point values of any active vector is what CeedOperatorApply integrates at the point. It holds after any history of changes of the vectors, applications and assemblies that does not end with an application, or of any kind if there is a single active input component; applications after any such history still compute the weak form. No active input or output, or an active one on the points, is an error. Guard for the first assembly: for each active output j there is an input j, which is not the weight and, after an application, not a CEED_EVAL_NONE input. Findings: without the guard the weight is zeroed for good, the passive data of the last element is zeroed, or NULL is dereferenced; assembling after an application with several active components uses stale values; the restriction returned does not describe the array.", "quantifier": "all operators within the guards, meshes, points, vectors, kernels and histories, exact arithmetic", "why_tests_cant": "the tests assemble a fresh operator with one order of the fields and a few points; what an earlier application leaves in the Q-vectors, and which Q-vector is zeroed, depends on the history and on the order of the fields", "anchors": ["backends/ref/ceed-ref-operator.c:1079-1314", "interface/ceed-preconditioning.c:1876-1990"]}
{"id": "C51", "title": "The assembled diagonal of an operator at points agrees with the operator", "statement": "For an operator at points on the reference backend CeedOperatorLinearAssembleDiagonal overwrites a vector with the diagonal of the operator's matrix (entry q is entry q of the result of CeedOperatorApply for the unit vector q), and CeedOperatorLinearAssembleAddDiagonal adds it, after any history of changes of vectors, applications, and assemblies of the QFunction and of the diagonal; the other vectors of the caller, except passive outputs, are unchanged, and later applications (C49) and assemblies of the QFunction (C50, also after an application) are right. Conditions: those of C49; the QFunction is linear in the active inputs; all active fields have the L-vector size of the diagonal; the active restrictions have no orientations and the nodes of an element have different places; an active input and an active output have the same restriction, or restrictions of different element sizes and without common places. An operator that is not square is rejected. Findings: passive outputs of the operator are modified by the assembly of the diagonal; couplings between two active fields whose restrictions have the same size on the element appear on the diagonal; flipped nodes of oriented restrictions give diagonal entries of the wrong sign; couplings of repeated nodes of an element are missing.", "quantifier": "all linear operators at points, numbers of points per element, histories, vectors, bases, sizes, values in every commutative ring", "why_tests_cant": "matrix identity for all operators and histories; tests compare a few fixed operators right after creation", "anchors": ["backends/ref/ceed-ref-operator.c:CeedOperatorLinearAssembleAddDiagonalAtPoints_Ref", "interface/ceed-preconditioning.c:CeedOperatorLinearAssembleDiagonal", "interface/ceed-preconditioning.c:CeedOperatorLinearAssembleAddDiagonal"]}
{"id": "C52", "title": "Symmetric Schur decomposition diagonalises when it reports success", "statement": "For a symmetric n by n matrix A (n > 1, n^4 fits a CeedInt) CeedSymmetricSchurDecomposition, in exact arithmetic, either returns Q (in mat) and lambda with Q orthogonal, the diagonal of Q^T A Q equal to lambda, the squares of its other entries adding up to at most 4 (n-1) n^4 eps^2 (eps = CEED_EPSILON) and those next to the diagonal smaller than eps, hence the squared residuals |A q_i - lambda_i q_i|^2 add up to at most the same bound; or returns CEED_ERROR_MINOR; or divides by zero, which happens only if the first unit vector is in an invariant subspace of A of dimension at most n - 2. Nothing is read or written out of bounds. Every symmetric 2 by 2 matrix whose entry off the diagonal is not of absolute value eps is decomposed, exactly if that entry is larger than eps. n <= 1 gives CEED_ERROR_UNSUPPORTED. Findings: a diagonal matrix of size 3 or more (any matrix whose first column is zero below the diagonal) gives 0/0, NaN in floating point; an entry next to the diagonal of absolute value exactly eps is neither accepted nor rotated away, and the iteration fails to converge.", "quantifier": "all symmetric real matrices, all sizes, all tolerances, all initial contents of the work arrays", "why_tests_cant": "statement about all matrices and all numbers of iterations; the test decomposes one 4 by 4 matrix", "anchors": ["interface/ceed-basis.c:CeedSymmetricSchurDecomposition", "interface/ceed-basis.c:CeedGivensRotation", "interface/ceed-basis.c:CeedHouseholderReflect"]}
{"id": "C53", "title": "Simultaneous diagonalisation solves the generalised eigenproblem", "statement": "For symmetric n by n matrices A and B with x^T B x >= delta |x|^2, delta > 0 (n > 1, n^4 fits a CeedInt), CeedSimultaneousDiagonalization, in exact arithmetic, either returns X and lambda such that the diagonal of X^T A X is lambda, the squares of its other entries add up to at most b = 4 (n-1) n^4 eps^2 (eps = CEED_EPSILON), the squares of the entries of X^T B X - I add up to at most b / delta^2, |lambda_i| <= |lambda_j| for i <= j, and X is invertible; or returns CEED_ERROR_MINOR; or divides by zero, which happens only if the first unit vector is in an invariant subspace of dimension at most n - 2 of B or of the congruent matrix S^T A S of the second decomposition (with S^T B S of diagonal 1), never because of the square roots. Nothing is read or written out of bounds. n <= 1 gives CEED_ERROR_UNSUPPORTED. Findings: B the identity (or diagonal) of size 3 or more gives NaN for all A; the values are sorted by absolute value, while the documentation calls the function equivalent to LAPACK sygv, which sorts in ascending order.", "quantifier": "all pairs of symmetric real matrices with B positive definite, all sizes, all tolerances", "why_tests_cant": "statement about all pairs of matrices; the test diagonalises one 4 by 4 pair", "anchors": ["interface/ceed-basis.c:CeedSimultaneousDiagonalization"]}
{"id": "C54", "title": "The FDM element inverse solves a separable system close to the element operator", "statement": "For an operator whose first active input has a tensor basis with at least two nodes per direction (P^4 fits a CeedInt), nonzero quadrature weights, a one-dimensional mass matrix M with u^T M u >= delta |u|^2, delta > 0, and an assembled QFunction with (components times input modes)^2 entries per point, CeedOperatorCreateFDMElementInverse, in exact arithmetic, succeeds; or returns CEED_ERROR_MINOR (iteration not converged); or divides by zero, because of a coordinate invariant subspace (C52, C53) or because the average a_e of an element is zero. If it succeeds, the weights are nonnegative, u^T M u <= mu |u|^2, b = 4 (P-1) P^4 eps^2 satisfies b / delta^2 <= beta^2, beta < 1, nodes * eps <= [interp] + [grad] dim * pert * (1 - beta) / mu (the diagonal is not clipped), and the collocation test does not mistake the eigenvectors for the identity, then there are symmetric M', K' with (u^T M u - u^T M' u)^2 <= b / delta^2 (u^T M' u)^2 and (u^T K u - u^T K' u)^2 <= b (u^T M' u)^2 for all u, K the one-dimensional stiffness plus pert I (pert = 1e-6 in three dimensions or more, else 1e-4), such that applying the new operator (any CPU backend, with or without cached data) adds the transposed restriction of z, z the solution of a_e ([interp] M' x...x M' + [grad] sum_d M' x..K'..x M') z = restriction of the input, for every element and component; nothing else changes. The matrix of an element whose assembled values are a times the quadrature weight is a times the same sum with M and K - pert I, and a_e is a when every assembled value that is not negligible is a times the weight. Without active input the call returns CEED_ERROR_BACKEND, without tensor basis CEED_ERROR_MINOR, with one node CEED_ERROR_UNSUPPORTED. Findings: assembled values of both signs can average to zero and give infinite data; the loop over the assembled values uses the modes of the inputs for the outputs too and reads out of bounds if they differ (value and gradient in, value out); with a collocated basis of three or more nodes the call never succeeds; the check for tensor bases is unreachable.", "quantifier": "all tensor bases (any dimension, nodes, points, components), all restrictions, all assembled arrays, all input and output vectors, all epsilons", "why_tests_cant": "statement about all bases, coefficients and vectors; the tests apply the inverse on one mesh and compare with loose tolerance", "anchors": ["interface/ceed-preconditioning.c:CeedOperatorCreateFDMElementInverse", "interface/ceed-preconditioning.c:CeedBuildMassLaplace"]}
{"id": "C55", "title": "QFunction assembly on the optimised CPU backends equals that of the reference backend", "statement": "On the optimised backends (/cpu/self/opt/*, avx, xsmm), for an operator with active inputs and outputs that is not just two restrictions, whose weight inputs are passive, and in which no two active inputs without basis (CEED_EVAL_NONE) read the same restriction, CeedOperatorLinearAssembleQFunction (and BuildOrUpdate/Update) succeeds after every history of vector changes, applications and assemblies in which the operator was not applied since it was first assembled or was assembled again since; the array holds, in the documented layout (element, input component, output component, point), the QFunction's values at unit inputs with the current passive inputs. It is the array the reference and blocked backends return, whatever the block sizes and kernels, also when the last block is not full. Assembling never disturbs later applications: CeedOperatorApply still computes the restricted, integrated QFunction values (C44). Without active inputs or outputs, and for two restrictions, the call returns CEED_ERROR_BACKEND. Findings: an application between two assemblies makes the second one wrong (stale active q_vecs, as C33); with two active CEED_EVAL_NONE inputs on one restriction already the first assembly is wrong, while the first one on the reference backend is right.", "quantifier": "all operators, histories, vectors, block sizes, QFunctions and contraction kernels", "why_tests_cant": "statement about all histories, operators and block sizes; tests assemble a few operators once", "anchors": ["backends/opt/ceed-opt-operator.c:CeedOperatorLinearAssembleQFunctionCore_Opt", "backends/opt/ceed-opt-operator.c:CeedOperatorSetupInputs_Opt"]}
{"id": "C56", "title": "Vectors on the memcheck backend behave like those of the ref backend for clients that keep the rules, and writes through read-only pointers are reported", "statement": "On the memcheck backend (/cpu/self/memcheck/*, private buffer per vector, access to fresh copies of it) every finite history of CeedVector calls, client accesses through granted pointers and accesses to client arrays gives exactly the outcomes of the ref backend (return codes, values read, taken pointers; no undefined behaviour), whatever NAN is, provided the client: reads no entry that was never written; reads an array lent with CEED_USE_POINTER only after CeedVectorRestoreArray or CeedVectorSyncArray and before the vector changes again, never writes it, lends it to one vector, and lets it be up to date when the vector is destroyed or given another array; does not call Scale, AXPY, AXPBY, PointwiseMult, Reciprocal on vectors in use; calls SyncArray and SetValueStrided on vectors with data only; passes NULL with CEED_COPY_VALUES only; and does not call Reciprocal where the state is zero on one backend only. If a client holding a pointer granted for reading writes through it, the last CeedVectorRestoreArrayRead returns CEED_ERROR_BACKEND exactly if the bytes of some entry differ from those granted; earlier ones succeed. Findings, each breaking the claim without the corresponding rule: Scale and the other operations with a backend function ignore the access lock (the result is lost, or an innocent reader is accused) and do not advance the state; PointwiseMult into a fresh vector followed by Reciprocal fails with CEED_ERROR_INCOMPLETE; a reported write leaves the written copy in place for all later readers, who are accused in turn; client writes to lent arrays are not seen, and results do not reach them at CeedVectorDestroy; SyncArray and SetValueStrided succeed on vectors without data.", "quantifier": "all histories of calls and accesses, all vectors and lengths, all scalars, any NAN", "why_tests_cant": "statement about all histories on two backends; the tests run each fixed program on each backend", "anchors": ["backends/memcheck/ceed-memcheck-vector.c:CeedVectorSetArray_Memcheck", "backends/memcheck/ceed-memcheck-vector.c:CeedVectorSyncArray_Memcheck", "backends/memcheck/ceed-memcheck-vector.c:CeedVectorRestoreArrayRead_Memcheck", "interface/ceed-vector.c:CeedVectorScale"]}
{"id": "C57", "title": "QFunction contexts on the memcheck backend behave like those of the ref backend for clients that keep the rules, and writes through read-only pointers are reported", "statement": "On the memcheck backend (private buffer, access to fresh copies of it) every finite history of CeedQFunctionContext calls (SetData in the three copy modes, TakeData, Get/RestoreData, Get/RestoreDataRead, register, label, set and read fields, SetDataDestroy, Reference, Destroy, size, state), client accesses through granted pointers and accesses to client blocks gives exactly the outcomes of the ref backend (return codes, bytes and field values read, taken pointers; no undefined behaviour), provided the client: sets data from blocks of its own in host memory that have the stated size; sets, takes back or lets the destroy function see data only while nobody reads; accesses bytes and fields inside the stated size only; neither writes nor frees a lent block, and reads it only outside write access; uses a destroy function that succeeds and only once there are data for it; and does not compare states after a destroy function ran. Lent blocks are up to date whenever no write access is out. If a client holding a pointer granted for reading writes through it, the last CeedQFunctionContextRestoreDataRead returns CEED_ERROR_BACKEND exactly if some byte differs from those granted; earlier ones succeed. Findings, each breaking the claim without the corresponding rule: TakeData while somebody reads makes the later RestoreDataRead compare with a NULL pointer; SetData while somebody reads leaves the old data to later readers, accuses an innocent reader and reads past the old copy if the new data are larger; a refused SetData loses the old data; NULL with CEED_USE_POINTER or CEED_OWN_POINTER is dereferenced; the destroy function gets NULL after CEED_COPY_VALUES and runs during read access; on the ref backend a destroy function registered before the first data makes SetData and Destroy fail for ever, and a failing one leaves the context locked; a reported write leaves the written copy in place for all later readers.", "quantifier": "all histories of calls and accesses, all sizes, data, fields and destroy functions", "why_tests_cant": "statement about all histories on two backends; the tests run each fixed program on each backend", "anchors": ["backends/memcheck/ceed-memcheck-qfunctioncontext.c:CeedQFunctionContextSetData_Memcheck", "backends/memcheck/ceed-memcheck-qfunctioncontext.c:CeedQFunctionContextDataDestroy_Memcheck", "backends/memcheck/ceed-memcheck-qfunctioncontext.c:CeedQFunctionContextRestoreDataRead_Memcheck", "interface/ceed-qfunctioncontext.c:CeedQFunctionContextDestroyData", "interface/ceed-qfunctioncontext.c:CeedQFunctionContextTakeData"]}
{"id": "C58", "title": "CeedQFunctionApply on the memcheck backend has the outcomes of the ref backend for functions that keep the rules, and its success certifies the function", "statement": "Over whole histories (vector calls, contexts created, set and read, QFunctions applied to vectors, the user's function being any program that reads and writes its arrays and its context) CeedQFunctionApply on memcheck gives exactly the outcomes of ref - return codes, values seen by the function and by the client, which vectors and contexts stay locked - provided the function does not write its inputs nor a context it has for reading, reads output entries only after writing them, and, when it returns 0, has set the first size*Q entries of every output to non-NaN values; the source file, if one was named, can be found; and the client keeps the rules of C56. Conversely, success on memcheck from any state certifies the function: every entry below size*Q of every output was written in this call, the last value written is not a NaN and is what the client reads next; where the function wrote an input nobody else was reading, it wrote the bytes that were there; a context given for reading that nobody else reads has unchanged data. Findings: an error returned by the function, or an output that cannot be taken, leaves inputs, outputs and context locked on both backends; a NaN result is refused by memcheck, leaving output and context locked; a source file that cannot be found makes memcheck fail after the function ran; entries past size*Q of a longer output turn to NAN on memcheck; functions that add to their outputs silently differ; a write to a read-only context is reported only after the outputs have changed, and is held against later calls.", "quantifier": "all histories of calls, all user functions, all numbers and sizes of fields, all Q and vector lengths; for the certificate all states", "why_tests_cant": "statement about all user functions and histories on two backends; the tests run fixed functions that keep the rules", "anchors": ["backends/memcheck/ceed-memcheck-qfunction.c:CeedQFunctionApply_Memcheck", "backends/ref/ceed-ref-qfunction.c:CeedQFunctionApply_Ref", "interface/ceed-qfunction.c:CeedQFunctionApply"]}
{"id": "C59", "title": "Element restrictions on the memcheck backend are those of ref up to the L-vector order behind CEED_STRIDES_BACKEND, and code that goes through the reported layouts cannot tell the backends apart", "statement": "For every restriction created on memcheck with index arrays of documented length and indices in range (blocked or not; standard, strided, oriented, curl-oriented with two or more nodes; signed, unsigned or unoriented), the no-transpose apply puts into every E-vector position (padding lanes included) the value specified by the user's description, where CEED_STRIDES_BACKEND means the strides {num_comp, 1, num_comp*elem_size} reported by CeedElemRestrictionGetLLayout; the transpose adds exactly the adjoint contributions; gather and scatter are adjoint; no access leaves the arrays, also block by block; one block equals that slice of the whole; the multiplicity counts the references to each entry. For strided restrictions on ref and on memcheck, with user or backend strides, E[node,component,element] = L[l_layout(node,component,element)]; with backend strides the transpose adds E[node,component,element] to exactly that entry and changes nothing else. Hence corresponding L-vectors (equal through the reported layouts) are gathered to equal element values, and stay corresponding under scatters. Without backend strides both backends give the same restriction, the same transposes and the same E-vectors. Findings: an L-vector filled in ref's order without asking for the layout is gathered permuted on memcheck, without error; entries of an output vector beyond the E-vector size survive on ref and become NaN on memcheck.", "quantifier": "all descriptions of restrictions, all block sizes, all numbers of elements, nodes and components, all vectors over any commutative ring of scalars", "why_tests_cant": "two index formulas must agree for all sizes and strides; the tests run small fixed meshes, and the memcheck backend only on them", "anchors": ["backends/memcheck/ceed-memcheck-restriction.c", "backends/ref/ceed-ref-restriction.c", "interface/ceed-elemrestriction.c:CeedElemRestrictionGetLLayout"]}
{"id": "C60", "title": "At-points restrictions: element offsets, point counts and the E-vector size describe what the apply does", "statement": "For an at-points restriction created from a well-formed array (element ranges, then point indices within the L-vector), on ref and memcheck: CeedElemRestrictionGetNumPointsInElement returns the length of the element's range; CeedElemRestrictionGetAtPointsElementOffset returns the E-vector position where the element starts, i.e. after the apply, component j of point i of the element is at offset + j*num_points + i and holds the L-vector value of that point; CeedElemRestrictionGetMin/MaxPointsInElement bound the count of every element and are attained; the E-vector has room for the maximal number of points from the offset of every element and is not longer than that; applying one element gives the values the whole apply gives. Findings: the documented address i*e_layout[0] + j*e_layout[1] + elem_offset is wrong for two or more components (the reported layout is {1,0,0}); the element number is not checked, one past the last element returns a meaningless count with success and beyond that reads outside the array; the room added for the last element is never written by the apply.", "quantifier": "all numbers of elements, points and components, all well-formed offset arrays, all vectors", "why_tests_cant": "statement about all distributions of points over elements; the tests use few layouts and mostly equal counts", "anchors": ["interface/ceed-elemrestriction.c:CeedElemRestrictionGetAtPointsElementOffset", "interface/ceed-elemrestriction.c:CeedElemRestrictionGetMinMaxPointsInElement", "interface/ceed-elemrestriction.c:CeedElemRestrictionGetNumPointsInElement", "backends/ref/ceed-ref-restriction.c:CeedElemRestrictionApplyAtPointsInElement_Ref_Core"]}
{"id": "C61", "title": "JiT source roots and defines: one append-only list per hierarchy of contexts", "statement": "In every history of CeedInit, CeedAddJitSourceRoot/Define, CeedGet/RestoreJitSourceRoots/Defines, CeedSetDelegate/CeedSetObjectDelegate (of a context without a parent that is not above the new parent), CeedSetOperatorFallbackResource and CeedGetOperatorFallbackCeed, each context has exactly one top-most context, and Get through any context of a hierarchy shows the strings accepted by its top-most context, complete and in order. An addition is accepted exactly if as many Restores as Gets of that list were made there and is refused with CEED_ERROR_ACCESS otherwise; once accepted every context of the hierarchy sees it at the end, no other list changes, and all reference counts are as before. A client that restores only what it got, through the hierarchy it got it from, and makes no context a delegate while it holds that context's own array, reads through every array it still holds what it saw at the Get. A new operator fallback context shows the default root followed by the source roots of its origin. Findings: the fallback gets the defines as source roots and no defines; roots added later do not reach it; a refused addition leaks a reference to the top context; an unmatched Restore blocks additions and then lets one move the array under a reader; CeedSetDelegate while an array is out moves the Restore to the wrong counter; roots added before a context becomes a delegate vanish; a refused CeedDestroy has already given up the last reference, so that the next Restore frees the context.", "quantifier": "all histories of these calls over any number of contexts and any depth of delegation, all strings", "why_tests_cant": "the claim is about every interleaving of additions, readers and changes of the hierarchy; the copying to the fallback is only observable when a define and a fallback occur together", "anchors": ["interface/ceed.c:CeedGetParent", "interface/ceed.c:CeedAddJitSourceRoot", "interface/ceed.c:CeedAddJitDefine", "interface/ceed.c:CeedGetJitSourceRoots", "interface/ceed.c:CeedRestoreJitSourceRoots", "interface/ceed.c:CeedGetJitDefines", "interface/ceed.c:CeedRestoreJitDefines", "interface/ceed.c:CeedGetOperatorFallbackCeed", "interface/ceed.c:CeedSetOperatorFallbackResource", "interface/ceed.c:CeedDestroy"]}
{"id": "C62", "title": "The list of registered backends", "statement": "However often CeedRegisterAll is called, up to 32 backends are registered once and in order, and every call reports success. CeedRegistryGetList reports the compiled backend if the one registered first is the only compiled one, and CEED_ERROR_MAJOR if none is. Finding: its behaviour is undefined exactly if a backend other than the one registered first is compiled (it writes *resources[i] instead of (*resources)[i]).", "quantifier": "all tables of registered backends, any number of calls", "why_tests_cant": "no test calls CeedRegistryGetList, and the stray writes may go unnoticed", "anchors": ["interface/ceed.c:CeedRegistryGetList", "interface/ceed-register.c:CeedRegisterAll"]}
{"id": "C63", "title": "Estimates of floating-point operations against the operations executed", "statement": "The reference kernel executes 2*A*B*C*J operations per contraction; interpolation with a non-collocated tensor basis executes, in both directions, the number of elements times CeedBasisGetFlopsEstimate of the direction to the points; the gradient through the collocated gradient executes the estimate if P_1d = Q_1d. CeedOperatorGetFlopsEstimate is the active inputs to the points plus the user's estimate at every point plus the active outputs back, exists exactly if every active field and the QFunction have an estimate (and the number of points fits a CeedInt), and is the sum over the sub-operators for a composite; at points, elements times the points used is at least the number of points, and exceeds it by less than the number of elements on the host. Findings: the transpose estimate does not swap the sizes and is right exactly if P_1d = Q_1d (too large for P_1d < Q_1d, too small for P_1d > Q_1d); the gradient estimate is too small for P_1d < Q_1d; without collocated gradient the gradient costs dim interpolations, the estimate says two; every non-tensor application executes twice its estimate; num_elem * num_qpts overflows CeedInt (undefined) for 3,000,000 elements of 1000 points; the estimate at a point ignores the components and keeps the contraction size constant.", "quantifier": "all bases, dimensions, sizes, numbers of elements, inputs and outputs, lists of fields and sub-operators", "why_tests_cant": "tests compare the estimate with a recorded number; whether it is the number of operations executed is a statement about every size", "anchors": ["interface/ceed-basis.c:CeedBasisGetFlopsEstimate", "interface/ceed-elemrestriction.c:CeedElemRestrictionGetFlopsEstimate", "interface/ceed-operator.c:CeedOperatorGetFlopsEstimate", "backends/ref/ceed-ref-basis.c:CeedBasisApplyCore_Ref", "backends/ref/ceed-ref-tensor.c:CeedTensorContractApply_Ref"]}
{"id": "C64", "title": "The fallback of an operator is a copy of it", "statement": "For every operator that CeedOperatorCheckReady accepts, whose fields were set in any order and each successfully at most once (failed calls and calls on the QFunction allowed), and whose QFunction was made by any history of calls, CeedOperatorGetFallback succeeds if the Ceed has a fallback: the fallback is ready and has the same QFunction fields and vector length, the same restriction, basis and vector for every field, and the same numbers of elements and quadrature points and active lengths; for operators at points also the same points. Asking again gives the same fallback. The fallback of a composite operator consists of the fallbacks of its sub-operators in order, with the common lengths. Findings: a sub-operator without fallback is dereferenced as NULL; the fallback is never refreshed when a field of the operator is changed later; an operator at points that is ready without points, and one with a blank or unset field (C26), make it dereference NULL; the copy of the QFunction loses the read-only declaration of its context and the user's flop estimate, so that the fallback has no estimate.", "quantifier": "all histories building the QFunction and the operator, all numbers of fields, all lists of at most 16 sub-operators", "why_tests_cant": "fallbacks are only exercised on backends without assembly kernels, for a few operators; that re-setting the fields in another order can never be refused is a statement about all histories", "anchors": ["interface/ceed-preconditioning.c:CeedOperatorCreateFallback", "interface/ceed-preconditioning.c:CeedOperatorGetFallback", "interface/ceed-preconditioning.c:CeedQFunctionCreateFallback", "interface/ceed-operator.c:CeedOperatorAtPointsSetPoints", "interface/ceed-operator.c:CeedOperatorSetField"]}
{"id": "C65", "title": "Queries on a ready operator", "statement": "For every operator that CeedOperatorCheckReady accepts, built by any history in which no field name was passed again after a call with it was accepted or refused as incompatible: CeedOperatorGetActiveBases and CeedOperatorGetActiveElemRestrictions succeed exactly when each requested side has active fields and these all use the same object, return that object with one more reference and change no other reference count; CeedOperatorHasTensorBases is true exactly when every field with a basis has a tensor basis; CeedOperatorGetFieldByName gives NULL exactly when the QFunction has no field of that name, and otherwise the field as set by the call with that name; CeedOperatorGetNumArgs is the number of fields of the QFunction. CeedCompositeOperatorGetSubByName finds the first sub-operator last given that non-empty name. Findings: a query refused for several active bases or restrictions leaves two references behind, one of which nobody can release; for composite operators the active queries fail although documented to return NULL.", "quantifier": "all QFunctions, all histories of calls, all numbers of fields, all names, all initial reference counts", "why_tests_cant": "tests query a few operators with one or two fields and never compare reference counts; the claims range over all building histories", "anchors": ["interface/ceed-operator.c:CeedOperatorGetActiveBases", "interface/ceed-operator.c:CeedOperatorGetActiveElemRestrictions", "interface/ceed-operator.c:CeedOperatorHasTensorBases", "interface/ceed-operator.c:CeedOperatorGetFieldByName", "interface/ceed-operator.c:CeedOperatorGetNumArgs", "interface/ceed-operator.c:CeedCompositeOperatorGetSubByName", "interface/ceed-operator.c:CeedOperatorSetName"]}
{"id": "C66", "title": "An operator holds its objects and releases them", "statement": "While an operator lives, every restriction, basis and vector of each of its fields is counted by it. CeedOperatorDestroy (last reference) brings every reference count, and the number of allocated fields and names, back to the value before CeedOperatorCreate, except exactly for what was held by slots that a later call overwrote and by slots whose index is not below the number of accepted calls; for a ready operator whose names were not passed again after being accepted or refused as incompatible everything is released. Findings: an operator given up before it is complete leaks the fields in high slots; setting a field again leaks the old one; a call refused for its active length leaks the field that was set before.", "quantifier": "all QFunctions, all histories of CeedOperatorSetField, CeedOperatorAtPointsSetPoints, CeedOperatorCheckReady and field additions to the QFunction, all initial reference counts", "why_tests_cant": "leaks need particular orders of calls, and tests complete every operator; no test compares reference counts over all histories", "anchors": ["interface/ceed-operator.c:CeedOperatorSetField", "interface/ceed-operator.c:CeedOperatorAtPointsSetPoints", "interface/ceed-operator.c:CeedOperatorDestroy"]}
{"id": "C67", "title": "The arrays of element restrictions are freed once, by their owner, and not while they are read", "statement": "For every history of creating restrictions (standard, oriented, curl-oriented, strided; plain or blocked; any copy mode), taking references and unsigned/unoriented copies, obtaining and restoring offsets and orientations, and destroying handles, in which the client keeps the rules (it passes arrays that are its own, hands an array over once, copies only restrictions that are no copies and that nobody reads, restores what it obtained) and each call succeeds or changes nothing: no call touches freed memory; every array is freed at most once; an array that was not handed over with CEED_OWN_POINTER is never freed by the library; a pointer that was obtained and not restored points to live memory, also after the original of a copy was destroyed; CeedElemRestrictionDestroy fails only while a pointer obtained through the restriction or its original is held, and then frees nothing; when all handles are destroyed every array that the library allocated or was given is freed. Sizes that a creation call accepts keep the padding of blocked restrictions inside the user's arrays. Findings: orientations handed over to a blocked restriction are never freed; a creation that the backend refuses leaks the arrays handed over, the padded arrays and the backend data; a copy made while the original is read can never be destroyed; a restore too many leaves the next reader unprotected; a refused destroy has lowered the count already; a copy of a copy releases the original; CreateBlockedOriented accepts a negative number of elements and reads before the arrays.", "quantifier": "all histories of calls, all numbers of restrictions, copies, handles, readers and arrays", "why_tests_cant": "double frees, leaks and dangling pointers depend on the order of creation, copies, reads and destruction; tests run a few orders with one copy mode each", "anchors": ["interface/ceed-elemrestriction.c:CeedElemRestrictionCreate", "interface/ceed-elemrestriction.c:CeedElemRestrictionCreateBlockedOriented", "interface/ceed-elemrestriction.c:CeedElemRestrictionCreateUnsignedCopy", "interface/ceed-elemrestriction.c:CeedElemRestrictionGetOffsets", "interface/ceed-elemrestriction.c:CeedElemRestrictionRestoreOffsets", "interface/ceed-elemrestriction.c:CeedElemRestrictionDestroy", "backends/ref/ceed-ref-restriction.c:CeedElemRestrictionCreate_Ref"]}
{"id": "C68", "title": "Creating a multigrid level keeps no references and makes the operators it promises", "statement": "For every fine operator (not composite) that was built by any history of SetField and CheckReady calls in which no field is set a second time, and that is ready, and for each of CeedOperatorMultigridLevelCreate, CeedOperatorMultigridLevelCreateTensorH1 and CeedOperatorMultigridLevelCreateH1: no call dereferences NULL (provided that making the projection basis and the multiplicity does not); if the call succeeds, the coarse operator is ready and has exactly the fields of the fine operator, the active ones with the coarse restriction and basis, the others unchanged, and precisely the transfer operators asked for exist, are ready, and map between the fine restriction and the coarse restriction with the new basis, in opposite directions, with the inverse multiplicity as scaling; after these operators are destroyed every reference count of restrictions, bases and vectors is what it was before the call (for the two calls with an interpolation matrix: if at least one transfer operator is asked for). In up to three dimensions exactly P_1d_fine * P_1d_coarse entries of interp_c_to_f are read. Findings: the two calls with an interpolation matrix leak a reference to the basis of the fine operator each time the coarse operator alone is made; calls that fail (no multiplicity vector, no interpolation matrix) leak references; in dimension four, which the basis functions accept, the cube root gives a wrong number of coarse nodes per direction and the call reads past the matrix.", "quantifier": "all ready fine operators with any number of fields, all build histories, all coarse spaces, any choice of transfer operators, any sizes", "why_tests_cant": "tests build one mass or diffusion operator with both transfer operators; leaks depend on which outputs are asked for and do not change any result", "anchors": ["interface/ceed-preconditioning.c:CeedSingleOperatorMultigridLevel", "interface/ceed-preconditioning.c:CeedOperatorMultigridLevelCreate", "interface/ceed-preconditioning.c:CeedOperatorMultigridLevelCreateTensorH1", "interface/ceed-preconditioning.c:CeedOperatorMultigridLevelCreateH1"]}
{"id": "C69", "title": "Access to context data through QFunctions and by the client is exclusive, is always given back, and keeps no references", "statement": "For every history of creating and destroying QFunctionContexts and (non-Fortran) QFunctions, CeedQFunctionSetContext, CeedQFunctionSetContextWritable, and obtaining and restoring context data through any number of QFunctions that may share contexts (both the plain and the inner variant) as well as by the client from the contexts themselves (for writing and for reading), in which the client changes the context or the writable flag of a QFunction, or destroys it, only while it holds no access through it, sets and accesses only contexts to which it has a handle, gives away its last handle to a context only while it has no access of its own to it, and restores only what it obtained: no call touches a freed context; every call except a request for access succeeds; a request is granted exactly if there is no context, or the context has data, nobody writes and - for a writable context, or if the client asks for writing - nobody reads; the lock and the number of readers of a context are exactly the accesses held, at most one writer and then no reader; the context and the writable flag of a QFunction are those set last; unless a plain request was refused, the count of a context is the number of handles plus QFunctions that use it, and it is freed exactly when both are zero. Findings: a refused CeedQFunctionGetContextData leaks a reference (the inner variant does not); changing the writable flag between obtaining and restoring makes the restore fail and the lock stay; replacing the context in between gives back the access of another QFunction, after which a writer and a reader coexist; setting the context that the QFunction is the last owner of uses freed memory; the last destroy of a context frees data that is being read.", "quantifier": "all histories of calls, all numbers of contexts, QFunctions, handles and simultaneous accesses", "why_tests_cant": "the faults need two QFunctions that share a context, or calls between obtaining and restoring; leaks and lost locks do not change any result that a test compares", "anchors": ["interface/ceed-qfunction.c:CeedQFunctionGetContextData", "interface/ceed-qfunction.c:CeedQFunctionRestoreContextData", "interface/ceed-qfunction.c:CeedQFunctionGetInnerContextData", "interface/ceed-qfunction.c:CeedQFunctionRestoreInnerContextData", "interface/ceed-qfunction.c:CeedQFunctionSetContext", "interface/ceed-qfunction.c:CeedQFunctionSetContextWritable", "interface/ceed-qfunctioncontext.c:CeedQFunctionContextDestroy", "interface/ceed-qfunctioncontext.c:CeedQFunctionContextGetData", "interface/ceed-qfunctioncontext.c:CeedQFunctionContextGetDataRead", "interface/ceed-qfunctioncontext.c:CeedQFunctionContextRestoreData", "interface/ceed-qfunctioncontext.c:CeedQFunctionContextRestoreDataRead"]}
