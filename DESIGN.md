# Formal model of TMV in Rocq (Coq 8.16.1)

## Layout

- `properties.jsonl`: the properties, in words.
- `rocq/theories/*.v`: model, specifications, proofs.  Every model definition
  cites the file and lines of `/repo` it models and says what is simplified.
- `rocq/theories/Claims_*.v`: the property theorems.  Each is followed by
  `Print Assumptions`, and the file has `Example`s showing that the hypotheses
  are met by concrete non-trivial cases.
- `MANIFEST.json`: property -> theorem names and status.
- `seeded/LOG.jsonl`: one line per wrong-program experiment.
  `first_failure` is what the experiment observed: the first lemma or theorem rejected in each
  file. `theorems_failed`, in the lines that also have `first_failure`, is coarser: all theorems of
  the claim in a file that did not build. It may include theorems that would still prove, so it
  does not show that each of them detects the edit. A failure can also be of a proof script only,
  where the edited program still meets the claim; the lines known to be so carry a note.
  The last experiments were cut short: of the edits to the model of C55 only three, and for C57
  only those to the shared SymMultMM, tristored and hadj, were run; Polar.v and
  HermSVDecompose.v themselves were not tested against wrong programs.

Theorem names: `Cnn_...` proves the property or a part of it; `..._partial`
proves a strict part and its comment says what is missing; `..._refuted` proves
that the property (or the part its comment names) is false of the code, by a
concrete case.  A property with a `_refuted` theorem has status `partial` in the
manifest unless the refuted part lies outside the property's statement.

## Modelling conventions

1. **Memory level** (standard library only: `Z`, `list`, `lia`).  A memory is a
   finite list of cells or a total function from addresses to values; a view is
   the tuple the C++ object stores (pointer, sizes, steps, conj flag).
   Out-of-range access, division by zero, use of uninitialised or freed storage
   is the outcome `UB`; a C++ exception is the outcome `Throw` with the kind of
   exception; `Ok` is a normal return (`Base.v`).
2. **Algebra level** (mathcomp): algorithms over an arbitrary `fieldType`,
   `numFieldType` or `numClosedFieldType`.  A matrix variable of the program is a
   function of two indices (`FMat.v`); entries outside the declared size are
   other memory, and specifications say that they are left alone.  Arithmetic is
   exact: rounding, overflow, NaN and underflow are outside the model
   (`TMV_Underflow(x)` is `x == 0` where it decides the result, and an arbitrary
   test where it only chooses between equivalent formulas).  Complex types range
   over a `numClosedFieldType`, real types over its real elements.
3. Integers (sizes, steps, addresses) are unbounded.
4. External calls (`std::sort`, `operator new`, printing and parsing one number)
   are universally quantified functions constrained by their documented
   contract, which appears as a premise of the theorem.
5. Compile-time block sizes are universally quantified, with the premise that
   they are positive (and whatever further premise the code needs; where a legal
   value breaks the code there is a `_refuted` theorem).
6. Loops whose termination is not structural carry fuel; out of fuel is `UB`, and
   the theorems exclude it.  Uninitialised work space is a universally quantified
   argument.
7. `TMVAssert` throws at memory level (assertions on) and is a premise at algebra
   level.
8. The `#ifdef BLAS/LAP` branches, OpenMP, SSE kernels, `XDEBUG` blocks and
   memory manager hooks are not modelled; the native code is.

## Properties: model and proof

| id | model file | claims file | how |
|----|-----------|-------------|-----|
| C01, C02, C04 | Perm, PermSpec | Claims_Perm | induction on the interchange list; uniqueness of the interchange representation |
| C03 | Perm, PermMC | Claims_Perm, Claims_PermMx | link to mathcomp `'S_n` and `\det` |
| C05 | PermHeap | Claims_PermHeap | heap of blocks, one step function per public operation; invariant over all histories, counterexample histories |
| C06 | PermMat, PermMatMC, RowPerm | Claims_Perm, Claims_PermMx | per-column reduction to C01; blocked loop = sequence of swaps |
| C07, C08 | Sort | Claims_Sort | `std::sort` as any function meeting its contract; loop invariant of ConvertIndexToPermute |
| C09–C11 | VecView | Claims_VecView | in-bounds invariant by induction on chains of view operations; exactness by `nia` |
| C12 | VecOps | Claims_VecOps | loops over one memory: elementwise result and frame |
| C13, C37 | VecScan | Claims_VecScan, Claims_VecMore | induction on the scan loops |
| C14, C15 | VecOps | Claims_VecArith | forward/backward loops, no-clobber invariant |
| C38, C39 | VecMore | Claims_VecMore | same |
| C16–C18 | IO, IOVec | Claims_IO | streams as character lists; round trip by induction; non-termination for every fuel |
| C40, C41 | IOMat, IOTri, IOSpecial | Claims_IOMat | same |
| C19 | Align | Claims_Align | byte addresses; bit-mask lemma; histories of allocations |
| C20 | DivHelper | Claims_Div | flags and cached decomposition; invariant over all histories |
| C21, C22 | LU, LUProofs | Claims_LU | loop invariant; strong induction for the recursive version |
| C23, C24 | LUDiv, LogDet | Claims_LU, Claims_LogDet | composition with C21 and C26 |
| C25 | IntDet | Claims_IntDet | Bareiss elimination, Sylvester identity, any pivot choice |
| C26 | TriSolve, TriInv, TriAlias | Claims_Tri | strong induction on size, all storage variants; memory level for aliasing |
| C27 | MatView | Claims_MatView | as C09 |
| C28 | Storage | Claims_Storage | `nia`; injectivity of the address maps |
| C29 | ScalC, MatMat, MatMatProofs, MatMatBlock, MatMatMain, MatMatCplx | Claims_MatMat | loop invariants per kernel (simple, recursive, blocked with packing); temporaries are separate blocks of memory, so aliases read old values; complex products as four real ones; the fallback after a partial complex product is refuted |
| C30 | Chol, CholDiv | Claims_Chol | invariant over `numClosedFieldType`; uniqueness |
| C31, C42 | QR, QRDiv | Claims_QR | product of reflections as a unitary matrix; block reflection = product; least squares from the normal equations |
| C32 | Givens | Claims_Givens | `field` |
| C33 | LDL.v: LDL_Decompose with its unblocked and blocked algorithms, pivot search, 1x1 and 2x2 steps, views | LDLProofs.v: remaining matrix as an invariant over the columns done; blocked = same invariant with the pending update subtracted | done; LAPACK path not modelled |
| C34, C44 | BandTri, BandLU, BandLUDiv | Claims_BandLU | the column invariant L w = P a0 kept by each elimination step, inside the allocated band; forward elimination is L^-1 P^T; division from the right is its adjoint; constructor with storage decisions and junk memory |
| C45 | LUATA (dense and band) | Claims_BandLU | (LU) X (LU)^dagger = 1; counterexample with a row exchange |
| C46 | LDLDiv.v: PseudoDiag_LDivEq/LMultEq, LDL_LDivEq, LDL_RDivEq, the SymLDLDiv constructor and isSingular | LDLDiv.v: one row of the block diagonal product; loop invariant at block boundaries; LDLInv.v: LDL_Inverse with its recursive CombineInverse; Claims_LDLDiv.v | divide, inverse and det done; three counterexamples |
| C47 | SymSquare.v: SymSquare (fuel for the recursion; running out is a stack overflow), doMakeInverseATA of the LDL and Cholesky dividers | SymSquare.v: induction on the fuel, splitting the sums at K; size 0 by induction on the fuel; for sizes 1, 2 the upper triangle is not read; Claims_SymSquare.v | partial: above size 2 the stale upper triangle of the result is read; complex symmetric gives A^-1 A^-1; size 0 never ends. |
| C48 | QRUpdate.v: QR_Update, QR_Downdate with their recursions, blocks, T accumulations, HouseholderUnReflect, division by zero as UB | QRUpdateProofs.v: `upd` relates stacked columns by the product of the reflectors already made; induction on the fuel with joins of adjacent column ranges; QRDownProofs.v: the same with roles exchanged, a failed step giving a certificate; Claims_QRUpdate.v turns the certificate into a vector x with |Rx| <= |Ax| (kernel of a wide matrix) | proved, with the semidefinite downdate refuted (0/0). |
| C49 | QRP.v: QRP_Decompose with the unblocked, strict block and loose block algorithms; column norms as number-or-nan, the threshold, moveLowColsToEnd, the pairwise exchanges of bad columns and their return | QRPProofs.v/QRPLoop.v: `pinv` (the reflectors so far applied to the permuted columns give the array), `oinv` (ordering), result record `qrpres`; QRPStrict.v: delayed rows through ZYtA; QRPPerm.v: permutations made of disjoint exchanges; QRPLoose.v: the loops with bad columns; QRPFinal.v: all three and the determinant; QRPBad.v: no progress when N sqrt(eps) > 1; Claims_QRP.v | partial: the loose version does not terminate for N sqrt(eps) > 1 (refuted there) and may leave a zero inside the diagonal. |
| C50 | QRPDiv.v: QR_LDiv, QR_RDiv, QR_Inverse with P and N1, the QRPDiv constructor (N1), doMakeInverseATA | QRPDivProofs.v: with E the first N1 columns of the identity, R E = E R1 and R = E E^dagger R; Claims_QRPDiv.v: normal equations, shortest solutions and the pseudo-inverse equations for the matrix A' that the decomposition represents exactly | partial: the loose algorithm beyond one block of columns, below full rank, where it is false (QRPBad2.v, C50_loose_least_squares_refuted); C50_svd_solution_refuted for the claim that the solution is that of the SVD. |
| C51 | SVDiv.v: SV_LDiv, SV_RDiv, DiagMatrix division, thresh, top, doMakeInverse, doMakeInverseATA, norm2, condition, isSingular, getU/getVt, the index of checkDecomp; the factors are arguments | SVDivProofs.v: the code computes P m and m P with P satisfying the four Penrose equations; from these, least squares and minimum norm by Pythagoras; Claims_SVD.v: Bessel's inequality for the norms | partial: the iteration that computes the factors is not proved to end; checkDecomp of a zero matrix refuted. |
| C52 | Bidiag.v: NonBlockBidiagonalize and the unpacking of U and Vt in SV_Decompose; BidiagQR.v: Chop, ZeroFirstRow, ZeroLastCol, TrailingEV, Reduce22, Reduce, the mutually recursive loops with fuel, MakePos, FromBidiagonal; SVDecompose.v: SV_Decompose with the initial QR decomposition for tall matrices and the sort of C07. BlockBidiagonalize and the divide and conquer algorithm above DC_LIMIT rows are not modelled (the latter is a parameter) | BidiagProofs.v: invariant A = PU B PV^T over the reflections; BidiagQRProofs.v, BidiagSweep.v, Bidiag22.v, BidiagLoop.v: every step multiplies B by a rotation on one side and a factor by its adjoint on the other; BidiagIter.v: partial correctness of the loops by induction on the fuel, and independence of the fuel; BidiagFinal.v, SVSort.v: scaling, signs and order; Claims_SVDecompose.v: the theorems, and the run on [[0,1],[0,1]] that leaves the array E |
| C53 | BandQR.v: QR_Decompose on a band matrix (both forms), the constructor of BandQRDiv with its choice of transposition, bandwidths and in-place storage, Q_LDivEq, Q_RDivEq, QR_LDiv, QR_RDiv, QR_Inverse, doMakeInverseATA, GetQFromBandQR, getQ, det. The logarithm through which det is computed is not modelled | BandQRProofs.v: the band decomposition computes, inside the band, what the decomposition of C31 computes on the whole array (invariant: the array agrees with the full one inside the band, and the full one is zero outside it), likewise for the two actions of Q and for getQ; then the least squares and pseudo-inverse arguments of C42 on A = Q R. Realness of R for a real matrix from the uniqueness of the triangular factor of A^T A |
| C54 | BandCH.v: CH_Decompose of a hermitian band matrix (diagonal, column and row versions), LDL_Decompose of a tridiagonal hermitian or symmetric matrix, the four divisions, both inverses with the recursive SimpleLDLt_CombineInverse, HermBandCHDiv: constructor with its in-place rule, doLDivEq, doRDivEq, getL, getD, det, sign, makeInverse, makeInverseATA (SymSquare). Not modelled: isSingular, checkDecomp | BandCHProofs.v: the band steps are the steps of C34 on the array with zeros outside the band (the invariant chinv of Chol.v is kept); the row version solves with C44. BandLDLProofs.v: invariant of the bidiagonal elimination, L D L^dagger entry by entry, leading minors as products of D, positive definite iff D > 0. BandCHDivProofs.v: divisions through C44 and BandTri.v, induction for the recursive inverse |
| C55 | Tridiag.v: HouseholderLRMult, NonBlockTridiagonalize, unpacking of U. TridiagQR.v: chop, trailing eigenvalue, one QR sweep, QR iteration with deflation (fuel; running out is a distinct outcome), scaling, both sorts, UnsortedHermEigen, Eigen, HermSV_Decompose. Invariant U T U^dagger = A and U unitary, kept by each reflection (TridiagProofs.v), each sweep (TridiagQRProofs.v), each deflation and sort (TridiagFinal.v). BlockTridiagonalize and divide and conquer are parameters. Exact arithmetic ends the iteration only when an off-diagonal element is exactly zero, which from three rows on need not happen: not ending is an outcome, and ending is proved for one and two rows (Eigen2.v: the shift is then an eigenvalue). The result is tied to A by its characteristic polynomial (C55_spectrum) and unique (C55_unique). The accuracy claim is false: C55_accuracy_refuted (equal diagonal elements). |
| C56 | HermSVD.v: the members of HermSVDiv and HermSV_Inverse over the eigenvectors and signed eigenvalues. The signs move into Vt, which gives an SVD in the sense of C51, so thresholds, norms and truncation come from C51; the inverse is hermitian because S is real, so one triangle and its adjoint are all of it; det from the characteristic polynomial (C55_spectrum); C56_solve composes with C55_herm_sv_decompose. HermSVDecompose.v: the three forms of SV_Decompose(A,...) for a hermitian A, with conjugated or unconjugated views. |
| C57 | Polar.v: SquareRoot over Eigen (C55), PolarDecompose over SV_Decompose (C52), both through SymMultMM into one triangle (HermSVD.v). The root is V sqrt(D) V^dagger; uniqueness because a not negative hermitian root Q of A satisfies (Q + s)(Q - s) v = 0 for each eigenvector v. Refuted: no columns; a complex symmetric P. |
| C35 | MatMem, MatVec, SymRank | Claims_MatVec, Claims_SymRank | memory-level loop invariants (`upto_scatter`, `rows_scatter`); symmetric rank-1 by rows and by columns, the rank-k recursion and the in-place rank-k recursion by induction on the size; the products inside rank-k are taken as computed before they are written (C29, C43); rank-2 and rank-2k not modelled |
| C36 | Cplx | Claims_Cplx | `field`, order lemmas |
| C43 | MatMem, MatVec | Claims_MatVec | memory level, kernel by kernel; which order of reads and writes each alias needs |

Nothing in the list is inexpressible; what is left out of each is rounding.

## What is modelled

Line numbers are in the comments of the definitions.

| source | modelled | not modelled |
|--------|----------|--------------|
| include/tmv/TMV_Base.h | complex helpers, DivType flags, exceptions as outcomes | type traits, debugging |
| include/tmv/TMV_Array.h | AlignedMemory, AlignedArray | StackArray |
| include/tmv/TMV_Permutation.h, TMV_PermutationArith.h | all members except text I/O, products with vectors and matrices | read/write |
| src/TMV_Vector.cpp, include/tmv/TMV_Vector.h | views and range checks, modifiers, queries, sums, sort, copy, swap, comparison, text I/O | rescaled norm2, LAPACK norms |
| src/TMV_ConvertIndex.h | ConvertIndexToPermute | |
| src/TMV_MultXV.cpp, TMV_AddVV.cpp | native versions, ElemProd | BLAS |
| include/tmv/TMV_IOStyle.h | whole | |
| src/TMV_Matrix.cpp, include/tmv/TMV_Matrix.h | views and range checks, row/column permutations, text I/O | norms, arithmetic composites |
| src/TMV_BandMatrix.cpp, TMV_TriMatrix.cpp, TMV_SymMatrix.cpp, TMV_SymBandMatrix.cpp, TMV_DiagMatrix.cpp | storage maps, element access, transposed/conjugated symmetric views, text I/O, DiagMatrix logDet | submatrix views of these types, arithmetic |
| src/TMV_BaseMatrix.cpp, include/tmv/TMV_BaseMatrix.h | DivHelper | |
| src/TMV_BandLUDecompose.cpp, TMV_BandLUDiv.cpp, TMV_BandLUInverse.cpp, TMV_BandLUD.cpp, TMV_TriDiv of band matrices (TMV_BandTriDiv*.cpp) | native versions | LAPACK (gbtrf, gttrf, gbtrs, gttrs, tbsv); memory layout inside a band (elements are addressed by row and column) |
| src/TMV_LUDecompose.cpp, TMV_LUD.cpp, TMV_LUDiv.cpp, TMV_LUInverse.cpp | native versions | LAPACK |
| src/TMV_IntegerDet.cpp | whole | |
| src/TMV_TriDiv_V.cpp, TMV_TriDiv_M.cpp, TMV_TriInverse.cpp, TMV_TriDiv.cpp (overlap tests) | native versions | BLAS, TMV_TriDiv_L.cpp |
| src/TMV_SymCHDecompose.cpp, TMV_SymCHD.cpp, TMV_SymCHDiv.cpp, TMV_SymCHInverse.cpp | native versions | LAPACK |
| src/TMV_Givens.cpp, include/tmv/TMV_Givens.h | native versions | BLAS rot |
| src/TMV_Householder.cpp | Reflect, LMult, Unpack, block MakeZ, LMult, LDiv, Unpack | UnReflect, block Augment |
| src/TMV_MultMM.cpp, TMV_MultMM_CCC.cpp, _CRC.cpp, _RCC.cpp, _Block.cpp | native versions, one element type | BLAS, OpenMP (TMV_MultMM_OpenMP.cpp), inner kernels (TMV_MultMM_Kernel.h) by contract |
| src/TMV_Rank1_VVM.cpp, TMV_MultMV.cpp | native versions, one element type | BLAS |
| src/TMV_QRDecompose.cpp, TMV_GetQFromQR.cpp, TMV_PackedQ.cpp (division), TMV_QRD.cpp, TMV_QRDiv.cpp, TMV_QRInverse.cpp | native versions, with a permutation and N1 as used by QRPDiv | LAPACK |
| src/TMV_QRPDecompose.cpp, TMV_QRPD.cpp | native unblocked, strict and loose block versions, the divider | LAPACK, the form that unpacks Q and R |
| src/TMV_QRUpdate.cpp, TMV_QRDowndate.cpp | native versions | |
| src/TMV_SymLDLDecompose.cpp, TMV_SymLDLD.cpp, TMV_SymLDLDiv.cpp, TMV_SymLDLInverse.cpp, TMV_SymLDLPseudo.cpp, TMV_SymSquare.cpp | native versions | LAPACK, the form that unpacks L |
| src/TMV_Rank1_VVS.cpp, TMV_RankK_MMS.cpp | native versions | BLAS, element types that differ |
| src/TMV_SVD.cpp, TMV_SVDiv.cpp | the divider | |
| src/TMV_SVDecompose.cpp, TMV_SVDecompose_Bidiag.cpp, TMV_SVDecompose_QR.cpp | native versions without blocks | LAPACK, BlockBidiagonalize, TMV_SVDecompose_DC.cpp (a parameter) |
| src/TMV_BandQRDecompose.cpp, TMV_BandQRD.cpp, TMV_BandQRDiv.cpp, TMV_BandQRInverse.cpp | native versions | memory layout inside a band |
| src/TMV_SymBandCHDecompose.cpp, TMV_SymBandCHDiv.cpp, TMV_SymBandCHInverse.cpp, TMV_SymBandCHD.cpp | native versions | isSingular, checkDecomp; memory layout inside a band |
| src/TMV_SymHouseholder.cpp, TMV_SymSVDecompose_Tridiag.cpp, TMV_SymSVDecompose_QR.cpp, TMV_SymSVDecompose.cpp (hermitian, U wanted) | HouseholderLRMult, unblocked Tridiagonalize, QR iteration, Eigen, HermSV_Decompose | BlockTridiagonalize, TMV_SymSVDecompose_DC.cpp, complex symmetric matrices, eigenvalues only |
| src/TMV_SymSVD.cpp (HermSVDiv), TMV_SymSVInverse.cpp (HermSV_Inverse), TMV_SymSVDecompose.cpp (SV_Decompose, hermitian) | left and right division, both inverses, makeInverseATA, thresh, top, norms, getS, getVt, det (the product; its logarithm is C23) | SymSVDiv and SymSV_Inverse (complex symmetric), checkDecomp, in-place storage of U |
| src/TMV_SymSVDecompose.cpp (SquareRoot, PolarDecompose), TMV_SymMultMMS.cpp (SymMultMM) | the functions on dense matrices; SymMultMM by elements, without shared storage | the recursion and the in-place versions of SymMultMM, band versions |
| symmetric (not hermitian) and band SVD, products of special matrices, small matrices | | all |

## Trusted base

- The kernel of Coq 8.16.1 (`coqchk` is run by the gate), and the fidelity of the
  hand-written model to the C++ text, read without building it.
- No axioms of our own; no `Variable`/`Hypothesis` outside a section.
- `Print Assumptions` is printed under every claim during the build.  All claims
  are "Closed under the global context", except `C23_logdet` and
  `C23_logdet_complex`, which are about Coq's real numbers and list
  `ClassicalDedekindReals.sig_not_dec`, `ClassicalDedekindReals.sig_forall_dec`,
  `FunctionalExtensionality.functional_extensionality_dep` and (through the real
  analysis library) `Classical_Prop.classic`: standard library axioms.
- mathcomp's `all_ssreflect`, `all_fingroup`, `all_algebra`, `all_field` (algebraic
  numbers, only in examples) and `zify` (the `lia` bridge) are used; they are
  axiom-free here.
- `RingTac.v` makes the standard `ring`/`field` usable on mathcomp fields.  It only
  renames operations; the kernel checks the proof terms it produces.
