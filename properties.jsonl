{"id": "C01", "title": "Permutation apply and inverse cancel", "statement": "For every Permutation p and vector v of matching size, p*v is a rearrangement of v (the same multiset of values), p.inverse()*(p*v) == v and p*(p.inverse()*v) == v; the same holds for p.transpose() and after p.transposeSelf().", "quantifier": "every size n, every legal interchange list, both orientations, every vector contents", "why_tests_cant": "n! permutations times all contents; tests sample a handful of sizes", "anchors": ["include/tmv/TMV_Permutation.h: Permutation::apply, inverse, transposeSelf", "src/TMV_Vector.cpp: DoPermute, DoReversePermute"]}
{"id": "C02", "title": "Permutation element access agrees with its action", "statement": "p(i,j) is 1 exactly when p moves element j of a vector to position i, i.e. (p*v)(i) = sum_j p(i,j)*v(j) for all v; every row and every column of p has exactly one 1.", "quantifier": "every permutation produced by the library (interchange targets never below the diagonal), both orientations, every i, j, v", "why_tests_cant": "cref walks the interchange list with a short-cut; correctness needs induction on the list", "anchors": ["include/tmv/TMV_Permutation.h: Permutation::cref, apply"]}
{"id": "C03", "title": "Permutation det and trace", "statement": "p.det() is the sign of the permutation (the determinant of the 0/1 matrix of p), det(p.inverse()) = det(p), and p.trace() is the number of indices that p leaves in place.", "quantifier": "every permutation of every size, both orientations", "why_tests_cant": "parity is a global invariant of the whole interchange list", "anchors": ["include/tmv/TMV_Permutation.h: Permutation::det, trace, makeIndex"]}
{"id": "C04", "title": "Permutation equality is extensional", "statement": "p == q holds exactly when p and q are the same matrix, whichever orientation (inverted or not) each is stored in.", "quantifier": "all pairs of equal-size permutations produced by the library, all four combinations of stored orientation", "why_tests_cant": "the same-orientation branch compares representations, so it needs a uniqueness argument over all lists", "anchors": ["include/tmv/TMV_Permutation.h: operator==, makeIndex"]}
{"id": "C05", "title": "Permutation copies are isolated", "statement": "Copying or assigning a Permutation gives an object that keeps its value whatever is later done to the original, and modifying the copy never changes the original (the manual: one 'cannot indirectly modify another Permutation').", "quantifier": "every history of construct, copy, assign, setToIdentity, resize, read, transposeSelf, sort-into and destroy operations", "why_tests_cant": "depends on the ownership history, not on values; only bad orders of operations expose it", "anchors": ["include/tmv/TMV_Permutation.h: Permutation copy constructor, operator=, allocateMem, setToIdentity, resize, read", "doc/Permutation.tex"]}
{"id": "C06", "title": "Permuting rows and columns of a matrix is multiplication by the permutation", "statement": "p*m (and p.applyOnLeft(m)) puts in row i the row of m that p selects, m*p (applyOnRight) equals the matrix product of m with the 0/1 matrix of p, for both orientations; p^-1*(p*m) == m; m.permuteRows(p,i1,i2) performs exactly the listed interchanges i1..i2-1.", "quantifier": "every matrix shape and contents, every permutation, both orientations", "why_tests_cant": "orientation mistakes cancel on symmetric samples; needs all permutations", "anchors": ["include/tmv/TMV_Permutation.h: applyOnLeft, applyOnRight", "src/TMV_Matrix.cpp: permuteRows, reversePermuteRows", "include/tmv/TMV_PermutationArith.h"]}
{"id": "C07", "title": "sort(p) sorts and p reproduces the sort", "statement": "After v.sort(p,ad,comp): v is ordered by the chosen key (real, imaginary, absolute value, argument) in the chosen direction, v is a rearrangement of its old contents, and p applied to the old contents gives the new ones; p is a legal permutation (no interchange target below its own index).", "quantifier": "every vector, every key, both directions, and every behaviour the C++ standard allows for std::sort (ties in any order)", "why_tests_cant": "std::sort is unstable and unspecified on ties; the claim must hold for all of its allowed results", "anchors": ["src/TMV_Vector.cpp: VectorView::sort, class VTIndex, Compare", "src/TMV_ConvertIndex.h: ConvertIndexToPermute"]}
{"id": "C08", "title": "sort() without a permutation sorts the viewed elements and nothing else", "statement": "After v.sort(ad,comp) the elements of the view v are in order, are a rearrangement of the old elements of v, and no element outside the view has changed, for every view v (any step, also reversed views).", "quantifier": "every view of every vector (size, step, direction), every contents", "why_tests_cant": "the memory touched outside the view is invisible to a test that looks only at the view", "anchors": ["src/TMV_Vector.cpp: VectorView::sort"]}
{"id": "C09", "title": "Vector views denote the documented elements and stay in bounds", "statement": "v.subVector(i1,i2), v.subVector(i1,i2,istep), v.reverse(), v.conjugate(), v.realPart(), v.imagPart(), v.flatten() alias exactly the elements the manual says; any chain of checked view operations, of any length, only ever designates elements of the original vector.", "quantifier": "every chain of view operations of any length from every vector, every index", "why_tests_cant": "chains are unbounded; out-of-range aliasing does not show in values", "anchors": ["include/tmv/TMV_Vector.h: cSubVector, cReverse, cConjugate, realPart, imagPart, flatten", "src/TMV_Vector.cpp: hasSubVector"]}
{"id": "C10", "title": "Range checks on subVector are exact and total", "statement": "v.subVector(i1,i2,istep) with checking on accepts a range exactly when every element it designates lies in v (or the range is empty), and the check itself has defined behaviour for every triple of integers.", "quantifier": "all integers i1, i2, istep and all sizes, C and Fortran indexing", "why_tests_cant": "the domain is all integer triples; corner triples such as istep = 0 are where it matters", "anchors": ["src/TMV_Vector.cpp: hasSubVector (C and Fortran)"]}
{"id": "C11", "title": "Fortran-style indexing names the same elements as C-style", "statement": "v(i) in Fortran style is v[i-1] in C style, subVector(i1,i2) is C subVector(i1-1,i2), subVector(i1,i2,istep) covers i1, i1+istep, ..., i2 inclusive; every accepted Fortran range corresponds to an accepted C range with the same elements.", "quantifier": "all sizes, all index triples", "why_tests_cant": "off-by-one errors at range ends for steps other than 1, for all sizes", "anchors": ["include/tmv/TMV_Vector.h: FortranStyle specialisations", "src/TMV_Vector.cpp: hasSubVector<FortranStyle>"]}
{"id": "C12", "title": "Vector modifiers change exactly what they say", "statement": "On any view w: setZero, setAllTo(x), addToAll(x), clip, swap(i,j), reverseSelf, conjugateSelf, makeBasis(i), permute, reversePermute leave w with the documented elements (as read through w, so taking w's conjugation into account) and leave every memory location outside w unchanged.", "quantifier": "every view (size, step of either sign, conjugated or not), every memory contents", "why_tests_cant": "frame conditions and conjugated/strided combinations explode combinatorially", "anchors": ["src/TMV_Vector.cpp: setZero, setAllTo, addToAll, clip, DoSwap, reverseSelf, conjugateSelf, DoBasis, DoPermute"]}
{"id": "C13", "title": "Extreme-element queries return a true extreme and its first position", "statement": "maxElement(&i), minElement(&i), maxAbsElement(&i), minAbsElement(&i) and the Abs2 versions return the extreme of the chosen key over all elements, with i an index attaining it; on an empty vector they return 0; the answer does not depend on whether the view is stored forwards or backwards except in the choice among ties.", "quantifier": "every vector contents and every view step", "why_tests_cant": "needs all contents, including ties and negative steps where the index is recomputed", "anchors": ["src/TMV_Vector.cpp: FindMinElement, FindMaxElement, FindMaxAbsElement, FindMinAbsElement"]}
{"id": "C14", "title": "Assignment copies values, also between aliases starting at the same place", "statement": "v2 = v1 makes v2(i) equal to the old v1(i) for every i, whenever the two views do not overlap or are the same elements in the same order; nothing outside v2 changes.", "quantifier": "all pairs of views of one memory, all steps and conjugations", "why_tests_cant": "pairs of overlapping strided views are unbounded", "anchors": ["include/tmv/TMV_Vector.h: Copy, VectorView::operator=", "src/TMV_Vector.cpp: DoCopySameType", "doc/Overview.tex: Alias checking"]}
{"id": "C15", "title": "v2 += x*v1 and v3 = x1*v1 + x2*v2 are computed correctly under the documented alias rule", "statement": "v2 += x*v1, v2 = x*v1 and v3 = x1*v1 + x2*v2 give the elementwise result computed from the old values, whenever any two of the views that overlap start at the same address (the manual: 'the code only checks the addresses of the first elements').", "quantifier": "all triples of views, all scalars, all conjugation flags", "why_tests_cant": "aliasing patterns and special-cased scalars (0, 1, -1, real-valued complex) multiply", "anchors": ["src/TMV_AddVV.cpp: AddVV", "src/TMV_MultXV.cpp: MultXV", "include/tmv/TMV_Base.h: SameStorage", "doc/Overview.tex"]}
{"id": "C16", "title": "Vector text output reads back to the same vector", "statement": "Writing a vector with any IOStyle whose delimiters are readable and reading it back with the same style gives a vector equal to the original, and consumes the text written, up to trailing white space; a Vector of a different size is resized, a VectorView of a different size is rejected with a ReadError and no element is changed.", "quantifier": "every vector of every length, every style in the family (prefixes, markup strings)", "why_tests_cant": "the style space is strings; round trip needs all of it", "anchors": ["include/tmv/TMV_IOStyle.h: TMV_Writer, TMV_Reader", "src/TMV_Vector.cpp: write, read, FinishRead"]}
{"id": "C17", "title": "Reading always terminates", "statement": "Reading a vector from any stream, including one that is empty or ends early, either succeeds or reports a ReadError; it never runs forever and never tests a character that was not read.", "quantifier": "every input text, every style", "why_tests_cant": "non-termination on truncated input cannot be concluded from a finite run", "anchors": ["include/tmv/TMV_IOStyle.h: TMV_Reader::skipWhiteSpace, readStr"]}
{"id": "C18", "title": "IOStyle manipulators and defaults", "statement": "makeDefault followed by creating a new style gives the saved style; revertDefault restores the original; the named styles always have the prefix and delimiters the manual states whatever the current default is.", "quantifier": "every history of style changes", "why_tests_cant": "the default is global mutable state; history matters", "anchors": ["include/tmv/TMV_IOStyle.h: IOStyle, NormalIO, CompactIO, EigenIO, ThreshIO"]}
{"id": "C19", "title": "Aligned storage is aligned and inside its allocation", "statement": "For every element count and every address the allocator may return, the array handed out is 16-byte aligned, all n elements lie inside the allocation, and no library write (including end padding) goes outside it.", "quantifier": "every n, every allocator address", "why_tests_cant": "allocator addresses seen in tests are almost always already aligned", "anchors": ["include/tmv/TMV_Array.h: AlignedMemory, AlignedArray"]}
{"id": "C20", "title": "Division settings and cached decompositions", "statement": "After any history of divideUsing, saveDiv, unsaveDiv, setDiv, unsetDiv, resetDiv and divisions, a division uses the decomposition type last requested (or the default for the shape), and a saved decomposition is reused until it is unset or another type is requested.", "quantifier": "every history of division-control calls", "why_tests_cant": "state machine over unbounded histories", "anchors": ["src/TMV_BaseMatrix.cpp: DivHelper", "include/tmv/TMV_Divider.h"]}
{"id": "C21", "title": "LU decomposition: P L U equals the original matrix", "statement": "For every M x N matrix over a field, LU decomposition leaves L (unit lower trapezoidal) and U (upper trapezoidal) with P*L*U equal to the original matrix, and P a legal permutation; this holds for the row-by-row algorithm and for the recursive one, singular matrices included.", "quantifier": "every M, N and every matrix entries (exact arithmetic), both algorithms", "why_tests_cant": "all sizes and zero patterns; recursion splits by size", "anchors": ["src/TMV_LUDecompose.cpp: NonBlockLUDecompose, RecursiveLUDecompose, LU_Decompose"]}
{"id": "C22", "title": "Partial pivoting bounds the multipliers", "statement": "After LU decomposition every entry of L has absolute value at most 1.", "quantifier": "every matrix, every size", "why_tests_cant": "pivot choice must be maximal at every step of every run", "anchors": ["src/TMV_LUDecompose.cpp: NonBlockLUDecompose"]}
{"id": "C23", "title": "LU solve, inverse and determinant", "statement": "For a square matrix A whose LU decomposition has no zero on the diagonal of U, b /= A gives x with A*x = b, b %= A gives x with x*A = b, A.inverse() is the two-sided inverse, det(A) is the determinant, and isSingular is consistent with a zero pivot; all this whether A is decomposed directly or via its transpose.", "quantifier": "every nonsingular matrix of every size, every right-hand side", "why_tests_cant": "composition of permute, solve and orientation choices, over all sizes", "anchors": ["src/TMV_LUDiv.cpp: LU_LDivEq, LU_RDivEq", "src/TMV_LUInverse.cpp", "src/TMV_LUD.cpp: LUDiv"]}
{"id": "C24", "title": "Requesting in-place division still divides by the matrix", "statement": "m.divideInPlace() only permits overwriting m: b/m gives the same answer with and without it, for every matrix or matrix view m.", "quantifier": "every matrix view (any pair of steps), every contents", "why_tests_cant": "only views that are neither row- nor column-contiguous take the faulty path", "anchors": ["src/TMV_LUD.cpp: LUDiv_Impl, LUDiv::LUDiv"]}
{"id": "C25", "title": "Integer determinants are exact", "statement": "For an integer matrix, det() computed by the integer algorithm is the exact determinant (when intermediate values fit), all its divisions are exact, whatever pivots it selects.", "quantifier": "every square integer matrix of every size", "why_tests_cant": "the exactness of every division is a theorem (Sylvester identity), not a sample fact", "anchors": ["src/TMV_IntegerDet.cpp: IntegerDet, Bareiss_1x1_IntegerDet"]}
{"id": "C26", "title": "Triangular solve and inverse", "statement": "For a triangular matrix T with non-zero diagonal (or unit diagonal), m /= T gives x with T*x = m, T.inverse() is the two-sided inverse and is again triangular; a zero on the diagonal raises Singular rather than giving a wrong answer.", "quantifier": "every size, every triangular matrix, upper and lower, unit and non-unit", "why_tests_cant": "recursive splits by size; zero pivots anywhere", "anchors": ["src/TMV_TriDiv_V.cpp", "src/TMV_TriDiv_M.cpp", "src/TMV_TriInverse.cpp", "src/TMV_TriDiv.cpp"]}
{"id": "C27", "title": "Matrix views denote the documented elements and stay in bounds", "statement": "row, col, diag(i), subMatrix, rowRange, colRange, transpose, conjugate, adjoint, linearView and their compositions designate exactly the elements the manual says, and any chain of accepted view operations stays inside the original matrix.", "quantifier": "every chain of view operations from every matrix", "why_tests_cant": "chains are unbounded; bad aliasing does not show in values", "anchors": ["include/tmv/TMV_Matrix.h", "src/TMV_Matrix.cpp: hasSubMatrix, hasSubVector"]}
{"id": "C28", "title": "Band, triangular and symmetric storage maps are injective and in bounds", "statement": "Each stored element of a BandMatrix (row-, column- or diagonal-major), TriMatrix, SymMatrix or SymBandMatrix has its own memory location inside the allocated block; (i,j) and its mirror share one location for symmetric types and no others do.", "quantifier": "every size, every number of sub/super-diagonals, every storage type", "why_tests_cant": "collisions or overruns appear only for particular shapes (non-square bands)", "anchors": ["include/tmv/TMV_BandMatrix.h: BandStorageLength, BandMatrix", "src/TMV_BandMatrix.cpp", "include/tmv/TMV_SymMatrix.h", "include/tmv/TMV_TriMatrix.h"]}
{"id": "C29", "title": "Matrix product is the matrix product", "statement": "C = alpha*A*B and C += alpha*A*B store the mathematical product computed from the operands' old values, for every shape, scalar, storage order and conjugation, also when C is one of the operands or starts at the same address.", "quantifier": "every shape, contents, alpha, and aliasing by first address", "why_tests_cant": "blocking by size and alias handling multiply", "anchors": ["src/TMV_MultMM.cpp", "src/TMV_MultMM_CCC.cpp", "src/TMV_MultMM_CRC.cpp", "src/TMV_MultMM_RCC.cpp", "src/TMV_MultMM_Block.cpp"]}
{"id": "C30", "title": "Cholesky decomposition", "statement": "For a hermitian matrix A the Cholesky decomposition either produces lower triangular L with L*L^dagger = A, or throws NonPosDef; it succeeds exactly on positive definite matrices.", "quantifier": "every size, every hermitian matrix (exact arithmetic)", "why_tests_cant": "success must characterise positive definiteness for all matrices", "anchors": ["src/TMV_SymCHDecompose.cpp: CH_Decompose"]}
{"id": "C31", "title": "Householder reflections and QR decomposition", "statement": "QR decomposition of an M x N matrix (M >= N) yields Q with orthonormal columns and upper triangular R with real diagonal and Q*R equal to the original matrix; the packed form of Q multiplies and divides as that Q does.", "quantifier": "every shape and contents (exact arithmetic), zero and dependent columns included", "why_tests_cant": "degenerate columns at any step; all sizes", "anchors": ["src/TMV_Householder.cpp", "src/TMV_QRDecompose.cpp", "src/TMV_GetQFromQR.cpp", "src/TMV_PackedQ.cpp"]}
{"id": "C32", "title": "Givens rotations", "statement": "GivensRotate(x,y) returns a rotation with |c|^2+|s|^2 = 1 that maps (x,y) to (r,0); applying it and then its inverse restores any pair; zero inputs included.", "quantifier": "all real or complex x, y", "why_tests_cant": "branches on relative size and zero patterns over a continuum", "anchors": ["src/TMV_Givens.cpp", "include/tmv/TMV_Givens.h"]}
{"id": "C33", "title": "LDL (Bunch-Kaufman) decomposition", "statement": "For every symmetric or hermitian matrix, the decomposition produces unit lower triangular L, block diagonal D (1x1 and 2x2 blocks) and permutation P with P*L*D*L^T*P^T (or dagger) equal to the original.", "quantifier": "every size and contents, singular included", "why_tests_cant": "pivot-block choices give exponentially many paths", "anchors": ["src/TMV_SymLDLDecompose.cpp"]}
{"id": "C34", "title": "Band LU decomposition", "statement": "LU decomposition of a band matrix gives P*L*U equal to the original, with the fill-in confined to the band nlo, nlo+nhi that was allocated.", "quantifier": "every size, bandwidths and contents", "why_tests_cant": "fill-in bounds depend on all pivot sequences", "anchors": ["src/TMV_BandLUDecompose.cpp", "src/TMV_BandLUD.cpp"]}
{"id": "C35", "title": "Rank-1 and rank-k updates", "statement": "A += x*(v1^v2), and the symmetric rank-1/2/k updates, give the mathematical result from the old values and, for symmetric types, preserve symmetry/hermitianness.", "quantifier": "every shape, contents, scalar", "why_tests_cant": "size-based recursion and special-cased scalars", "anchors": ["src/TMV_Rank1_VVM.cpp", "src/TMV_Rank1_VVS.cpp", "src/TMV_RankK_MMS.cpp"]}
{"id": "C36", "title": "Complex scalar helpers", "statement": "The library's own complex inverse and division helpers return the exact quotient for every nonzero divisor; conjugation and absolute-value helpers satisfy their algebraic laws.", "quantifier": "all complex pairs", "why_tests_cant": "branch on which component dominates, over a continuum", "anchors": ["include/tmv/TMV_Base.h: TMV_InverseOf, TMV_Divide, TMV_ABS2"]}
{"id": "C37", "title": "Sums and squared norms add up every element once", "statement": "sumElements() is the sum of the elements of the view, sumAbsElements(), sumAbs2Elements() and normSq(scale) the sums of |x|, |re x|+|im x| and |scale*x|^2, for every view however it is stored, conjugated views included.", "quantifier": "every vector contents and every view step, including negative and zero steps, conjugated or not", "why_tests_cant": "needs all contents and all steps; the code has a separate branch for each sign of the step", "anchors": ["src/TMV_Vector.cpp: GenVector::sumElements, sumAbsElements, sumAbs2Elements, normSq"]}
{"id": "C38", "title": "Swap exchanges two vectors and == compares values", "statement": "Swap(v1,v2) of two vectors without common elements leaves each with exactly the values of the other and changes nothing else, whatever their steps and conjugations; v1 == v2 is true exactly when the sizes agree and all elements are equal, whatever their storage.", "quantifier": "all vectors, steps, conjugations, contents", "why_tests_cant": "ranges over all storage layouts and contents", "anchors": ["src/TMV_Vector.cpp: Swap, DoSwap, operator=="]}
{"id": "C39", "title": "Elementwise products", "statement": "z = alpha*ElemProd(x,y) and z += alpha*ElemProd(x,y) give z_i = alpha*x_i*y_i and z_i + alpha*x_i*y_i for every alpha, including zero, and every allowed overlap of x, y and z.", "quantifier": "all vectors, steps, conjugations, scale factors and overlaps", "why_tests_cant": "ranges over all layouts, factors and overlaps", "anchors": ["src/TMV_MultXV.cpp: ElemMultVV", "include/tmv/TMV_VectorArith.h: ElemProdVV::assignToV"]}
{"id": "C40", "title": "Matrix text output reads back to the same matrix", "statement": "Writing a Matrix in any IOStyle whose delimiters separate numbers, and reading it back in the same style, gives a matrix of the same dimensions and elements and consumes the text up to trailing white space; a Matrix of other dimensions is resized, a MatrixView of other dimensions is rejected with a ReadError and left unchanged.", "quantifier": "every matrix of every shape, every style, every following text", "why_tests_cant": "styles are arbitrary strings and sizes are unbounded", "anchors": ["src/TMV_Matrix.cpp: GenMatrix::write, FinishRead, Matrix::read, MatrixView::read"]}
{"id": "C41", "title": "Triangular, diagonal, band and symmetric matrices read back", "statement": "UpperTri, LowerTri, Diag, Band, Sym and Herm matrices written in any style with separating delimiters, compact or full, read back to the same matrix, whichever triangle the target stores and whether or not the triangle has a unit diagonal.", "quantifier": "every size, bandwidth, style, stored triangle", "why_tests_cant": "unbounded sizes and strings; the failing shapes are corner cases", "anchors": ["src/TMV_TriMatrix.cpp: write, FinishRead, read", "src/TMV_DiagMatrix.cpp", "src/TMV_BandMatrix.cpp", "src/TMV_SymMatrix.cpp"]}
{"id": "C42", "title": "Division, inverse and covariance by QR", "statement": "With divideUsing(QR), b/A for an M x N matrix A minimises |A x - b| over all x when M >= N, solves A x = b exactly when M <= N, with the smallest |x| when M < N and A has full rank; b%A does the same on rows; inverse() is the Moore-Penrose inverse; makeInverseATA is the inverse of A^dagger A for M >= N; det() is the determinant; a rank deficient A is reported singular, and division throws nothing but Singular and only on a rank deficient A.", "quantifier": "every shape, contents, right hand side, storage order and block size (exact arithmetic)", "why_tests_cant": "minimality ranges over all candidate solutions; block boundaries at any size; rank deficiency at any column", "anchors": ["src/TMV_QRD.cpp", "src/TMV_QRDiv.cpp", "src/TMV_QRInverse.cpp", "src/TMV_PackedQ.cpp", "src/TMV_GetQFromQR.cpp"]}
{"id": "C43", "title": "Matrix times vector is the product of the old values, also in place", "statement": "y = alpha*A*x and y += alpha*A*x leave in y the mathematical product computed from the values A, x and y had before the call, for every shape, storage order, step, conjugation and scalar, and touch nothing else; also when y is x, when y starts at the same element as x, and when y is the first row or column of A.", "quantifier": "every shape, contents, alpha, step, conjugation, and aliasing by first address", "why_tests_cant": "row and column kernels, zero trimming, copying of x or y and alias tests multiply", "anchors": ["src/TMV_MultMV.cpp: MultMV, NonBlasMultMV, UnitAMultMV, RowMultMV, ColMultMV", "include/tmv/TMV_Base.h: SameStorage", "doc/Overview.tex: Alias checking"]}
{"id": "C44", "title": "Division, inverse and determinant of band matrices", "statement": "For every square band matrix A of any bandwidths and storage order, b /= A solves A x = b, b %= A solves x A = b, inverse() is the two-sided inverse, det() is the determinant, and a singular matrix is reported as Singular or isSingular(); entries outside the right-hand side are not touched.", "quantifier": "every size, bandwidths, storage order, contents, and number of right-hand sides", "why_tests_cant": "row exchanges, fill-in and the choice of decomposing the transpose combine for every bandwidth", "anchors": ["src/TMV_BandLUD.cpp:BandLUDiv", "src/TMV_BandLUDiv.cpp:LU_LDivEq,LU_RDivEq", "src/TMV_BandLUInverse.cpp:LU_Inverse"]}
{"id": "C45", "title": "makeInverseATA through LU", "statement": "For every square nonsingular matrix, dense or band, divided by LU, makeInverseATA gives the inverse of A^dagger A.", "quantifier": "every size, bandwidths, storage order and complex contents", "why_tests_cant": "whether rows are exchanged depends on the contents; diagonally dominant test matrices never exchange rows", "anchors": ["src/TMV_LUD.cpp:LUDiv::doMakeInverseATA", "src/TMV_BandLUD.cpp:BandLUDiv::doMakeInverseATA"]}
{"id": "C46", "title": "Division, inverse and singularity through the LDL decomposition", "statement": "For every nonsingular symmetric or hermitian matrix divided by LU (which uses the Bunch-Kaufman LDL decomposition), x = b/A satisfies A x = b, x = b%A satisfies x A = b, makeInverse gives the inverse and det() the determinant; isSingular() is true of every singular matrix and false of the others; a decomposition done in place gives the same answers.", "quantifier": "every size, either triangle stored, conjugated or not, row or column major or strided storage, real or complex contents, any number of right hand sides, themselves conjugated or not", "why_tests_cant": "where the 2x2 blocks fall depends on the contents, and an error in a conjugated or strided view shows only for complex non-hermitian matrices in place", "anchors": ["src/TMV_SymLDLD.cpp:SymLDLDiv", "src/TMV_SymLDLDiv.cpp:LDL_LDivEq, LDL_RDivEq", "src/TMV_SymLDLPseudo.cpp:PseudoDiag_LDivEq, PseudoDiag_LMultEq", "src/TMV_SymLDLInverse.cpp:LDL_Inverse"]}
{"id": "C47", "title": "Inverse of A-dagger A for symmetric and hermitian matrices", "statement": "makeInverseATA on a square symmetric or hermitian matrix A that is not singular, whatever decomposition does the division (LDL or Cholesky), fills the given matrix with (A^dagger A)^-1; the answer does not depend on what the given matrix held before the call, and an empty matrix is allowed.", "quantifier": "every size, hermitian or (complex) symmetric, every nonsingular A, every storage and conjugation of A, every previous content of the result matrix", "why_tests_cant": "the defect only shows for sizes above two and depends on stale contents of the output; tests with a zeroed or pre-symmetric output, or with real 2x2 input, see the right answer", "anchors": ["src/TMV_SymSquare.cpp: SymSquare", "src/TMV_SymLDLD.cpp: SymLDLDiv::doMakeInverseATA", "src/TMV_SymCHD.cpp: HermCHDiv::doMakeInverseATA", "src/TMV_SymBandCHD.cpp: HermBandCHDiv::doMakeInverseATA"]}
{"id": "C48", "title": "QR update and downdate", "statement": "QR_Update(R,A) replaces an upper triangular R by an R1 with R1^dagger R1 = R^dagger R + A^dagger A, so that if A0 = Q0 R with orthonormal columns in Q0 then A0 with the rows of A added below is Q1 R1 for some Q1 with orthonormal columns. QR_Downdate(R,A) undoes it: whenever it returns, R1^dagger R1 = R^dagger R - A^dagger A; it returns whenever that matrix is positive definite, and throws only when it is not. Neither touches elements below the diagonal of R or outside the given views.", "quantifier": "every size N of R and number M of rows of A (including 0), every real or complex R and A, every block size; for the downdate, every R with a real diagonal as the decompositions leave it", "why_tests_cant": "The recursion splits the columns at half sizes and blocks of a compile-time size, and the reflector accumulations T (Z) carry across all of them; a test sees a few sizes and matrices, and the not-positive-definite cases form a measure-zero boundary.", "anchors": ["src/TMV_QRUpdate.cpp: NonBlockQRUpdate, RecursiveQRUpdate, BlockQRUpdate, QR_Update", "src/TMV_QRDowndate.cpp: NonBlockQRDowndate, RecursiveQRDowndate, BlockQRDowndate, QR_Downdate", "src/TMV_Householder.cpp: HouseholderReflect, HouseholderUnReflect", "include/tmv/TMV_QRD.h: QR_Update, QR_Downdate", "doc/Decompositions.tex"]}
{"id": "C49", "title": "QR decomposition with column pivoting", "statement": "QRP_Decompose of any M x N matrix A with M >= N always returns, and gives a Q with orthonormal columns, an upper triangular R with a real diagonal and a permutation P (each interchange within range) such that Q R = A P: exactly on the columns kept, and with what was dropped as zero below N eps^2 |A|^2 in the square of each remaining column. The zero rows of R come last; with strict pivoting each diagonal element dominates the part of every later column from its row down, so the diagonal decreases; if no column is dropped A has independent columns; for a square A the returned sign times the product of the diagonal is the determinant, or zero if columns were dropped.", "quantifier": "every M >= N including 0, every real or complex contents including zero and rank deficient matrices, every block size, strict or not, every eps up to 1/16", "why_tests_cant": "The choice of columns, the delayed updates of rows and norms, and the columns moved away and back in the loose version depend on the contents; the failures need thousands of columns or special rank patterns", "anchors": ["src/TMV_QRPDecompose.cpp: NonBlockQRPDecompose, StrictBlockQRPDecompose, LooseBlockQRPDecompose, moveLowColsToEnd, QRP_Decompose", "src/TMV_Householder.cpp: HouseholderReflect, BlockHouseholderAugment, BlockHouseholderLDiv", "include/tmv/TMV_QRPD.h"]}
{"id": "C50", "title": "Division with the QRP decomposition", "statement": "Dividing by any matrix A through QRP never throws, also when A is not of full rank. m/A gives a least squares solution when A is tall or square and the shortest solution when A is wide and the system has a solution; m%A does the same for x A = m; the inverse is a pseudo-inverse of A up to one of the four equations; det() is the determinant, makeInverseATA the inverse of A^dagger A at full rank; isSingular() is true of every rank deficient matrix. When small columns were dropped the answers belong to a matrix within a relative error of the order of eps of A.", "quantifier": "every shape including empty, every real or complex contents and rank, every number of right hand sides, strict or loose pivoting, every block size", "why_tests_cant": "the wrong answers need a rank deficient matrix with more columns than a block whose dependent columns meet in a particular order; tests of singular matrices use small sizes", "anchors": ["src/TMV_QRPD.cpp: QRPDiv", "src/TMV_QRDiv.cpp: QR_LDiv, QR_LDivEq, QR_RDiv, QR_RDivEq", "src/TMV_QRInverse.cpp: QR_Inverse", "src/TMV_QRPDecompose.cpp: QRP_Decompose", "doc/Matrix.tex"]}
{"id": "C51", "title": "Division with the singular value decomposition", "statement": "Whatever the shape and rank of A, dividing through the SVD never throws and gives the minimum norm least squares solution for A with its singular values at or below toler*S(0) set to zero (for A itself when toler is 0): m/A, m%A, inverse() (all four Moore-Penrose equations), makeInverseATA. The dropped part has norm at most toler*norm2(). norm2() is the operator norm, condition() the ratio of the extreme stretches, isSingular() means not of full rank (toler 0), top(k) keeps exactly k values; getU() getS() getVt() is the decomposition for wide matrices too; checkDecomp() can be called on any matrix.", "quantifier": "every shape including empty, every real or complex contents and rank, every tolerance and every number of right hand sides, every decomposition with orthonormal factors", "why_tests_cant": "the minimum norm and least squares properties quantify over all competing vectors; rank deficient and wide matrices go through separate transposed code paths", "anchors": ["src/TMV_SVD.cpp: SVDiv", "src/TMV_SVDiv.cpp: SV_LDiv, SV_RDiv", "src/TMV_DiagMatrix.cpp: RowDiagLDivEq", "include/tmv/TMV_SVD.h"]}
{"id": "C52", "title": "Computing the singular value decomposition", "statement": "SV_Decompose on any M x N matrix A (N <= M), of any contents and rank, first gives A = U B Vt with orthonormal columns of U, orthonormal rows of Vt and a real upper bidiagonal B, with det A = sign * prod D for square A, without touching anything outside the outputs. Whatever zeros B has, each deflation and each QR step leaves U B Vt and both orthonormality properties as they were, so that when the iteration ends A = U S Vt with S real, not negative and in descending order, and no element outside D, E, U and Vt is read or written.", "quantifier": "every shape M >= N, every real or complex contents and rank, every pattern of zeros in D and E, every number of iterations", "why_tests_cant": "the zero patterns that select the deflation branches are measure zero, and the iteration count is not bounded; an access one element past E does not change any result", "anchors": ["src/TMV_SVDecompose.cpp: SV_Decompose, DoSVDecomposeFromBidiagonal, NonLapSVDecomposeFromBidiagonal", "src/TMV_SVDecompose_Bidiag.cpp: NonBlockBidiagonalize", "src/TMV_SVDecompose_QR.cpp: BidiagonalZeroFirstRow, BidiagonalZeroLastCol, ReduceBidiagonal, ReduceBidiagonal22, BidiagonalChopSmallElements"]}
{"id": "C53", "title": "QR decomposition of band matrices and division with it", "statement": "For every band matrix, of any shape, bandwidths, contents and rank, divideUsing(QR) gives a getQ() with orthonormal columns and an upper banded getR() with at most nlo+nhi superdiagonals whose product is the matrix (its transpose when isTrans()); det() is the determinant; b/A is a least squares solution (tall), an exact solution (square) or the shortest solution (wide), b%A the same on rows, inverse() is the pseudo-inverse and makeInverseATA() the inverse of A^dagger A; only the Singular exception is thrown and only for a rank deficient matrix, which isSingular() reports; with divideInPlace() the answers are the same.", "quantifier": "every shape, every nlo < rows and nhi < columns, storage order, real or complex contents, rank, number of right-hand sides, uninitialised contents of the new arrays", "why_tests_cant": "the reflections run on sub-blocks whose ends depend on the bandwidths and the shape, and fill in is cut off at the matrix edge; no finite set of shapes and bandwidths covers the combinations, and the uninitialised extra superdiagonals are often zero by luck", "anchors": ["src/TMV_BandQRDecompose.cpp: QR_Decompose", "src/TMV_BandQRD.cpp: BandQRDiv, GetQFromBandQR, doMakeInverseATA", "src/TMV_BandQRDiv.cpp: Q_LDivEq, Q_RDivEq, QR_LDiv, QR_RDiv", "src/TMV_BandQRInverse.cpp: QR_Inverse"]}
{"id": "C54", "title": "Band Cholesky and tridiagonal LDL: correct factors, exact solves, only positive definite matrices accepted", "statement": "For a hermitian band matrix with n-1 > nlo off-diagonals, HermBandCHDiv (A.divideUsing(CH)) and CH_Decompose succeed exactly when A is positive definite, with L lower triangular of the same bandwidth and L L^dagger = A; for a tridiagonal matrix LDL_Decompose gives L unit bidiagonal and D diagonal with L D L^dagger = A (L D L^T if symmetric) and fails exactly when a leading principal minor is zero. The divisions and the inverse made with the object are exact for every right hand side, det() and logDet(&sign) return the determinant, and nothing outside the stored band is written.", "quantifier": "every size and half bandwidth nlo < n, every element value (real or complex), either triangle stored, conjugated or not, every storage order of A and of the right hand side, in place or not, every number of right hand sides", "why_tests_cant": "A test factors a few matrices of a few bandwidths; exactness for all bandwidths and storage orders, and acceptance of exactly the positive definite matrices, range over all values.", "anchors": ["src/TMV_SymBandCHDecompose.cpp: DoNonLapCH_Decompose, NonLapLDL_Decompose, SymLDL_Decompose, CH_Decompose, LDL_Decompose", "src/TMV_SymBandCHDiv.cpp: CH_LDivEq, LDL_LDivEq, CH_RDivEq, LDL_RDivEq", "src/TMV_SymBandCHInverse.cpp: CH_Inverse, LDL_Inverse", "src/TMV_SymBandCHD.cpp: HermBandCHDiv"]}
{"id": "C55", "title": "Eigenvalues and eigenvectors of a hermitian matrix", "statement": "Whenever Eigen(A,U,lambda) of a hermitian (or real symmetric) matrix returns, U is unitary, A U = U diag(lambda), A = U diag(lambda) U^dagger, and lambda is real and in ascending order; nothing is thrown and no memory outside the arrays is touched, whatever U and lambda held before. The decomposition behind A.divideUsing(SV) gives the same with |lambda| descending. The computed eigenvalues are within rounding error of the exact ones.", "quantifier": "every size, every hermitian matrix (real or complex elements, of any rank), a conjugated or unconjugated U, every former contents of the outputs and of newly allocated memory", "why_tests_cant": "A test decomposes a few matrices; that the reduction, every QR sweep, every deflation and both sorts keep U T U^dagger = A ranges over all element values and all sequences of deflations.", "anchors": ["src/TMV_SymHouseholder.cpp: HouseholderLRMult", "src/TMV_SymSVDecompose_Tridiag.cpp: NonBlockTridiagonalize, Tridiagonalize", "src/TMV_SymSVDecompose_QR.cpp: HermTridiagonalChopSmallElements, TridiagonalTrailingEigenValue, ReduceHermTridiagonal, EigenFromTridiagonal_QR", "src/TMV_SymSVDecompose.cpp: UnsortedHermEigen, EigenFromTridiagonal, NonLapEigenFromTridiagonal, Eigen, HermSV_Decompose"]}
{"id": "C56", "title": "Division by a hermitian matrix with its eigenvalue decomposition", "statement": "For a hermitian A with A.divideUsing(SV): svd() gives an orthonormal U, nonnegative descending S and Vt with A = U S Vt, also when A has negative eigenvalues. After svd().thresh(toler), m/A and m%A are the minimum norm least squares solutions, and the inverse (into a full matrix or into either triangle of a hermitian one) and makeInverseATA the Moore-Penrose inverses, of a matrix within toler*norm2() of A, which is A itself when toler is 0; nothing is thrown and nothing outside the written triangle changes. norm2(), condition(), isSingular() and det() are those of A. For a nonsingular A, A (m/A) = m exactly, although only one triangle of A is read.", "quantifier": "every size, every hermitian matrix of any rank and signature, every tolerance, every right hand side and every former contents of the outputs", "why_tests_cant": "A test divides by a few matrices of full rank; sign handling, truncation and the written triangle range over all signatures, ranks and thresholds.", "anchors": ["src/TMV_SymSVD.cpp: HermSVDiv<T>", "src/TMV_SymSVInverse.cpp: HermSV_Inverse", "src/TMV_SymSVDecompose.cpp: HermSV_Decompose"]}
{"id": "C57", "title": "Square root of a hermitian matrix and polar decomposition", "statement": "SquareRoot(A) replaces a hermitian A without negative eigenvalues by the one hermitian matrix P without negative eigenvalues for which P P is the former A; for any other hermitian A it throws NonPosDef and leaves A alone. PolarDecompose(A,P) replaces an M x N matrix A, N <= M, by U with orthonormal columns and P by the one hermitian matrix without negative eigenvalues with P P = A^dagger A, and A = U P. Both write only the stored triangle of the hermitian matrix.", "quantifier": "every size, every hermitian matrix (SquareRoot), every matrix with at least as many rows as columns and of any rank (PolarDecompose), either stored triangle, every former contents of the outputs and of newly allocated memory", "why_tests_cant": "A test takes the root of a few positive definite matrices; the claims range over all of them, semidefinite and indefinite ones included, and uniqueness ranges over all other candidate roots.", "anchors": ["src/TMV_SymSVDecompose.cpp: SquareRoot, PolarDecompose", "src/TMV_SymMultMMS.cpp: SymMultMM", "include/tmv/TMV_SymCHD.h: PolarDecompose, SquareRoot"]}
