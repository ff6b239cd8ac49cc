(** Cholesky decomposition of hermitian band matrices, LDL decomposition of tridiagonal
    ones, and division through them: src/TMV_SymBandCHDecompose.cpp, TMV_SymBandCHDiv.cpp,
    TMV_SymBandCHInverse.cpp and TMV_SymBandCHD.cpp (without LAPACK).  Exact arithmetic.
    A band matrix is an index function of which only the elements of the stored triangle
    at most nlo places from the diagonal exist. *)
From Verif Require Import Base FMat TriSolve TriInv LUDiv Cplx Chol CholDiv LDL BandTri BandLUDiv SymSquare.
From mathcomp Require Import all_ssreflect all_fingroup all_algebra zify.
Set Implicit Arguments. Unset Strict Implicit. Unset Printing Implicit Defensive.
Import GRing.Theory Num.Theory Order.Theory.
Local Open Scope ring_scope.

Section Model.
Variable C : numClosedFieldType.
Implicit Types (A m raw LL S : fm C).
(** TRI_DIV_BLOCKSIZE of TriInverse; the storage orders of the operands of the divisions;
    the flags of the band views divided by. *)
Variable nb : nat.
Variables (stA stB : stor) (isrm iscm isdm : bool).

(** m /= A and m %= A for a square band matrix A: a BandLUDiv of A is made and used
    (TMV_BandMatrix.cpp:62-83).  K is the number of columns (rows) of m. *)
Definition bandLDivEq (N nlo nhi K : nat) A m : outcome (fm C) :=
  do Q <- BandLUDiv_ctor isrm iscm isdm false N nlo nhi A (fun _ _ => 0);
  bdoLDivEq stA stB (bl_trans nlo nhi isrm) N (minn nlo nhi) (minn (nlo + nhi) N.-1) K Q.1 Q.2 m.
Definition bandRDivEq (N nlo nhi K : nat) A m : outcome (fm C) :=
  do Q <- BandLUDiv_ctor isrm iscm isdm false N nlo nhi A (fun _ _ => 0);
  bdoRDivEq stA stB (bl_trans nlo nhi isrm) N (minn nlo nhi) (minn (nlo + nhi) N.-1) K Q.1 Q.2 m.

(** ** TMV_SymBandCHDecompose.cpp *)

(** DoNonLapCH_Decompose, nlo == 0: 78-95. *)
Definition BCH_diag (N : nat) A : outcome (fm C) := loop (up N) (@chlast C) A.
(** cm: 96-132.  The column is divided and the rank-1 update applied for the rows before
    endcol only; then [if (endcol < N) ++endcol]. *)
Definition BCH_col (N nlo : nat) A : outcome (fm C) :=
  do Q <- loop (up N.-1) (fun j (Q : fm C * nat) =>
            do A <- chcol Q.2 j Q.1; Ok (A, if (Q.2 < N)%N then Q.2.+1 else Q.2)) (A, nlo.+1);
  chlast N.-1 Q.1.
(** rm: 133-170.  The row i from startrow on is divided by the adjoint of the lower band
    of the square block (startrow,i). *)
Definition setrowS (i s : nat) (x : fv C) A : fm C :=
  fun r c => if (r == i) && (s <= c < i)%N then x (c - s)%N else A r c.
Definition bchrow (nlo i : nat) (Q : fm C * nat) : outcome (fm C * nat) :=
  let A := Q.1 in
  let s := if (nlo < i)%N then Q.2.+1 else Q.2 in
  do X <- bandRDivEq (i - s) 0 (minn nlo (i - s).-1) 1 (trm (cjm (subm s s A))) (fun _ k => A i (s + k)%N);
  let A1 := setrowS i s (X 0%N) A in
  let d := 'Re (A1 i i) - \sum_(s <= k < i) tNORM (A1 i k) in
  do e <- chk d;
  Ok (updm A1 i i (setre (A1 i i) e), s).
Definition BCH_row (N nlo : nat) A : outcome (fm C) :=
  do A <- chlast 0 A;
  do Q <- loop (iota 1 N.-1) (bchrow nlo) (A, 0%N); Ok Q.1.

(** CH_Decompose, 602-618, on the stored array: adjoint() and conjugate() only change the
    view.  [cm]: iscm() of the (transposed, if upper) view. *)
Definition BCH_Decompose (cm upper : bool) (N nlo : nat) raw : outcome (fm C) :=
  let go A := if (0 < N)%N then
      (if nlo == 0%N then BCH_diag N A else if cm then BCH_col N nlo A else BCH_row N nlo A)
    else Ok A in
  do R <- go (core upper raw); Ok (core upper R).

(** NonLapLDL_Decompose, 199-262 (herm) and SymLDL_Decompose, 299-361: one turn. *)
Definition ldlstep (herm : bool) (j : nat) A : outcome (fm C) :=
  let Ax0 := A j.+1 j in
  if hre herm (A j j) == 0 then Throw NonPosDef else
  let l := Ax0 / hre herm (A j j) in
  let A1 := updm A j.+1 j l in
  Ok (updm A1 j.+1 j.+1 (if herm then setre (A1 j.+1 j.+1) ('Re (A1 j.+1 j.+1) - 'Re (l^* * Ax0))
                         else A1 j.+1 j.+1 - l * Ax0)).
Definition ldllast (herm : bool) (j : nat) A : outcome (fm C) :=
  if hre herm (A j j) == 0 then Throw NonPosDef else Ok A.
(** The symmetric version has no loop for DiagMajor storage (320-337): one turn, then the
    test of the element reached. *)
Definition BLDL (herm dm : bool) (N : nat) A : outcome (fm C) :=
  if ~~ herm && dm then do A <- ldlstep herm 0 A; ldllast herm 1 A
  else do A <- loop (up N.-1) (ldlstep herm) A; ldllast herm N.-1 A.
(** LDL_Decompose, 577-600. *)
Definition BLDL_Decompose (herm dm upper : bool) (N : nat) raw : outcome (fm C) :=
  do R <- (if (0 < N)%N then BLDL herm dm N (core upper raw) else Ok (core upper raw)); Ok (core upper R).

(** ** TMV_SymBandCHDiv.cpp: LL is the array of a lower view, conjugated if [cj]. *)

(** m /= and m %= a diagonal matrix: DiagMatrix, which tests for zeros. *)
Definition rowsdiv (N K : nat) (d : fv C) m : outcome (fm C) :=
  if all (fun i => d i != 0) (iota 0 N) then
    Ok (fun i k => if (i < N)%N && (k < K)%N then m i k / d i else m i k) else Throw Singular.
Definition colsdiv (N K : nat) (d : fv C) m : outcome (fm C) :=
  if all (fun i => d i != 0) (iota 0 N) then
    Ok (fun k i => if (i < N)%N && (k < K)%N then m k i / d i else m k i) else Throw Singular.
Definition adjf m : fm C := fun i j => (m j i)^*.

(** CH_LDivEq, LDL_LDivEq, CH_RDivEq, LDL_RDivEq: 34-84. *)
Definition BCH_LDivEq (cj : bool) (N nlo K : nat) LL m : outcome (fm C) :=
  do m <- bandLDivEq N nlo 0 K (lowerTri false cj LL) m;
  bandLDivEq N 0 nlo K (upperTri false cj LL) m.
Definition BLDL_LDivEq (cj : bool) (N nlo K : nat) LL m : outcome (fm C) :=
  do m <- BTriLDivEqML stA stB true N nlo K (lowerTri false cj LL) m;
  do m <- rowsdiv N K (fun i => 'Re (LL i i)) m;
  BTriLDivEqMU stA stB true N nlo K (upperTri false cj LL) m.
Definition BCH_RDivEq (cj : bool) (N nlo K : nat) LL m : outcome (fm C) :=
  do m <- bandLDivEq N nlo 0 K (lowerTri false cj LL) (adjf m);
  do m <- bandLDivEq N 0 nlo K (upperTri false cj LL) m;
  Ok (adjf m).
Definition BLDL_RDivEq (cj : bool) (N nlo K : nat) LL m : outcome (fm C) :=
  do m <- BTriLDivEqML stA stB true N nlo K (lowerTri false cj LL) (adjf m);
  do m <- colsdiv N K (fun i => 'Re (LL i i)) (adjf m);
  do m <- BTriLDivEqMU stA stB true N nlo K (upperTri false cj LL) (adjf m);
  Ok (adjf m).

(** ** TMV_SymBandCHInverse.cpp: the values of the lower triangle of sinv. *)

(** sinv = LLx: the band, zero elsewhere. *)
Definition bspread (cj : bool) (nlo : nat) LL : fm C :=
  fun i j => if (j <= i <= j + nlo)%N then velt cj LL i j else 0.
(** CH_Inverse, 114-155, with DoCHInverse, 54-62.  The product is the mathematical one. *)
Definition BCH_Inverse (cj : bool) (N nlo : nat) LL : outcome (fm C) :=
  do X <- BTriInverse nb false N nlo (trm (bspread cj nlo LL));
  let L := lower false (trm X) in
  Ok (fun i j => \sum_(0 <= k < N) (L k i)^* * L k j).

(** SimpleLDLt_AddXtDX, 64-76: the n x n lower triangle B += X^dagger D X. *)
Fixpoint SAddXtDX (fuel n N : nat) (X : fm C) (D : fv C) (B : fm C) : outcome (fm C) :=
  match fuel with
  | 0 => UB
  | f.+1 =>
    if N == 1%N then
      Ok (fun i j => if (i < n)%N && (j <= i)%N then B i j + D 0%N * (X 0%N i)^* * X 0%N j else B i j)
    else
      let p := (N %/ 2)%N in
      do B <- SAddXtDX f n p X D B;
      SAddXtDX f n (N - p) (subm p 0 X) (subv p D) B
  end.
(** SimpleLDLt_CombineInverse, 78-102. *)
Fixpoint SCombine (fuel N : nat) S : outcome (fm C) :=
  match fuel with
  | 0 => UB
  | f.+1 =>
    if (N <= 1)%N then Ok S else
    let p := (N %/ 2)%N in
    do S1 <- SCombine f p S;
    let D : fv C := fun i => S1 (p + i)%N (p + i)%N in
    do S2 <- SAddXtDX N p (N - p) (subm p 0 S1) D S1;
    let S3 := putm p 0 (N - p) p S2 (fun i j => D i * S2 (p + i)%N j) in
    let X11 := lower true (subm p p S3) in
    let S4 := putm p 0 (N - p) p S3 (fun i j => \sum_(0 <= k < N - p) (X11 k i)^* * S3 (p + k)%N j) in
    do T <- SCombine f (N - p) (subm p p S4);
    Ok (putm p p (N - p) (N - p) S4 T)
  end.
(** LDL_Inverse, 157-203, with DoLDL_Inverse, 104-112. *)
Definition BLDL_Inverse (cj : bool) (N nlo : nat) LL : outcome (fm C) :=
  do X <- BTriInverse nb true N 1 (trm (bspread cj nlo LL));
  let S := trm X in
  if all (fun i => 'Re (S i i) != 0) (iota 0 N) then
    SCombine N.+1 N (fun i j => if (i == j) && (i < N)%N then setre (S i i) ('Re (S i i))^-1 else S i j)
  else Throw Singular.

(** ** TMV_SymBandCHD.cpp *)

(** The member "inplace", 66-69. *)
Definition bch_inplace (rm cm dm inplace : bool) (nlo : nat) : bool :=
  inplace && ((cm || rm) && (1 < nlo)%N || dm && (nlo == 1%N)) || (nlo == 0%N).
(** HermBandCHDiv(A,inplace), 78-110: the array of LLx, a lower view, and whether that view
    is conjugated.  [inplace] is the argument; when the member is false and the argument is
    true LLx is new memory, holding [junk]. *)
Definition BCHDiv_new (rm cm dm inplace upper cj : bool) (N nlo : nat) raw junk : outcome (fm C * bool) :=
  let ip := bch_inplace rm cm dm inplace nlo in
  let LL := if ip then core upper raw else if inplace then junk else lowerTri upper cj raw in
  let cjL := if ip then upper (+) cj else false in
  let cmL := if ip then (if upper then rm else cm) else true in
  do LL <- (if (1 < nlo)%N then BCH_Decompose cmL false N nlo LL
            else if nlo == 1%N then BLDL_Decompose true (if ip then dm else true) false N LL
            else if has (fun i => 'Re (raw i i) <= 0) (iota 0 N) then Throw NonPosDef else Ok LL);
  Ok (LL, cjL).

(** doLDivEq, doRDivEq: 115-137. *)
Definition BCHDiv_LDivEq (cj : bool) (N nlo K : nat) LL m : outcome (fm C) :=
  if (1 < nlo)%N then BCH_LDivEq cj N nlo K LL m
  else if nlo == 1%N then BLDL_LDivEq cj N nlo K LL m
  else rowsdiv N K (fun i => velt cj LL i i) m.
Definition BCHDiv_RDivEq (cj : bool) (N nlo K : nat) LL m : outcome (fm C) :=
  if (1 < nlo)%N then BCH_RDivEq cj N nlo K LL m
  else if nlo == 1%N then BLDL_RDivEq cj N nlo K LL m
  else colsdiv N K (fun i => velt cj LL i i) m.
(** getL(), getD(): 244-257. *)
Definition BCHDiv_getL (cj : bool) (nlo : nat) LL : fm C := fun i j =>
  if (nlo <= 1)%N && (i == j) then 1 else if (j <= i <= j + nlo)%N then velt cj LL i j else 0.
Definition BCHDiv_getD (cj : bool) (nlo : nat) LL : fm C := fun i j =>
  if i == j then (if (nlo <= 1)%N then velt cj LL i i else 1) else 0.
(** det(), 169-181: exp of the sum of log|d|, doubled for nlo > 1; the sign s that logDet
    returns is only compared with 0. *)
Definition BCHDiv_det (N nlo : nat) LL : C :=
  let p := \prod_(0 <= i < N) `|LL i i| in if (1 < nlo)%N then p ^+ 2 else p.
(** logDet(&sign), 183-198: the sign. *)
Definition BCHDiv_sign (N : nat) LL : C := if all (fun i => LL i i != 0) (iota 0 N) then 1 else 0.
(** doMakeInverse(SymMatrixView), 200-211, the lower triangle; doMakeInverse(MatrixView),
    213-224. *)
Definition BCHDiv_InverseLow (cj : bool) (N nlo : nat) LL : outcome (fm C) :=
  if (1 < nlo)%N then BCH_Inverse cj N nlo LL
  else if nlo == 1%N then BLDL_Inverse cj N nlo LL
  else if all (fun i => 'Re (LL i i) != 0) (iota 0 N) then
    Ok (fun i j => if i == j then ('Re (LL i i))^-1 else 0) else Throw Singular.
Definition BCHDiv_Inverse (cj : bool) (N nlo : nat) LL m : outcome (fm C) :=
  do V <- BCHDiv_InverseLow cj N nlo LL;
  Ok (fun i j => if (i < N)%N && (j < N)%N then (if (j <= i)%N then V i j else (V j i)^*) else m i j).
(** doMakeInverseATA, 225-234: the inverse in the lower triangle of ata, then SymSquare. *)
Definition BCHDiv_InverseATA (fuel : nat) (cj : bool) (N nlo : nat) LL (ata : fm C) : outcome (fm C) :=
  do V <- BCHDiv_InverseLow cj N nlo LL;
  SymSquare fuel true N (fun i j => if (i < N)%N && (j <= i)%N then V i j else realdiag N ata i j).
End Model.
