(** Reduction of a hermitian matrix to tridiagonal form, without LAPACK:
    /repo/src/TMV_SymHouseholder.cpp:34-84 and the unblocked algorithm of
    /repo/src/TMV_SymSVDecompose_Tridiag.cpp, which is the one used below
    2*SYM_TRIDIAG_BLOCKSIZE (128) rows (229-237); then the first half of UnsortedHermEigen,
    /repo/src/TMV_SymSVDecompose.cpp:1203-1255, which unpacks the unitary factor.
    BlockTridiagonalize (97-227) is the parameter [blk].  Exact arithmetic.  The matrix is
    the lower triangle of the array (A.uplo() == Lower), a real one has real elements. *)
From Verif Require Import Base FMat Cplx QR QRDiv.
From mathcomp Require Import all_ssreflect all_algebra.
Set Implicit Arguments. Unset Strict Implicit. Unset Printing Implicit Defensive.
Import GRing.Theory Num.Theory.
Local Open Scope ring_scope.

Section Model.
Variable C : numClosedFieldType.
Variable under : C -> bool.
Implicit Types (A U : fm C) (D E beta v : fv C).

(** Element (i,j) of the HermMatrix whose lower triangle is in A. *)
Definition hel A (i j : nat) : C := if (j <= i)%N then A i j else (A j i)^*.

(** HouseholderLRMult, TMV_SymHouseholder.cpp:34-84, on A.subSymMatrix(k,N); v holds its
    vector in rows k+1 on.  Rank2Update<true>, TMV_Rank2_VVS.cpp:156-235, adds
    -beta vv mv^dagger and its adjoint to the lower triangle and clears the imaginary part
    of the diagonal (231-235). *)
Definition hlrmult (N k : nat) v (beta : C) A : fm C :=
  if beta != 0 then
    let vv : fv C := fun i => if i == k then 1 else v i in
    let mv : fv C := fun i => \sum_(k <= l < N) hel A i l * vv l in
    let bs := tNORM beta * \sum_(k <= l < N) (vv l)^* * mv l in
    fun i j => if ((k <= j) && (j <= i < N))%N then
      let a := A i j + (- beta * vv i * (mv j)^* + mv i * (- beta * vv j)^*) in
      (if i == j then 'Re a else a) + 'Re bs * (vv i * (vv j)^*)
    else A i j
  else A.

(** A.col(j,j+1,N) as the column j+1 of a matrix, from its row j+1 on; and a write
    through it. *)
Definition shc A : fm C := fun i c => if c is c'.+1 then A i c' else 0.
Definition unshc A : fm C := fun i c => A i c.+1.

(** One pass of the loop of NonBlockTridiagonalize, TMV_SymSVDecompose_Tridiag.cpp:77-85. *)
Definition tstep (N j : nat) (s : fm C * fv C * C) : fm C * fv C * C :=
  let: (A, beta, det) := s in
  let: (A, b, det) := hreflect under N j.+1 (shc A) det in
  let A := unshc A in
  (if b != 0 then hlrmult N j.+1 (fun i => A i j) b A else A, updv beta j b, det).

(** NonBlockTridiagonalize, 52-94: A, beta, D, E.  det starts as 0 for a hermitian matrix
    (516) and is not used. *)
Definition NonBlockTridiagonalize (N : nat) A beta D E : fm C * fv C * fv C * fv C :=
  let: (A, beta, _) := foldl (fun s j => tstep N j s) (A, beta, 0) (iota 0 (N - 1)) in
  let D' : fv C := fun i => if (i < N)%N then 'Re (A i i) else D i in
  let E' : fv C := fun i => if (i < N - 1)%N then 'Re (hel A i i.+1) else E i in
  (A, beta, D', E').

(** SYM_TRIDIAG_BLOCKSIZE and the algorithm used from twice as many rows on. *)
Variable tb : nat.
Variable blk : nat -> fm C -> fv C -> fv C -> fv C -> fm C * fv C * fv C * fv C.
(** Tridiagonalize of a lower hermitian matrix, 229-237, 495-620. *)
Definition Tridiagonalize (N : nat) A beta D E : fm C * fv C * fv C * fv C :=
  if (0 < N)%N then
    (if (tb * 2 <= N)%N then blk N A beta D E else NonBlockTridiagonalize N A beta D E)
  else (A, beta, D, E).

(** TMV_SymSVDecompose.cpp:1244-1248: the vectors are moved one column to the right, the
    first row and column become those of the identity (the rest of the upper triangle stays), and
    GetQFromQR works on U.subMatrix(1,N,1,N).  Z0: its work matrix. *)
Definition shiftU (N : nat) U : fm C := fun i j =>
  if (i < N)%N && (j < N)%N then
    (if j is j'.+1 then (if i == 0%N then 0 else if (j <= i)%N then U i j' else U i j) else (i == 0%N)%:R)
  else U i j.
Definition putU (Q U : fm C) : fm C := fun i j =>
  if i is i'.+1 then (if j is j'.+1 then Q i' j' else U i j) else U i j.
Definition TridiagUnpack (nb N : nat) U beta D E Z0 : outcome (fm C * fv C * fv C) :=
  let: (U, beta, D, E) := Tridiagonalize N U beta D E in
  let U := shiftU N U in
  do Q <- GetQFromQR nb (N - 1) (N - 1) (fun i j => U i.+1 j.+1) beta Z0;
  Ok (putU Q U, D, E).
End Model.
