(** The square root of a hermitian matrix and the polar decomposition of a matrix, SquareRoot and
    PolarDecompose of /repo/src/TMV_SymSVDecompose.cpp, in exact arithmetic. *)
From Verif Require Import Base FMat RowPerm Cplx Chol LUDiv QR QRDiv SVDiv BidiagQR Sort SVDecompose Tridiag TridiagQR HermSVD.
From mathcomp Require Import all_ssreflect all_algebra.
Set Implicit Arguments. Unset Strict Implicit. Unset Printing Implicit Defensive.
Import GRing.Theory Num.Theory.
Local Open Scope ring_scope.

Section Model.
Variable C : numClosedFieldType.
Implicit Types (A U V P : fm C) (S D : fv C).

(** The element (i,j) of a hermitian ([ha]) or symmetric matrix of which one triangle is in
    memory: GenSymMatrix::cref, /repo/src/TMV_SymMatrix.cpp:53-62. *)
Definition symref (ha lower : bool) A : fm C := fun i j =>
  if tristored lower i j then A i j else if ha then (A j i)^* else A j i.

(** The loop of SquareRoot, TMV_SymSVDecompose.cpp:1671-1681: it throws at the first negative
    eigenvalue. *)
Definition SqrtLoop (N : nat) D : outcome (fv C) :=
  loop (up N) (fun i D => if D i < 0 then Throw NonPosDef else Ok (updv D i (sqrtC (D i)))) D.
(** SquareRoot, 1658-1684.  V0, D0: the former contents of the new matrices V and D.  A throw
    leaves A as it was: A is written by the last statement only. *)
Definition SquareRoot (eps : C) (under : C -> bool) (dclim nb tb : nat)
    (dc : nat -> nat -> nat -> tst C -> run (tst C)) blk stdsort (fuel : nat)
    (debug lower : bool) (N : nat) A V0 D0 (w : hwork C) : outcome (option (fm C)) :=
  do r <- Eigen eps under dclim nb tb dc blk stdsort false fuel N (symref true lower A) V0 D0 w;
  if r is Some (V, D) then
    do D <- SqrtLoop N D;
    do X <- SymMultMM debug true (tristored lower) N N V (fun k j => D k * hadj V k j) A;
    Ok (Some X)
  else Ok None.

(** The end of PolarDecompose, 1599-1606, with the decomposition that SV_Decompose gave: small
    singular values are replaced by zero, U becomes U Vt and the stored triangle of P that of
    Vt^dagger S Vt.  S(0) of an empty S is read outside its array. *)
Definition PolarTail (eps : C) (debug ha lower : bool) (M N : nat) U S Vt P0 : outcome (fm C * fm C) :=
  if N == 0%N then UB else
  let thresh := eps * N%:R * S 0%N in
  let S' : fv C := fun i => if (i < N)%N && (S i < thresh) then 0 else S i in
  let U' : fm C := fun i j => if ((i < M) && (j < N))%N then \sum_(0 <= k < N) U i k * Vt k j else U i j in
  do P <- SymMultMM debug ha (tristored lower) N N (fun i k => hadj Vt i k * S' k) Vt P0;
  Ok (U', P).
(** PolarDecompose of an M x N matrix, N <= M, 1574-1606; A is given in the place of U. *)
Definition PolarDecompose (eps : C) (under : C -> bool) (dclim nb : nat)
    (dc : nat -> nat -> nat -> nat -> bst C -> run (bst C)) stdsort (fuel esz : nat)
    (debug ha lower : bool) (M N : nat) A P0 Vt0 S0 (w : work C) : outcome (option (fm C * fm C)) :=
  do r <- SV_Decompose eps under dclim nb dc stdsort fuel esz M N A S0 Vt0 w 0;
  if r is Some (U, S1, Vt) then do x <- PolarTail eps debug ha lower M N U S1 Vt P0; Ok (Some x)
  else Ok None.
End Model.
