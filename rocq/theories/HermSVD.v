(** Division by a hermitian matrix with its eigenvectors, HermSVDiv of /repo/src/TMV_SymSVD.cpp
    and HermSV_Inverse of /repo/src/TMV_SymSVInverse.cpp, in exact arithmetic.  U and S are those
    of HermSV_Decompose (TridiagQR.v): S holds eigenvalues, which may be negative. *)
From Verif Require Import Base FMat TriSolve TriInv RowPerm Cplx Chol Claims_Tri LUDiv QR QRDiv SVDiv BidiagQR TridiagQR.
From mathcomp Require Import all_ssreflect all_algebra.
Set Implicit Arguments. Unset Strict Implicit. Unset Printing Implicit Defensive.
Import GRing.Theory Num.Theory.
Local Open Scope ring_scope.

Section Model.
Variable C : numClosedFieldType.
Implicit Types (A U m x : fm C) (S : fv C).

(** U.adjoint(). *)
Definition hadj U : fm C := fun i j => (U j i)^*.
(** doLDiv and doRDiv, TMV_SymSVD.cpp:96-114 (doLDivEq and doRDivEq, 82-94, are the same with
    x0 = m): CallSV_LDiv and CallSV_RDiv with U.adjoint() for Vt. *)
Definition HermSVDiv_LDiv (N K : nat) U S kmax m x0 : outcome (fm C) := SV_LDiv N N K U S (hadj U) kmax m x0.
Definition HermSVDiv_RDiv (N K : nat) U S kmax m x0 : outcome (fm C) := SV_RDiv N N K U S (hadj U) kmax m x0.

(** SymMultMM<false>(1,x,y,A), TMV_SymMultMMS.cpp:56-132 and 230-303, without shared storage: the
    stored triangle of A becomes that of x y, by its elements (the recursion writes each once);
    a hermitian A ([ha]) gets a real diagonal.  With TMV_DEBUG ([debug]) the assertion in line
    66 refuses an empty inner dimension. *)
Definition SymMultMM (debug ha : bool) (stored : nat -> nat -> bool) (N K : nat) x (y A0 : fm C) : outcome (fm C) :=
  if [&& debug, 0 < N & K == 0]%N then Throw FailedAssert
  else Ok (fun i j => if [&& i < N, j < N & stored i j]%N then
                        let s := \sum_(0 <= k < K) x i k * y k j in if ha && (i == j) then 'Re s else s
                      else A0 i j).
(** Which elements of a symmetric or hermitian matrix are in memory. *)
Definition tristored (lower : bool) (i j : nat) : bool := if lower then (j <= i)%N else (i <= j)%N.

(** HermSV_Inverse, TMV_SymSVInverse.cpp:34-43. *)
Definition HermSV_Inverse (debug : bool) (stored : nat -> nat -> bool) (N : nat) U S kmax sinv0 : outcome (fm C) :=
  do s <- DiagLDivEq kmax N S (hadj U);
  SymMultMM debug true stored N kmax U s sinv0.
(** doMakeInverse of a matrix, TMV_SymSVD.cpp:145-154: the upper triangle, then its adjoint
    below. *)
Definition HermSVDiv_Inverse (debug : bool) (N : nat) U S kmax minv0 : outcome (fm C) :=
  do x <- HermSV_Inverse debug (tristored false) N U S kmax minv0;
  Ok (fun i j => if ((j < i) && (i < N))%N then (x j i)^* else x i j).
(** doMakeInverse of a hermitian matrix, 137-142: its stored triangle. *)
Definition HermSVDiv_SymInverse (debug lower : bool) (N : nat) U S kmax sinv0 : outcome (fm C) :=
  HermSV_Inverse debug (tristored lower) N U S kmax sinv0.
(** doMakeInverseATA, 156-168. *)
Definition HermSVDiv_InverseATA (N : nat) U S kmax : outcome (fm C) :=
  do s <- DiagLDivEq kmax N S (hadj U);
  Ok (fun i j => \sum_(0 <= k < kmax) (s k i)^* * s k j).

(** thresh and top, 185-216; isSingular, norm2, condition, 170-183. *)
Definition HermSVDiv_thresh (N : nat) S (toler : C) : nat :=
  if N == 0%N then 0%N else thr (fun i => `|S i|) (`|S 0%N| * toler) N.
Definition HermSVDiv_top (N neigen : nat) : nat := if (neigen < N)%N then neigen else N.
Definition HermSVDiv_isSingular (N kmax : nat) : bool := (kmax < N)%N.
Definition HermSVDiv_norm2 (N : nat) S : C := if (0 < N)%N then `|S 0%N| else 0.
Definition HermSVDiv_condition (N : nat) S : C := if (0 < N)%N then `|S 0%N / S N.-1| else 1.
(** getS and getVt, 226-244; getU is a view of U. *)
Definition HermSVDiv_getS (N : nat) S : fv C := fun i => if (i < N)%N && (S i < 0) then - S i else S i.
Definition HermSVDiv_getVt (N : nat) U S : fm C := fun i j =>
  if (i < N)%N && (S i < 0) then hadj U i j * -1 else hadj U i j.
(** det, 116-125: the sign and the logarithm of the diagonal S, put together.  That
    GenDiagMatrix::logDet and its exponential give the product is C23. *)
Definition HermSVDiv_det (N : nat) S : C := \prod_(0 <= i < N) S i.

(** The constructor, 68-77, into U: the lower triangle of A, decomposed; then
    thresh(TMV_Epsilon). *)
Definition HermSVDiv_ctor (eps : C) (under : C -> bool) (dclim nb tb : nat)
    (dc : nat -> nat -> nat -> tst C -> run (tst C)) blk stdsort (fuel N : nat) A U S (w : hwork C)
    : outcome (option (fm C * fv C * nat)) :=
  do r <- HermSV_Decompose eps under dclim nb tb dc blk stdsort fuel N (setlow N A U) S w;
  Ok (if r is Some (U1, S1) then Some (U1, S1, HermSVDiv_thresh N S1 eps) else None).
End Model.
