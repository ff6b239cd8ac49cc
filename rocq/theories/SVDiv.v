(** Model of the division with the singular value decomposition, /repo/src/TMV_SVD.cpp and
    TMV_SVDiv.cpp, in exact arithmetic.  The factors U, S, Vt are arguments: how they are
    computed is not modelled here. *)
From Verif Require Import Base FMat TriSolve TriInv RowPerm Cplx Chol Claims_Tri LUDiv QR QRDiv.
From mathcomp Require Import all_ssreflect all_algebra.
Set Implicit Arguments. Unset Strict Implicit. Unset Printing Implicit Defensive.
Import GRing.Theory Num.Theory.
Local Open Scope ring_scope.

Section Model.
Variable C : numClosedFieldType.
Implicit Types (A U Vt m x : fm C) (S : fv C).

(** DiagMatrix division of a k x K matrix from the left, RowDiagLDivEq,
    TMV_DiagMatrix.cpp:415-452, called when neither size is zero (535-540).  Row by row:
    a zero on the diagonal throws, otherwise the row is multiplied by the inverse. *)
Definition DiagLDivEq (k K : nat) S m : outcome (fm C) :=
  if (k == 0%N) || (K == 0%N) then Ok m
  else loop (up k) (fun i m =>
    if S i == 0 then Throw Singular
    else Ok (fun r c => if (r == i) && (c < K)%N then m r c * (S i)^-1 else m r c)) m.

(** SV_LDiv, TMV_SVDiv.cpp:47-67: x = V S^-1 U^dagger m with the first kmax singular values;
    U is M x N, m is M x K, x is N x K (x0: the memory x is written to). *)
Definition SV_LDiv (M N K : nat) U S Vt (kmax : nat) m x0 : outcome (fm C) :=
  let m2 : fm C := fun i c => \sum_(0 <= k < M) (U k i)^* * m k c in
  do m2 <- DiagLDivEq kmax K S m2;
  Ok (fun i c => if (i < N)%N && (c < K)%N then \sum_(0 <= k < kmax) (Vt k i)^* * m2 k c else x0 i c).
(** SV_RDiv, 92-111: m is K x N, x is K x M; m2 %= S divides the transpose
    (TMV_DiagMatrix.h:496-499). *)
Definition SV_RDiv (M N K : nat) U S Vt (kmax : nat) m x0 : outcome (fm C) :=
  let m2 : fm C := fun r i => \sum_(0 <= k < N) m r k * (Vt i k)^* in
  do m2 <- DiagLDivEq kmax K S (trm m2);
  Ok (fun r j => if (r < K)%N && (j < M)%N then \sum_(0 <= k < kmax) m2 k r * (U j k)^* else x0 r j).

(** thresh, TMV_SVD.cpp:217-235: drop the singular values S(k) <= S(0) * toler from the end. *)
Fixpoint thr S (t : C) (n : nat) : nat :=
  if n is k.+1 then (if S k <= t then thr S t k else n) else 0%N.
Definition SVDiv_thresh (n : nat) S (toler : C) : nat := if n == 0%N then 0%N else thr S (S 0%N * toler) n.
(** top, 237-248. *)
Definition SVDiv_top (n neigen : nat) : nat := if (neigen < n)%N then neigen else n.

(** doLDiv and doRDiv, 121-146 (doLDivEq and doRDivEq, 96-119, are the same with x0 = m and
    a square matrix).  A is Mr x Nr; when Mr < Nr the factors are those of the transpose. *)
Definition SVDiv_LDiv (Mr Nr K : nat) U S Vt kmax m x0 : outcome (fm C) :=
  if istrans Mr Nr then do x <- SV_RDiv Nr Mr K U S Vt kmax (trm m) (trm x0); Ok (trm x)
  else SV_LDiv Mr Nr K U S Vt kmax m x0.
Definition SVDiv_RDiv (Mr Nr K : nat) U S Vt kmax m x0 : outcome (fm C) :=
  if istrans Mr Nr then do x <- SV_LDiv Nr Mr K U S Vt kmax (trm m) (trm x0); Ok (trm x)
  else SV_RDiv Mr Nr K U S Vt kmax m x0.

(** doMakeInverse, 162-178; minv is Nr x Mr. *)
Definition SVDiv_Inverse (Mr Nr : nat) U S Vt kmax minv0 : outcome (fm C) :=
  if istrans Mr Nr then
    do s <- DiagLDivEq kmax Mr S (fun i j => (Vt i j)^*);
    Ok (fun i j => if (i < Nr)%N && (j < Mr)%N then \sum_(0 <= k < kmax) (U i k)^* * s k j else minv0 i j)
  else
    do s <- DiagLDivEq kmax Mr S (fun i j => (U j i)^*);
    Ok (fun i j => if (i < Nr)%N && (j < Mr)%N then \sum_(0 <= k < kmax) (Vt k i)^* * s k j else minv0 i j).
(** doMakeInverseATA, 180-200; n is the smaller dimension. *)
Definition SVDiv_InverseATA (Mr Nr : nat) S Vt kmax : outcome (fm C) :=
  do s <- DiagLDivEq kmax (minn Mr Nr) S Vt;
  Ok (if istrans Mr Nr then fun i j => \sum_(0 <= k < kmax) s k i * (s k j)^*
      else fun i j => \sum_(0 <= k < kmax) (s k i)^* * s k j).

(** isSingular, norm2, condition, 202-215; getU and getVt, 254-269 (each a view). *)
Definition SVDiv_isSingular (n kmax : nat) : bool := (kmax < n)%N.
Definition SVDiv_norm2 (n : nat) S : C := if (0 < n)%N then S 0%N else 0.
Definition SVDiv_condition (n : nat) S : C := if (0 < n)%N then S 0%N / S n.-1 else 1.
Definition SVDiv_getU (Mr Nr : nat) U Vt : fm C := if istrans Mr Nr then trm Vt else U.
Definition SVDiv_getVt (Mr Nr : nat) U Vt : fm C := if istrans Mr Nr then trm U else Vt.
(** The ratio checkDecomp compares with, 287: S(0) / S(kmax-1); the element -1 is read from
    outside the array when kmax is 0. *)
Definition SVDiv_checkCond S (kmax : nat) : outcome C :=
  if kmax is k.+1 then Ok (S 0%N / S k) else UB.
End Model.
