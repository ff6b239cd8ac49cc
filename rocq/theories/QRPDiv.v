(** Model of the division with the QRP decomposition, /repo/src/TMV_QRPD.cpp,
    TMV_QRDiv.cpp and TMV_QRInverse.cpp with their P and N1 arguments. *)
From Verif Require Import Base FMat TriSolve TriInv RowPerm Cplx Chol Claims_Tri LUDiv QR QRDiv QRP.
From mathcomp Require Import all_ssreflect all_algebra.
Set Implicit Arguments. Unset Strict Implicit. Unset Printing Implicit Defensive.
Import GRing.Theory Num.Theory.
Local Open Scope ring_scope.

Section Model.
Variable C : numClosedFieldType.
Variables (nb tb tb2 : nat) (stA stB : stor).
Implicit Types (A QRx m Z : fm C) (beta : fv C) (P : nat -> nat).

(** QR_LDiv and QR_LDivEq, TMV_QRDiv.cpp:33-119: m is M x K, the result is in the first N
    rows (the code copies these to x; here the others stay). *)
Definition QRP_LDiv (M N K : nat) QRx beta P (N1 : nat) Z0 m : outcome (fm C) :=
  do m1 <- Q_LDivEq nb M N K QRx beta Z0 m;
  let x : fm C := fun i j => if (N1 <= i < N)%N && (j < K)%N then 0 else m1 i j in
  do x <- TriLDivEqMU tb tb2 stA stB false N1 K QRx x;
  Ok (revpermrows K P 0 N x).
(** QR_RDiv and QR_RDivEq, 126-191: m is K x N, x is K x M. *)
Definition QRP_RDiv (M N K : nat) QRx beta P (N1 : nat) Z0 m : outcome (fm C) :=
  let x := trm (permrows K P 0 N (trm m)) in
  let x : fm C := fun i j => if (i < K)%N && (N1 <= j < M)%N then 0 else x i j in
  do x <- TriRDivEqM tb tb2 true stA stB false N1 K QRx x;
  Q_RDivEq nb M N K QRx beta Z0 x.
(** QR_Inverse, TMV_QRInverse.cpp:29-44; minv is N x M. *)
Definition QRP_Inverse (M N : nat) QRx beta P (N1 : nat) Z0 : outcome (fm C) :=
  let minv : fm C := fun i j => if (i <= j < N1)%N then QRx i j else 0 in
  do minv <- TriInverse tb false N1 minv;
  do minv <- Q_RDivEq nb M N N QRx beta Z0 minv;
  Ok (revpermrows M P 0 N minv).
(** QRPDiv::doMakeInverseATA, TMV_QRPD.cpp:197-206. *)
Definition QRP_InverseATA (N : nat) QRx P : outcome (fm C) :=
  do ata <- QR_InverseATA tb N QRx;
  Ok (trm (revpermrows N P 0 N (trm (revpermrows N P 0 N ata)))).

(** The constructor, 79-99: N1 leaves out the zeros at the end of the diagonal. *)
Fixpoint stripz (d : nat -> C) (n : nat) : nat :=
  if n is k.+1 then (if d k == 0 then stripz d k else n) else 0%N.
Definition QRPDiv_new (under : C -> bool) (eps : C) (strict : bool) (Mr Nr : nat) A beta0 P0 cn0 Z0
    : outcome (pst C * nat) :=
  do s <- QRP_Decompose nb under eps strict (maxn Mr Nr) (minn Mr Nr) (QRDiv_QRx Mr Nr A) beta0 P0 1 cn0 Z0;
  Ok (s, stripz (fun k => qA s k k) (minn Mr Nr)).
(** doLDiv, doRDiv, doMakeInverse, 130-161, 187-195 (doLDivEq and doRDivEq, 105-129, are
    the square case). *)
Definition QRPDiv_LDiv (Mr Nr K : nat) QRx beta P N1 Z0 m : outcome (fm C) :=
  if istrans Mr Nr then do x <- QRP_RDiv Nr Mr K QRx beta P N1 Z0 (trm m); Ok (trm x)
  else QRP_LDiv Mr Nr K QRx beta P N1 Z0 m.
Definition QRPDiv_RDiv (Mr Nr K : nat) QRx beta P N1 Z0 m : outcome (fm C) :=
  if istrans Mr Nr then do x <- QRP_LDiv Nr Mr K QRx beta P N1 Z0 (trm m); Ok (trm x)
  else QRP_RDiv Mr Nr K QRx beta P N1 Z0 m.
Definition QRPDiv_Inverse (Mr Nr : nat) QRx beta P N1 Z0 : outcome (fm C) :=
  if istrans Mr Nr then do x <- QRP_Inverse Nr Mr QRx beta P N1 Z0; Ok (trm x)
  else QRP_Inverse Mr Nr QRx beta P N1 Z0.
End Model.
