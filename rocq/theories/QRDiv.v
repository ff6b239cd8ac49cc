(** Using a QR decomposition: forming Q (src/TMV_GetQFromQR.cpp), multiplying by
    Q^-1 (src/TMV_PackedQ.cpp), division and inverse (src/TMV_QRDiv.cpp,
    src/TMV_QRInverse.cpp) and the divider (src/TMV_QRD.cpp); without LAPACK. *)
From Coq Require Import Ring Field.
From Verif Require Import Base FMat TriSolve TriInv Claims_Tri LUDiv RingTac Cplx Chol QR.
From mathcomp Require Import all_ssreflect all_fingroup all_algebra zify.
Set Implicit Arguments. Unset Strict Implicit. Unset Printing Implicit Defensive.
Import GRing.Theory Num.Theory Order.Theory.
Local Open Scope ring_scope.

Section Model.
Variable C : numClosedFieldType.
(** QR_BLOCKSIZE; the block sizes of the triangular division and inverse; storage
    of the operands. *)
Variables nb tb tb2 : nat.
Variables stA stB : stor.
Implicit Types (A Q Y Z m : fm C) (beta : fv C).

(** HouseholderUnpack on Q.subMatrix(i,M,i,N), TMV_Householder.cpp:401-418, 443-471. *)
Definition hunpack (M i N : nat) (b : C) Q : fm C :=
  let Q1 := hlmult M i i.+1 N (fun r => Q r i) b^* Q in
  if b == 0 then updm Q1 i i 1
  else setbelow M i (1 - b^*) (fun r => Q1 r i * - b^*) Q1.

(** BlockHouseholderMakeZ, 558-691. *)
Fixpoint MakeZ (fuel M o n : nat) Y beta Z : outcome (fm C) :=
  match fuel with
  | 0 => UB
  | f.+1 =>
    if n == 1%N then Ok (updm Z o o (beta o)^*)
    else if n == 2%N then
      Ok (makeZ01 M o Y (updm (updm Z o o (beta o)^*) o.+1 o.+1 (beta o.+1)^*))
    else
      let j1 := (n.+1 %/ 2)%N in
      do Z <- MakeZ f M o j1 Y beta Z;
      do Z <- MakeZ f M (o + j1) (n - j1) Y beta Z;
      Ok (makeZ3 M o j1 n Y Z)
  end.

(** BlockHouseholderUnpack, 816-845, on the columns [o,o+n) of Q, with m the columns
    [o+n,N).  temp is an UpperTriMatrix. *)
Definition bunpack (M o n N : nat) Z Q : fm C :=
  let Q1 := blockmult false M o n (o + n) N Q Z Q in
  let temp := fun k l => - \sum_(o <= t < o + n) zelt Z k t * (yelt Q l t)^* in
  fun i c => if (o <= c < o + n)%N && (o <= i < M)%N then
               (if (i < o + n)%N
                then \sum_(o <= k < o + n) yelt Q i k * zelt temp k c + (if i == c then 1 else 0)
                else \sum_(o <= k < o + n) Q i k * zelt temp k c)
             else Q1 i c.

(** Q.upperTri().setZero(), TMV_GetQFromQR.cpp:60, 90. *)
Definition zeroup (N : nat) Q : fm C := fun i j => if (i <= j < N)%N then 0 else Q i j.

(** The loop of NonBlockGetQFromQR, 62-72, for i = n-1 .. 0. *)
Fixpoint GetQloop (M N n : nat) beta Q : fm C :=
  if n is i.+1 then GetQloop M N i beta (hunpack M i N (beta i) Q) else Q.
(** The loop of BlockGetQFromQR, 91-100.  Z is BaseZ. *)
Fixpoint BGetQloop (fuel M N j2 : nat) beta Z Q : outcome (fm C) :=
  if (0 < j2)%N then
    match fuel with
    | 0 => UB
    | f.+1 =>
      let j1 := if (nb < j2)%N then (j2 - nb)%N else 0%N in
      do Z <- MakeZ (j2 - j1).+1 M j1 (j2 - j1) Q beta Z;
      BGetQloop f M N j1 beta Z (bunpack M j1 (j2 - j1) N Z Q)
    end
  else Ok Q.
(** GetQFromQR with NonLapGetQFromQR, 112-123, 423-445. *)
Definition GetQFromQR (M N : nat) Q beta Z0 : outcome (fm C) :=
  if (nb <= N)%N then BGetQloop N M N N beta Z0 (zeroup N Q)
  else Ok (GetQloop M N N beta (zeroup N Q)).

(** NonBlockQLDivEq, TMV_PackedQ.cpp:55-76; m has K columns. *)
Definition NBQLDivEq (M N K : nat) Q beta m : fm C :=
  foldl (fun m j => if beta j != 0 then hlmult M j 0 K (fun r => Q r j) (beta j) m else m) m (iota 0 N).
(** BlockQLDivEq, 78-112. *)
Fixpoint BQLDivEq (fuel M N K j1 : nat) Q beta Z m : outcome (fm C) :=
  if (j1 < N)%N then
    match fuel with
    | 0 => UB
    | f.+1 =>
      let j2 := minn N (j1 + nb) in
      do Z <- MakeZ (j2 - j1).+1 M j1 (j2 - j1) Q beta Z;
      BQLDivEq f M N K j2 Q beta Z (blockmult true M j1 (j2 - j1) 0 K Q Z m)
    end
  else Ok m.
(** Q_LDivEq with NonLapQLDivEq, 125-140, 487-543. *)
Definition Q_LDivEq (M N K : nat) Q beta Z0 m : outcome (fm C) :=
  if (nb < N)%N && (nb < K)%N then BQLDivEq N M N K 0 Q beta Z0 m
  else Ok (NBQLDivEq M N K Q beta m).

(** NonBlockQRDivEq, 569-591; m has K rows.  It acts on the transpose of m. *)
Definition NBQRDivEq (M N K : nat) Q beta m : fm C :=
  trm (foldl (fun m j => if beta j != 0 then hlmult M j 0 K (fun r => (Q r j)^*) (beta j) m else m)
             (trm m) (down N)).
(** BlockQRDivEq, 593-625: it acts on the adjoint of m. *)
Fixpoint BQRDivEq (fuel M N K j2 : nat) Q beta Z m : outcome (fm C) :=
  if (0 < j2)%N then
    match fuel with
    | 0 => UB
    | f.+1 =>
      let j1 := if (nb < j2)%N then (j2 - nb)%N else 0%N in
      do Z <- MakeZ (j2 - j1).+1 M j1 (j2 - j1) Q beta Z;
      BQRDivEq f M N K j1 Q beta Z (cjm (trm (blockmult false M j1 (j2 - j1) 0 K Q Z (cjm (trm m)))))
    end
  else Ok m.
(** Q_RDivEq with NonLapQRDivEq, 638-653, 1001-1041. *)
Definition Q_RDivEq (M N K : nat) Q beta Z0 m : outcome (fm C) :=
  if (nb < N)%N && (nb < K)%N then BQRDivEq N M N K N Q beta Z0 m
  else Ok (NBQRDivEq M N K Q beta m).

(** QR_LDiv and QR_LDivEq, TMV_QRDiv.cpp:33-119, without a permutation and with
    N1 = rowsize, as QRDiv calls them; m is M x K, the result is in the first N rows. *)
Definition QR_LDiv (M N K : nat) QRx beta Z0 m : outcome (fm C) :=
  do m1 <- Q_LDivEq M N K QRx beta Z0 m;
  TriLDivEqMU tb tb2 stA stB false N K QRx m1.
(** QR_RDiv and QR_RDivEq, 126-191, in the same case; m is K x N, x is K x M. *)
Definition QR_RDiv (M N K : nat) QRx beta Z0 m : outcome (fm C) :=
  let x : fm C := fun i j => if (i < K)%N && (N <= j < M)%N then 0 else m i j in
  do x <- TriRDivEqM tb tb2 true stA stB false N K QRx x;
  Q_RDivEq M N K QRx beta Z0 x.
(** QR_Inverse, TMV_QRInverse.cpp:29-44, in the same case; minv is N x M. *)
Definition QR_Inverse (M N : nat) QRx beta Z0 : outcome (fm C) :=
  let minv : fm C := fun i j => if (i <= j < N)%N then QRx i j else 0 in
  do minv <- TriInverse tb false N minv;
  Q_RDivEq M N N QRx beta Z0 minv.
(** QRDiv::doMakeInverseATA, TMV_QRD.cpp:184-192: the inverse of R times its adjoint. *)
Definition QR_InverseATA (N : nat) QRx : outcome (fm C) :=
  do rinv <- TriInverse tb false N QRx;
  Ok (fun i j => \sum_(0 <= k < N) upper false rinv i k * (upper false rinv j k)^*).

(** QRDiv of a Mr x Nr matrix, TMV_QRD.cpp:65-95: what is decomposed, doLDiv, doRDiv,
    doMakeInverse, 119-145, 173-181. *)
Definition istrans (Mr Nr : nat) : bool := (Mr < Nr)%N.
Definition QRDiv_QRx (Mr Nr : nat) A : fm C := if istrans Mr Nr then trm A else A.
(** The constructor with inplace = false; beta0 and Z0 are uninitialised memory. *)
Definition QRDiv_new (under : C -> bool) (Mr Nr : nat) A beta0 Z0 : outcome (fm C * fv C * C) :=
  QR_Decompose nb under (maxn Mr Nr) (minn Mr Nr) (QRDiv_QRx Mr Nr A) beta0 1 Z0.
Definition QRDiv_LDiv (Mr Nr K : nat) QRx beta Z0 m : outcome (fm C) :=
  if istrans Mr Nr then do x <- QR_RDiv Nr Mr K QRx beta Z0 (trm m); Ok (trm x)
  else QR_LDiv Mr Nr K QRx beta Z0 m.
Definition QRDiv_RDiv (Mr Nr K : nat) QRx beta Z0 m : outcome (fm C) :=
  if istrans Mr Nr then do x <- QR_LDiv Nr Mr K QRx beta Z0 (trm m); Ok (trm x)
  else QR_RDiv Mr Nr K QRx beta Z0 m.
Definition QRDiv_Inverse (Mr Nr : nat) QRx beta Z0 : outcome (fm C) :=
  if istrans Mr Nr then do x <- QR_Inverse Nr Mr QRx beta Z0; Ok (trm x)
  else QR_Inverse Mr Nr QRx beta Z0.
(** QRDiv::det, 147-158, computed there through the logarithm: the sign from the
    reflections times the diagonal of R. *)
Definition QR_det (N : nat) QRx (signdet : C) : C := signdet * \prod_(0 <= i < N) QRx i i.
End Model.
