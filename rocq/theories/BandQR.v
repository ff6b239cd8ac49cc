(** QR decomposition of a band matrix and division with it:
    src/TMV_BandQRDecompose.cpp, src/TMV_BandQRD.cpp (BandQRDiv),
    src/TMV_BandQRDiv.cpp, src/TMV_BandQRInverse.cpp.  Exact arithmetic, as in QR.v.
    A band matrix is an index function of which only the elements inside the band
    exist (BandTri.v); what the function says elsewhere is never used by the code. *)
From Coq Require Import Ring Field.
From mathcomp Require Import all_ssreflect all_fingroup all_algebra zify.
From Verif Require Import Base FMat TriSolve TriInv Claims_Tri LUDiv BandTri BandLU BandLUDiv RingTac Cplx Chol QR QRDiv.
Set Implicit Arguments. Unset Strict Implicit. Unset Printing Implicit Defensive.
Import GRing.Theory Num.Theory Order.Theory.
Local Open Scope ring_scope.

Section Model.
Variable C : numClosedFieldType.
(** The underflow test of HouseholderReflect; TRI_DIV_BLOCKSIZE; the storage orders
    of QRx and of the right-hand side. *)
Variable under : C -> bool.
Variable nb : nat.
Variables stA stB : stor.
Implicit Types (A V Q m : fm C) (beta : fv C).

(** QR_Decompose(QRx,Qbeta,det), TMV_BandQRDecompose.cpp:41-75, on an M x N band matrix
    with lo sub- and hi superdiagonals.  The state of the loop also has endcol, endrow. *)
Definition bqstep (M N j : nat) (s : fm C * fv C * C * (nat * nat)) : fm C * fv C * C * (nat * nat) :=
  let: (V, beta, det, (endcol, endrow)) := s in
  let: (V, b, det) := hreflectM under endcol j endrow V det in
  (V, updv beta j b, det,
   (if (endcol < M)%N then endcol.+1 else endcol, if (endrow < N)%N then endrow.+1 else endrow)).
Definition BandQR_Decompose (M N lo hi : nat) V beta (det : C) : fm C * fv C * C :=
  if lo == 0%N then (V, (fun k => if (k < N)%N then 0 else beta k), det)
  else (foldl (fun s j => bqstep M N j s) (V, beta, det, (lo.+1, hi.+1)) (iota 0 N)).1.

(** Q_LDivEq, TMV_BandQRDiv.cpp:47-66; m has K columns. *)
Definition BQ_LDivEq (M N lo K : nat) V beta m : fm C :=
  if (0 < lo)%N then
    (foldl (fun (s : fm C * nat) j =>
       let: (m, i2) := s in
       (if beta j != 0 then hlmult i2 j 0 K (fun r => V r j) (beta j) m else m,
        if (i2 < M)%N then i2.+1 else i2)) (m, lo.+1) (iota 0 N)).1
  else m.
(** Q_RDivEq, 68-89; m has K rows.  It acts on the transpose of m. *)
Definition BQ_RDivEq (M N lo K : nat) V beta m : fm C :=
  if (0 < lo)%N then
    let i2 := if M == N then N else minn (N + lo) M in
    let k := if M == N then lo else (N + lo - i2)%N in
    trm (foldl (fun (s : fm C * (nat * nat)) j =>
       let: (m, (i2, k)) := s in
       (if beta j != 0 then hlmult i2 j 0 K (fun r => (V r j)^*) (beta j) m else m,
        if (0 < k)%N then (i2, k.-1) else (i2.-1, k))) (trm m, (i2, k)) (down N)).1
  else m.

(** QR_LDiv and QR_LDivEq, 95-178; m is M x K, the result is in the first N rows. *)
Definition BQR_LDiv (M N lo hi K : nat) V beta m : outcome (fm C) :=
  BTriLDivEqMU stA stB false N hi K V (BQ_LDivEq M N lo K V beta m).
(** QR_RDiv and QR_RDivEq, 184-257; m is K x N, the result K x M. *)
Definition BQR_RDiv (M N lo hi K : nat) V beta m : outcome (fm C) :=
  let x : fm C := fun i j => if (i < K)%N && (N <= j < M)%N then 0 else m i j in
  do y <- BTriLDivEqML (trst stA) (trst stB) false N hi K (trm V) (trm x);
  Ok (BQ_RDivEq M N lo K V beta (trm y)).
(** QR_Inverse, TMV_BandQRInverse.cpp:32-48; the result is N x M. *)
Definition BQR_Inverse (M N lo hi : nat) V beta : outcome (fm C) :=
  let minv : fm C := fun i j => if (i <= j < N)%N then bandm 0 hi V i j else 0 in
  do minv <- BTriInverse nb false N hi minv;
  Ok (BQ_RDivEq M N lo N V beta minv).
(** BandQRDiv::doMakeInverseATA, TMV_BandQRD.cpp:204-218: the inverse of R times its
    transpose (not its adjoint). *)
Definition BQR_InverseATA (N hi : nat) V : outcome (fm C) :=
  do rinv <- BTriInverse nb false N hi (bandm 0 hi V);
  Ok (fun i j => \sum_(0 <= k < N) upper false rinv i k * upper false rinv j k).

(** GetQFromBandQR, 231-247, the loop for j = n-1 .. 0, after Q.upperTri().setZero(). *)
Fixpoint BGetQloop (M N lo n : nat) beta Q : fm C :=
  if n is j.+1 then
    BGetQloop M N lo j beta (hunpack (if (M < j + lo + 1)%N then M else j + lo + 1)%N j N (beta j) Q)
  else Q.
Definition GetQFromBandQR (M N lo : nat) Q beta : fm C := BGetQloop M N lo N beta (zeroup N Q).
(** BandQRDiv::getQ, 249-259.  [temp = QRx] writes zeros outside the band. *)
Definition BandQRDiv_getQ (M N lo hi : nat) V beta : fm C :=
  if lo == 0%N then (fun i j => (i == j)%:R) else GetQFromBandQR M N lo (bandm lo hi V) beta.

(** The storage and the bands of BandQRDiv, 56-84. *)
Definition bq_trans (Mr Nr nlo nhi : nat) (isrm : bool) : bool :=
  [|| (Mr < Nr)%N, (Mr == Nr) && (nhi < nlo)%N | [&& Mr == Nr, nhi == nlo & isrm]].
Definition bq_lo (tr : bool) (nlo nhi : nat) : nat := if tr then nhi else nlo.
Definition bq_newhi (Mr Nr nlo nhi : nat) : nat := minn (nlo + nhi) (minn Mr Nr).-1.
(** The number of superdiagonals of QRx: that of A itself when it is A's memory. *)
Definition bq_hi (tr inplace : bool) (Mr Nr nlo nhi : nat) : nat :=
  if inplace || (bq_lo tr nlo nhi == 0%N) then (if tr then nlo else nhi) else bq_newhi Mr Nr nlo nhi.
(** BandQRDiv::BandQRDiv(A,inplace), 89-117, on an Mr x Nr band matrix.  QRx is A's
    memory or a new array holding [junk]; beta0 is the new beta vector.  In place the
    last lo of the superdiagonals of QRx are set to zero (104-106). *)
Definition BandQRDiv_ctor (isrm inplace : bool) (Mr Nr nlo nhi : nat) A junk beta0 : fm C * fv C * C :=
  let tr := bq_trans Mr Nr nlo nhi isrm in
  let A' := if tr then trm A else A in
  let lo := bq_lo tr nlo nhi in
  let hiA := if tr then nlo else nhi in
  let hi := bq_hi tr inplace Mr Nr nlo nhi in
  let M := maxn Mr Nr in
  let N := minn Mr Nr in
  let inb i j := [&& (i < M)%N, (j < N)%N, (i <= j + lo)%N & (j <= i + hi)%N] in
  let QRx := if inplace then
               (if (0 < lo)%N then (fun i j => if inb i j && (i + hi < j + lo)%N then 0 else A' i j) else A')
             else if lo == 0%N then A'
             else (fun i j => if inb i j then bandm lo hiA A' i j else junk i j) in
  if (0 < lo)%N then BandQR_Decompose M N lo hi QRx beta0 1 else (QRx, beta0, 1).

(** doLDiv, doLDivEq, doRDiv, doRDivEq, doMakeInverse, 122-162, 193-202. *)
Definition BandQRDiv_LDiv (tr : bool) (M N lo hi K : nat) V beta m : outcome (fm C) :=
  if tr then do x <- BQR_RDiv M N lo hi K V beta (trm m); Ok (trm x) else BQR_LDiv M N lo hi K V beta m.
Definition BandQRDiv_RDiv (tr : bool) (M N lo hi K : nat) V beta m : outcome (fm C) :=
  if tr then do x <- BQR_LDiv M N lo hi K V beta (trm m); Ok (trm x) else BQR_RDiv M N lo hi K V beta m.
Definition BandQRDiv_Inverse (tr : bool) (M N lo hi : nat) V beta : outcome (fm C) :=
  if tr then do x <- BQR_Inverse M N lo hi V beta; Ok (trm x) else BQR_Inverse M N lo hi V beta.
(** det, 164-176 (computed there through the logarithm). *)
Definition BandQR_det (N : nat) V (signdet : C) : C := signdet * \prod_(0 <= i < N) V i i.

(** QR_Decompose(A,Q,R), TMV_BandQRDecompose.cpp:103-131: Q and the N x N band matrix R
    with nlo+nhi superdiagonals (cut off at N-1). *)
Definition BandQR_full (M N nlo nhi : nat) A beta0 : fm C * fm C :=
  let newhi := minn (nlo + nhi) N.-1 in
  let: (Q, beta, _) := BandQR_Decompose M N nlo newhi (bandm nlo nhi A) beta0 0 in
  let R := bandm 0 newhi Q in
  (GetQFromBandQR M N nlo Q beta, R).
End Model.
