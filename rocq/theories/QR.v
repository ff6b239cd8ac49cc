(** Householder reflections and QR decomposition: src/TMV_Householder.cpp,
    src/TMV_QRDecompose.cpp, src/TMV_GetQFromQR.cpp, src/TMV_PackedQ.cpp (without
    LAPACK).  Exact arithmetic in a numClosedFieldType C; the real types are its real
    elements.  Submatrices are given by their offsets in the whole array, which has M
    rows: column k of the array holds the vector of the k-th reflection below the
    diagonal.  Products of matrices and vectors (the * of the library, MultMM etc.)
    are the mathematical ones. *)
From Coq Require Import Ring Field.
From Verif Require Import Base FMat TriSolve RingTac Cplx.
From mathcomp Require Import all_ssreflect all_fingroup all_algebra zify.
Set Implicit Arguments. Unset Strict Implicit. Unset Printing Implicit Defensive.
Import GRing.Theory Num.Theory Order.Theory.
Local Open Scope ring_scope.

Section Model.
Variable C : numClosedFieldType.
(** QR_BLOCKSIZE, TMV_QRDecompose.cpp:46-50. *)
Variable nb : nat.
(** TMV_Underflow as used to choose between one scaling step and two, 121-131: any
    test.  On the scale itself (67) it is the test for zero. *)
Variable under : C -> bool.
Implicit Types (A Y Z m : fm C) (v : fv C).

(** HouseholderReflect, TMV_Householder.cpp:45-181, on the column k of A from row k
    (the vector (x0,x)): the new array, beta and det. *)
Definition hscale (M k : nat) A : C :=
  let scale := foldl (fun s i => if s < tABS2 (A i k) then tABS2 (A i k) else s) 0 (iota k.+1 (M - k.+1)) in
  if scale < tABS (A k k) then tABS (A k k) else scale.
Definition setbelow (M k : nat) (x0 : C) (x : fv C) A : fm C := fun i j =>
  if (j == k) && (k <= i < M)%N then (if i == k then x0 else x i) else A i j.
Definition hreflect (M k : nat) A (det : C) : fm C * C * C :=
  let scale := hscale M k A in
  if scale == 0 then (setbelow M k 0 (fun _ => 0) A, 0, det)
  else
    let invscale := tINV scale in
    let normsqx := \sum_(k.+1 <= i < M) tNORM (A i k * invscale) in
    if (normsqx == 0) && ('Im (A k k) == 0) then (setbelow M k (A k k) (fun _ => 0) A, 0, det)
    else
      let absx0 := tABS (A k k) * invscale in
      let x0 := A k k * invscale in
      let normsqx := normsqx + absx0 * absx0 in
      let normx := sqrtC normsqx in
      let y := if 0 < 'Re x0 then - normx else normx in
      let v0 := x0 - y in
      let normv0 := tNORM v0 in
      let beta := tDIV normv0 (normsqx - y * x0) in
      let invv0 := tINV v0 in
      let sinv := invv0 * invscale in
      let x := if (('Re invv0 != 0) && under ('Re sinv)) || (('Im invv0 != 0) && under ('Im sinv))
               then (fun i => A i k * invscale * invv0) else (fun i => A i k * sinv) in
      let det := if det != 0 then (if 'Im beta == 0 then - det else det * (- (beta * beta)^* / tNORM beta)) else det in
      (setbelow M k (y * scale) x A, beta, det).

(** HouseholderLMult, 332-399: rows [k,M) and columns [c0,c1) of m. *)
Definition hlmult (M k c0 c1 : nat) v (beta : C) m : fm C :=
  if beta != 0 then
    let temp := fun c => (\sum_(k.+1 <= i < M) (v i)^* * m i c + m k c) * beta in
    fun i c => if (c0 <= c < c1)%N && (k <= i < M)%N then
                 (if i == k then m i c - temp c else m i c - v i * temp c) else m i c
  else m.

(** HouseholderReflect(MatrixView), 183-241, on columns [k,c1). *)
Definition hreflectM (M k c1 : nat) A (det : C) : fm C * C * C :=
  let: (A, beta, det) := hreflect M k A det in
  (if beta != 0 then hlmult M k k.+1 c1 (fun i => A i k) beta A else A, beta, det).

(** Y(i,k) of the block [o,o+n): unit lower trapezoidal. *)
Definition yelt Y (i k : nat) : C := if i == k then 1 else if (k < i)%N then Y i k else 0.
(** An UpperTriMatrix. *)
Definition zelt Z (k l : nat) : C := if (k <= l)%N then Z k l else 0.

(** BlockHouseholderLMult ([zt] = false) and BlockHouseholderLDiv (true), 710-815:
    rows [o,M) and columns [c0,c1) of m; Y has columns [o,o+n). *)
Definition blockmult (zt : bool) (M o n c0 c1 : nat) Y Z m : fm C :=
  let W := fun k c => \sum_(o <= i < o + n) (yelt Y i k)^* * m i c + \sum_(o + n <= i < M) (Y i k)^* * m i c in
  let ZW := fun k c => \sum_(o <= l < o + n) (if zt then (zelt Z l k)^* else zelt Z k l) * W l c in
  fun i c => if (c0 <= c < c1)%N && (o <= i < M)%N then
               (if (i < o + n)%N then m i c - \sum_(o <= k < o + n) yelt Y i k * ZW k c
                else m i c - \sum_(o <= k < o + n) Y i k * ZW k c)
             else m i c.

(** Z3 = -Z1 (Y1^dagger Y2) Z2, 685-690 and TMV_QRDecompose.cpp:173-180. *)
Definition makeZ3 (M o j1 n : nat) Y Z : fm C :=
  let W := fun k l => \sum_(o + j1 <= i < o + n) (Y i k)^* * yelt Y i l + \sum_(o + n <= i < M) (Y i k)^* * Y i l in
  let Z3 := fun k l => - \sum_(o <= t < o + j1) zelt Z k t * W t l in
  fun k l => if (o <= k < o + j1)%N && (o + j1 <= l < o + n)%N
             then \sum_(o + j1 <= t < o + n) Z3 k t * zelt Z t l else Z k l.
(** The 1x1 case of it, 636-662 and TMV_QRDecompose.cpp:155-160. *)
Definition makeZ01 (M o : nat) Y Z : fm C :=
  let temp := \sum_(o + 2 <= i < M) (Y i o)^* * Y i o.+1 + (Y o.+1 o)^* in
  updm Z o o.+1 (- Z o o * Z o.+1 o.+1 * temp).

(** RecursiveQRDecompose, TMV_QRDecompose.cpp:112-182, on columns [o,o+n).  (A and Z
    have the same offsets all through the recursion, so Z is indexed like A.) *)
Fixpoint RecQR (fuel M o n : nat) (mkZ : bool) (s : fm C * fm C * C) : outcome (fm C * fm C * C) :=
  match fuel with
  | 0 => UB
  | f.+1 =>
    let: (A, Z, det) := s in
    if n == 1%N then
      let: (A, b, det) := hreflect M o A det in Ok (A, updm Z o o b^*, det)
    else if n == 2%N then
      let: (A, b0, det) := hreflectM M o (o + 2) A det in
      let Z := updm Z o o b0^* in
      let: (A, b1, det) := hreflect M o.+1 A det in
      let Z := updm Z o.+1 o.+1 b1^* in
      Ok (A, if mkZ then makeZ01 M o A Z else Z, det)
    else
      let j1 := (n.+1 %/ 2)%N in
      do s <- RecQR f M o j1 true (A, Z, det);
      let: (A, Z, det) := s in
      let A := blockmult true M o j1 (o + j1) (o + n) A Z A in
      do s <- RecQR f M (o + j1) (n - j1) mkZ (A, Z, det);
      let: (A, Z, det) := s in
      Ok (A, if mkZ then makeZ3 M o j1 n A Z else Z, det)
  end.

(** BlockQRDecompose, 184-218: the blocks from column j1 on.  [Z] is what the
    work matrix holds (reused for every block; here at the block's offset). *)
Fixpoint BlockQR (fuel M N j1 : nat) (s : fm C * fv C * C) Z : outcome (fm C * fv C * C) :=
  if (j1 < N)%N then
    match fuel with
    | 0 => UB
    | f.+1 =>
      let: (A, beta, det) := s in
      let j2 := minn N (j1 + nb) in
      do s <- RecQR (j2 - j1).+1 M j1 (j2 - j1) (j2 < N)%N (A, Z, det);
      let: (A, Z, det) := s in
      let beta : fv C := fun k => if (j1 <= k < j2)%N then (Z k k)^* else beta k in
      let A := if (j2 < N)%N then blockmult true M j1 (j2 - j1) j2 N A Z A else A in
      BlockQR f M N j2 (A, beta, det) Z
    end
  else Ok s.

(** QR_Decompose with NonLapQRDecompose, 245-265, 603-633.  Z0 is the new work matrix. *)
Definition QR_Decompose (M N : nat) A (beta : fv C) (det : C) Z0 : outcome (fm C * fv C * C) :=
  if (0 < N)%N then
    if (nb < N)%N then BlockQR N M N 0 (A, beta, det) Z0
    else
      do s <- RecQR N.+1 M 0 N false (A, Z0, det);
      let: (A, Z, det) := s in Ok (A, fun k => if (k < N)%N then (Z k k)^* else beta k, det)
  else Ok (A, beta, det).
End Model.
