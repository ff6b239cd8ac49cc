(** LU decomposition with partial pivoting: src/TMV_LUDecompose.cpp (the
    non-LAPACK code), exact arithmetic.  The field is any one with an absolute
    value, so real and complex matrices are both covered. *)
From Verif Require Import Base FMat TriSolve TriInv RowPerm.
From mathcomp Require Import all_ssreflect all_fingroup all_algebra zify.
Set Implicit Arguments. Unset Strict Implicit. Unset Printing Implicit Defensive.
Import GRing.Theory Num.Theory.
Local Open Scope ring_scope.

Section Model.
Variable F : numFieldType.
Implicit Types (A : fm F) (v : fv F) (P : nat -> nat).

(** v.maxAbsElement(&i) on v(lo), ..., v(lo+n-1), the first index where the
    largest absolute value is found; here counted from the start of v, in the
    program from lo (src/TMV_Vector.cpp:474-532). *)
Definition amax v (lo n : nat) : nat :=
  foldl (fun b i => if `|v b| < `|v i| then i else b) lo (iota lo.+1 n.-1).

(** A.col(c,lo,hi).setZero(). *)
Definition zerocol (c lo hi : nat) A : fm F :=
  fun i j => if (j == c) && (lo <= i < hi)%N then 0 else A i j.
(** A.col(c,lo,hi) /= x. *)
Definition divcol (c lo hi : nat) (x : F) A : fm F :=
  fun i j => if (j == c) && (lo <= i < hi)%N then A i j / x else A i j.
(** A.col(j,j,M) -= A.subMatrix(j,M,0,j) * A.col(j,0,j). *)
Definition redcol (j M : nat) A : fm F :=
  fun i c => if (c == j) && (j <= i < M)%N then A i j - \sum_(0 <= k < j) A i k * A k j else A i c.

(** One pass of the loop of NonBlockLUDecompose, 137-181.  TMV_Underflow(x) is
    x == 0 in exact arithmetic. *)
Definition nbstep (M N j : nat) (S : fm F * (nat -> nat)) : outcome (fm F * (nat -> nat)) :=
  let: (A, P) := S in
  bindO (if (0 < j)%N
         then bindO (TriLDivEqL CM true j A (fun i => A i j)) (fun r => Ok (redcol j M (setcol j j A r)))
         else Ok A) (fun A =>
  let ip := amax (fun i => A i j) j (M - j) in
  if `|A ip j| == 0 then Ok (zerocol j j M A, updv P j j)
  else
    let A := if ip != j then swaprows N ip j A else A in
    let P := updv P j ip in
    Ok (if A j j != 0 then divcol j j.+1 M (A j j) A else A, P)).

(** Blocking constants of the triangular solver, and LU_BLOCKSIZE,
    LU_BLOCKSIZE2 (47-53). *)
Variables nbT nbT2 nb nb2 : nat.

(** A.colRange(c0,N) rows [0,m) /= A.subMatrix(0,m,0,m).lowerTri(UnitDiag). *)
Definition solverow (m c0 N : nat) A : outcome (fm F) :=
  bindO (TriLDivEqML nbT nbT2 CM CM true m (N - c0) A (subm 0 c0 A))
        (fun X => Ok (putm 0 c0 m (N - c0) A X)).

(** NonBlockLUDecompose, 60-187. *)
Definition NonBlockLU (M N : nat) A P : outcome (fm F * (nat -> nat)) :=
  bindO (loop (up (minn N M)) (nbstep M N) (A, P)) (fun S =>
  if (M < N)%N then bindO (solverow M M N S.1) (fun A => Ok (A, S.2)) else Ok S).

(** A11 -= A10 * A01 (256). *)
Definition mulsub (n1 M N : nat) A : fm F :=
  fun i c => if (n1 <= i < M)%N && (n1 <= c < N)%N then A i c - \sum_(0 <= k < n1) A i k * A k c else A i c.

(** A0.swap(a,b) on column c. *)
Definition swapcol (c a b : nat) A : fm F := fun i j => if j == c then A (tsw a b i) j else A i j.

(** The loop 301-315: A(i,0) *= inv, A(i,1) -= A(i,0)*a01, keeping the largest
    new |A(i,1)| and its place. *)
Definition r2loop (M : nat) (inv a01 : F) A : fm F * (F * nat) :=
  foldl (fun S i =>
    let: (A, (piv, ip)) := S in
    let A := updm A i 0 (A i 0%N * inv) in
    let A := updm A i 1 (A i 1%N - A i 0%N * a01) in
    if piv < `|A i 1%N| then (A, (`|A i 1%N|, i)) else (A, (piv, ip)))
    (A, (0, 1%N)) (iota 1 M.-1).

(** R == 2, 273-358. *)
Definition LU2 (M N : nat) A P : fm F * (nat -> nat) :=
  let ip0 := amax (fun i => A i 0%N) 0 M in
  let piv := `|A ip0 0%N| in
  let: (A, ip0, piv) := if piv == 0 then (zerocol 0 0 M A, 0%N, 0) else (A, ip0, piv) in
  let: (A, (piv, ip1)) :=
    if piv != 0 then
      let A := if ip0 != 0%N then swapcol 1 ip0 0 (swapcol 0 ip0 0 A) else A in
      r2loop M (A 0%N 0%N)^-1 (A 0%N 1%N) A
    else let ip1 := amax (fun i => A i 1%N) 1 (M - 1) in (A, (`|A ip1 1%N|, ip1)) in
  let: (A, ip1, piv) := if piv == 0 then (zerocol 1 1 M A, 1%N, 0) else (A, ip1, piv) in
  let A := if (piv != 0) && (2 < M)%N then
      let A := if ip1 != 1%N then swapcol 0 ip1 1 (swapcol 1 ip1 1 A) else A in
      divcol 1 2 M (A 1%N 1%N) A
    else A in
  let A := if (2 < N)%N then
      let A := if ip0 == 1%N then (fun i j => if (2 <= j < N)%N then A (tsw 0 1 i) j else A i j) else A in
      let a01 := A 0%N 1%N in
      (fun i j => if (i == 1%N) && (2 <= j < N)%N then A 1%N j - a01 * A 0%N j else A i j)
    else A in
  (A, updv (updv P 0 ip0) 1 ip1).

(** R == 1, 359-383. *)
Definition LU1 (M : nat) A P : fm F * (nat -> nat) :=
  let ip := amax (fun i => A i 0%N) 0 M in
  if `|A ip 0%N| == 0 then (zerocol 0 0 M A, updv P 0 0%N)
  else
    let A := if ip != 0%N then swapcol 0 ip 0 A else A in
    (divcol 0 1 M (A 0%N 0%N) A, updv P 0 ip).

(** RecursiveLUDecompose, 217-384.  [fuel] bounds the depth: UB when it runs out.
    The right half's pivots are written at P+N1 and then shifted by N1. *)
Fixpoint RecLU (fuel : nat) (M N : nat) A P : outcome (fm F * (nat -> nat)) :=
  match fuel with
  | 0 => UB
  | f.+1 =>
    let R := minn N M in
    if (nb2 < R)%N then
      let n1 := halve nb R in
      bindO (RecLU f M n1 A P) (fun S =>
      let: (A, P) := S in
      let A := putm 0 n1 M (N - n1) A (permrows (N - n1) P 0 n1 (subm 0 n1 A)) in
      bindO (solverow n1 n1 N A) (fun A =>
      let A := mulsub n1 M N A in
      bindO (RecLU f (M - n1) (N - n1) (subm n1 n1 A) (fun i => P (n1 + i)%N)) (fun S =>
      let: (A11, Q) := S in
      let A := putm n1 n1 (M - n1) (N - n1) A A11 in
      let P := fun i => if (n1 <= i < R)%N then (Q (i - n1) + n1)%N else P i in
      Ok (permrows n1 P n1 (R - n1) A, P))))
    else if (2 < nb2)%N && (2 < R)%N then NonBlockLU M N A P
    else if R == 2%N then Ok (LU2 M N A P)
    else if R == 1%N then Ok (LU1 M A P)
    else Ok (A, P)
  end.

(** LU_Decompose for a column-major view: 388-394, 482-489. *)
Definition LU_Decompose (M N : nat) A P : outcome (fm F * (nat -> nat)) :=
  if (0 < M)%N && (0 < N)%N then RecLU N.+1 M N A P else Ok (A, P).

End Model.
