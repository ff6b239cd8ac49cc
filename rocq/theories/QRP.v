(** QR decomposition with column pivoting: src/TMV_QRPDecompose.cpp without LAPACK.
    Exact arithmetic in a numClosedFieldType C.  The norms the code keeps are reals or
    nan ([None]): the scale 1/max|A| of a zero matrix is inf and every norm is then nan.
    Comparisons with nan are false. *)
From Coq Require Import Ring Field.
From Verif Require Import Base FMat TriSolve RowPerm RingTac Cplx QR.
From mathcomp Require Import all_ssreflect all_fingroup all_algebra zify.
Set Implicit Arguments. Unset Strict Implicit. Unset Printing Implicit Defensive.
Import GRing.Theory Num.Theory Order.Theory.
Local Open Scope ring_scope.

Section Model.
Variable C : numClosedFieldType.
(** QRP_BLOCKSIZE, TMV_QRPDecompose.cpp:56-60. *)
Variable nb : nat.
(** TMV_Underflow, see QR.v. *)
Variable under : C -> bool.
(** TMV_Epsilon<T>(). *)
Variable eps : C.
Implicit Types (A Z : fm C) (beta : fv C) (P : nat -> nat).

(** Real numbers or nan. *)
Notation nt := (option C).
Definition nlt (a b : nt) : bool := if a is Some x then (if b is Some y then x < y else false) else false.
Definition nsub (a b : nt) : nt := if a is Some x then (if b is Some y then Some (x - y) else None) else None.
Definition nadd (a b : nt) : nt := if a is Some x then (if b is Some y then Some (x + y) else None) else None.
Definition nmul (c : C) (a : nt) : nt := if a is Some x then Some (c * x) else None.

(** A.maxAbs2Element(), TMV_Matrix.cpp:487-510 (in column order). *)
Definition maxAbs2 (M N : nat) A : C :=
  foldl (fun s c => foldl (fun s i => if s < tABS2 (A i c) then tABS2 (A i c) else s) s (iota 0 M)) 0 (iota 0 N).
(** scale = 1 / maxAbs2Element, 102. *)
Definition qscale (M N : nat) A : nt := let m := maxAbs2 M N A in if m == 0 then None else Some (1 / m).
(** A.col(k,j,M).normSq(scale), TMV_Vector.cpp:156-187. *)
Definition colnsq (sc : nt) (M j : nat) A (k : nat) : nt :=
  if sc is Some s then Some (\sum_(j <= i < M) tNORM (A i k * s)) else None.
(** colnormsq.subVector(j,N).maxElement(&jpiv): FindMaxElement, TMV_Vector.cpp:443-473.
    The maximum and its place relative to j. *)
Definition maxel (cn : nat -> nt) (j N : nat) : nt * nat :=
  foldl (fun m i => if nlt m.1 (cn (j + i)%N) then (cn (j + i)%N, i) else m) (cn j, 0%N) (iota 1 (N - j).-1).
(** thresh, 109-110. *)
Definition qthresh (N : nat) (cn : nat -> nt) : nt :=
  nmul (N%:R * (eps * eps)) (foldl (fun s j => nadd s (cn j)) (Some 0) (iota 0 N)).
(** sqrteps, 97. *)
Definition sqrteps : C := sqrtC eps.

(** A, beta, P, det, colnormsq, recalcthresh. *)
Record pst := PS { qA : fm C; qb : fv C; qP : nat -> nat; qd : C; qc : nat -> nt; qr : nt }.
Definition with_r (s : pst) (r : nt) : pst := PS (qA s) (qb s) (qP s) (qd s) (qc s) r.
Definition updP P (i p : nat) : nat -> nat := fun k => if k == i then p else P k.
Definition swapcn (a b : nat) (cn : nat -> nt) : nat -> nt := fun k => cn (tsw a b k).
(** A.swapCols(a,b). *)
Definition swapAc (M a b : nat) A : fm C := fun i c => if (i < M)%N then A i (tsw a b c) else A i c.

(** 139-140: colnormsq(k) = A.col(k,j,M).normSq(scale). *)
Definition recalc (sc : nt) (M N j : nat) (s : pst) : pst :=
  PS (qA s) (qb s) (qP s) (qd s) (fun k => if (j <= k < N)%N then colnsq sc M j (qA s) k else qc s k) (qr s).
(** 153-160: the rest of R and Q is zero, P is the identity. *)
Definition finish (M N j : nat) (s : pst) : pst :=
  PS (fun i c => if (j <= i < M)%N && (j <= c < N)%N then 0 else qA s i c)
     (fun k => if (j <= k < N)%N then 0 else qb s k)
     (fun k => if (j <= k < N)%N then k else qP s k) (qd s) (qc s) (qr s).
(** 165-175, jpiv relative to j. *)
Definition pivot (M j jpiv : nat) (s : pst) : pst :=
  if jpiv != 0%N then
    let jpiv := (jpiv + j)%N in
    PS (swapAc M j jpiv (qA s)) (qb s) (updP (qP s) j jpiv) (- qd s) (swapcn j jpiv (qc s)) (qr s)
  else PS (qA s) (qb s) (updP (qP s) j j) (qd s) (qc s) (qr s).
(** 190-193: colnormsq(k) -= NORM(A(j,k)*scale), k in (j,e). *)
Definition downnorm (sc : nt) (j e : nat) A (cn : nat -> nt) : nat -> nt := fun k =>
  if (j < k < e)%N then nsub (cn k) (if sc is Some s then Some (tNORM (A j k * s)) else None) else cn k.
(** 186-193. *)
Definition reflstep (sc : nt) (M N j : nat) (s : pst) : pst :=
  let: (A, b, det) := hreflectM under M j N (qA s) (qd s) in
  PS A (updv (qb s) j b) (qP s) det (downnorm sc j N A (qc s)) (qr s).

(** NonBlockQRPDecompose, 69-194, from column j on. *)
Fixpoint NBloop (fuel : nat) (strict : bool) (sc thr : nt) (M N j : nat) (s : pst) : outcome pst :=
  if (j < N)%N then
    match fuel with
    | 0 => UB
    | f.+1 =>
      if [|| strict, j == 0%N | nlt (qc s j) (qr s)] then
        let: (mx, jp) := maxel (qc s) j N in
        let s := if j == 0%N then with_r s (nmul (4%:R * sqrteps) mx) else s in
        let: (s, mx, jp) :=
          if nlt mx (qr s) then
            let s := recalc sc M N j s in
            let: (mx, jp) := maxel (qc s) j N in
            let r := nmul (4%:R * sqrteps) mx in
            (with_r s (if nlt r thr then thr else r), mx, jp)
          else (s, mx, jp) in
        if nlt mx thr then Ok (finish M N j s)
        else NBloop f strict sc thr M N j.+1 (reflstep sc M N j (pivot M j jp s))
      else NBloop f strict sc thr M N j.+1 (reflstep sc M N j (PS (qA s) (qb s) (updP (qP s) j j) (qd s) (qc s) (qr s)))
    end
  else Ok s.
(** colnormsq at the beginning, 106-107. *)
Definition qstart (sc : nt) (M N : nat) A beta P (det : C) (cn0 : nat -> nt) : pst :=
  PS A beta P det (fun k => if (k < N)%N then colnsq sc M 0 A k else cn0 k) (Some 0).
Definition NonBlockQRP (strict : bool) (M N : nat) A beta P det cn0 : outcome pst :=
  let sc := qscale M N A in
  let s := qstart sc M N A beta P det cn0 in
  NBloop N strict sc (qthresh N (qc s)) M N 0 s.

(** StrictBlockQRPDecompose, 225-378.  ZYtA is indexed by (j - j1, column).  The pivot
    column: 323-328. *)
Definition sbcol (M j1 j : nat) A Z : fm C := fun i c =>
  if (c == j) && (j <= i < M)%N then A i j - \sum_(j1 <= k < j) A i k * Z (k - j1)%N j else A i c.
(** 338-356: the new row of ZYtA; [b] is beta(j). *)
Definition sbrow (M N j1 j : nat) (b : C) A Z : fm C :=
  let row : fv C := fun c =>
    if b != 0 then
      let vtY : fv C := fun k => \sum_(j.+1 <= i < M) (A i j)^* * A i k + A j k in
      ((if (j < c)%N then \sum_(j.+1 <= i < M) (A i j)^* * A i c + A j c else 0)
        - \sum_(j1 <= k < j) vtY k * Z (k - j1)%N c) * b
    else 0 in
  fun q c => if (q == j - j1)%N && (j1 <= c < N)%N then row c else Z q c.
(** 361-363: row j of the rest of the matrix. *)
Definition sbrest (N j1 j : nat) A Z : fm C := fun i c =>
  if (i == j) && (j < c < N)%N then A j c - \sum_(j1 <= k < j) A j k * Z (k - j1)%N c - Z (j - j1)%N c else A i c.
(** The inner loop, 272-372: state and ZYtA, and the j2 with which it ends. *)
Fixpoint SBin (fuel : nat) (sc thr : nt) (M N j1 j2 j : nat) (s : pst) Z : outcome (pst * fm C * nat) :=
  if (j < j2)%N then
    match fuel with
    | 0 => UB
    | f.+1 =>
      let: (mx, jp) := maxel (qc s) j N in
      let s := if qr s == Some 0 then with_r s (nmul (4%:R * sqrteps) mx) else s in
      if nlt mx (qr s) then
        Ok (if j == j1 then with_r (recalc sc M N j s) (Some 0) else s, Z, j)
      else if nlt mx thr then
        if j == j1 then Ok (finish M N j s, Z, N) else Ok (s, Z, j)
      else
        let s := pivot M j jp s in
        let Z : fm C := if jp != 0%N then (fun q c => if (q < j - j1)%N then Z q (tsw j (jp + j)%N c) else Z q c) else Z in
        let A := sbcol M j1 j (qA s) Z in
        let: (A, b, det) := hreflect under M j A (qd s) in
        let Z := sbrow M N j1 j b A Z in
        let A := sbrest N j1 j A Z in
        SBin f sc thr M N j1 j2 j.+1 (PS A (updv (qb s) j b) (qP s) det (downnorm sc j N A (qc s)) (qr s)) Z
    end
  else Ok (s, Z, j2).
(** A.subMatrix(j2,M,j2,N) -= ..., 375-376. *)
Definition sbtrail (M N j1 j2 : nat) A Z : fm C := fun i c =>
  if (j2 <= i < M)%N && (j2 <= c < N)%N then A i c - \sum_(j1 <= k < j2) A i k * Z (k - j1)%N c else A i c.
Fixpoint SBloop (fuel : nat) (sc thr : nt) (M N j1 : nat) (s : pst) Z : outcome pst :=
  if (j1 < N)%N then
    match fuel with
    | 0 => UB
    | f.+1 =>
      let j2 := minn N (j1 + nb) in
      do r <- SBin (j2 - j1).+1 sc thr M N j1 j2 j1 s Z;
      let: (s, Z, j2) := r in
      SBloop f sc thr M N j2 (PS (sbtrail M N j1 j2 (qA s) Z) (qb s) (qP s) (qd s) (qc s) (qr s)) Z
    end
  else Ok s.
(** Every pass of the outer loop that does no column is followed by one that does. *)
Definition StrictBlockQRP (M N : nat) A beta P det cn0 Z0 : outcome pst :=
  let sc := qscale M N A in
  let s := qstart sc M N A beta P det cn0 in
  SBloop (N + N) sc (qthresh N (qc s)) M N 0 s Z0.

(** moveLowColsToEnd, 404-434.  The scans for a column that is not low: down from j3 to
    at least lo (416), and below j3 (429: it ends at i at the latest, see MoveLowP). *)
Fixpoint lowscan (cn : nat -> nt) (thr : nt) (lo j3 : nat) : nat :=
  if (lo < j3)%N then (if nlt (cn j3) thr then (if j3 is j.+1 then lowscan cn thr lo j else j3) else j3) else j3.
Fixpoint lowscan2 (cn : nat -> nt) (thr : nt) (j3 : nat) : nat :=
  if j3 is j.+1 then (if nlt (cn j) thr then lowscan2 cn thr j else j) else 0%N.
Fixpoint MoveLowLoop (fuel : nat) (thr : nt) (M i j2 j3 : nat) (s : pst) : pst * nat * nat :=
  if fuel is f.+1 then
    if (i < j2)%N then
      if nlt (qc s i) thr then
        let s := PS (swapAc M i j3 (qA s)) (qb s) (updP (qP s) i j3) (qd s) (swapcn i j3 (qc s)) (qr s) in
        let j3 := lowscan2 (qc s) thr j3 in
        let j2 := if (j3 < j2)%N then j3.+1 else j2 in
        MoveLowLoop f thr M i.+1 j2 j3 s
      else MoveLowLoop f thr M i.+1 j2 j3 (PS (qA s) (qb s) (updP (qP s) i i) (qd s) (qc s) (qr s))
    else (s, j2, j3)
  else (s, j2, j3).
Definition MoveLow (thr : nt) (M j1 j2 j3 : nat) (s : pst) : pst * nat * nat :=
  let j3 := lowscan (qc s) thr j1 j3.-1 in
  if j3 == j1 then
    if nlt (qc s j1) thr then (s, j1, j3)
    else (PS (qA s) (qb s) (updP (qP s) j1 j1) (qd s) (qc s) (qr s), j1.+1, j1.+1)
  else
    let j2 := if (j3 < j2)%N then j3.+1 else j2 in
    let: (s, j2, j3) := MoveLowLoop (j2 - j1) thr M j1 j2 j3 s in
    (s, j2, j3.+1).

(** BlockHouseholderAugment, TMV_Householder.cpp:473-540, for column j of the block from
    j1; [b] is its third argument.  Z is indexed like A. *)
Definition augment (M j1 j : nat) (b : C) A Z : fm C :=
  if b == 0 then fun k l => if (l == j) && (j1 <= k <= j)%N then 0 else Z k l
  else
    let z : fv C := fun k => \sum_(j.+1 <= i < M) (A i k)^* * A i j + (A j k)^* in
    fun k l => if l == j then
                 (if k == j then b
                  else if (j1 <= k < j)%N then - b * \sum_(j1 <= t < j) zelt Z k t * z t else Z k l)
               else Z k l.

(** LooseBlockQRPDecompose, 452-701.  The inner loop, 566-640: state, Z and j2. *)
Definition badcol (M j j2 : nat) (s : pst) : pst :=
  let s := PS (swapAc M j j2 (qA s)) (qb s) (qP s) (qd s) (swapcn j j2 (qc s)) (qr s) in
  let P := qP s in
  if (j2 < P j2)%N then
    if (j2 < P j)%N then
      PS (swapAc M (P j2) (P j) (qA s)) (qb s) (updP (updP P j (P j2)) j2 (P j)) (qd s) (swapcn (P j2) (P j) (qc s)) (qr s)
    else PS (qA s) (qb s) (updP P j (P j2)) (qd s) (qc s) (qr s)
  else
    let P := if (j2 < P j)%N then updP P j2 (P j) else P in
    PS (qA s) (qb s) (updP P j j2) (qd s) (qc s) (qr s).
Definition lbstep (sc : nt) (M j1 j j2 oj2 : nat) (s : pst) Z : pst * fm C :=
  let: (A, b, det) := hreflectM under M j oj2 (qA s) (qd s) in
  (PS A (updv (qb s) j b) (qP s) det (downnorm sc j j2 A (qc s)) (qr s), augment M j1 j b^* A Z).
Fixpoint LBin (fuel : nat) (sc rth : nt) (M j1 j j2 oj2 : nat) (s : pst) Z : outcome (pst * fm C * nat) :=
  if (j < j2)%N then
    match fuel with
    | 0 => UB
    | f.+1 =>
      if nlt (qc s j) rth then
        let j2 := j2.-1 in
        if j == j2 then Ok (s, Z, j2)
        else
          let: (s, Z) := lbstep sc M j1 j j2 oj2 (badcol M j j2 s) Z in
          LBin f sc rth M j1 j.+1 j2 oj2 s Z
      else
        let: (s, Z) := lbstep sc M j1 j j2 oj2 s Z in
        LBin f sc rth M j1 j.+1 j2 oj2 s Z
    end
  else Ok (s, Z, j2).
(** 642-665: the rest of the matrix and of the norms. *)
Definition lbtrail (sc : nt) (M N j1 j2 oj2 : nat) (s : pst) Z : pst :=
  if (j1 < j2)%N then
    let A := blockmult true M j1 (j2 - j1) oj2 N (qA s) Z (qA s) in
    let cn := fun k => if (oj2 <= k < N)%N then
        (if (j2 - j1 < M - j2)%N then nsub (qc s k) (colnsq sc j2 j1 A k) else colnsq sc M j2 A k) else qc s k in
    PS A (qb s) (qP s) (qd s) cn (qr s)
  else s.
(** 667-684: the bad columns go back. *)
Definition putback (M j2 oj2 : nat) (s : pst) : pst :=
  foldl (fun s j => if (j2 < qP s j)%N then
           PS (swapAc M j (qP s j) (qA s)) (qb s) (qP s) (qd s) (swapcn j (qP s j) (qc s)) (qr s) else s)
        s (iota j2 (oj2 - j2)).
(** The loop over blocks, 551-688: state and j1 (= j3) at its end.  Z0 is the new Z. *)
Fixpoint LBmid (fuel : nat) (sc rth : nt) (M N j1 j1x j3 : nat) (s : pst) (Z0 : fm C) : outcome (pst * nat * nat) :=
  if (j1 < j3)%N then
    match fuel with
    | 0 => UB
    | f.+1 =>
      let j2 := minn j3 (j1 + nb) in
      let: (s, j2, j3) := MoveLow rth M j1x j2 j3 s in
      let oj2 := j2 in
      do r <- LBin (oj2 - j1).+1 sc rth M j1 j1 j2 oj2 s Z0;
      let: (s, Z, j2) := r in
      let s := lbtrail sc M N j1 j2 oj2 s Z in
      let s := putback M j2 oj2 s in
      LBmid f sc rth M N j2 j2 j3 s Z0
    end
  else Ok (s, j1, j3).
(** The outer loop, 502-697. *)
Fixpoint LBloop (fuel : nat) (sc thr : nt) (M N j1 : nat) (s : pst) (Z0 : fm C) : outcome pst :=
  if (j1 < N)%N then
    match fuel with
    | 0 => UB
    | f.+1 =>
      let: (mx, jp) := maxel (qc s) j1 N in
      if nlt mx thr then Ok (finish M N j1 s)
      else
        let s := if jp != 0%N then
                   let jp := (jp + j1)%N in
                   PS (swapAc M j1 jp (qA s)) (qb s) (updP (qP s) j1 jp) (qd s) (swapcn j1 jp (qc s)) (qr s)
                 else PS (qA s) (qb s) (updP (qP s) j1 j1) (qd s) (qc s) (qr s) in
        let rth := nmul (N%:R * sqrteps) mx in
        let rth := if nlt rth thr then thr else rth in
        do r <- LBmid (N - j1) sc rth M N j1 j1.+1 N s Z0;
        let: (s, j1, j3) := r in
        LBloop f sc thr M N j1 (if (j3 < N)%N then
            PS (qA s) (qb s) (qP s) (qd s) (fun k => if (j3 <= k < N)%N then colnsq sc M j3 (qA s) k else qc s k) (qr s)
          else s) Z0
    end
  else Ok s.
Definition LooseBlockQRP (M N : nat) A beta P det cn0 Z0 : outcome pst :=
  let sc := qscale M N A in
  let s := qstart sc M N A beta P det cn0 in
  do s <- LBloop N sc (qthresh N (qc s)) M N 0 s Z0;
  (* 699-701 *)
  Ok (if qd s != 0 then
        PS (qA s) (qb s) (qP s) (foldl (fun d i => if qP s i != i then - d else d) (qd s) (iota 0 N)) (qc s) (qr s)
      else s).

(** QRP_Decompose with NonLapQRPDecompose, 735-760, 1059-1097.  beta, P, cn0 and Z0 are
    what the memory holds before. *)
Definition QRP_Decompose (strict : bool) (M N : nat) A beta P det cn0 Z0 : outcome pst :=
  if (0 < N)%N then
    if (nb < N)%N then
      if strict then StrictBlockQRP M N A beta P det cn0 Z0 else LooseBlockQRP M N A beta P det cn0 Z0
    else NonBlockQRP strict M N A beta P det cn0
  else Ok (PS A beta P det cn0 (Some 0)).
End Model.
