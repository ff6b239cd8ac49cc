(** LDL (Bunch-Kaufman) decomposition: src/TMV_SymLDLDecompose.cpp (without LAPACK),
    SymInvert_2x2 of src/TMV_SymLDLPseudo.cpp and SymMatrixView::swapRowsCols of
    src/TMV_SymMatrix.cpp.  Exact arithmetic in a numClosedFieldType C; the real types
    are its real elements (they use the herm = true instance). *)
From Verif Require Import Base FMat TriSolve RowPerm LU Cplx.
From mathcomp Require Import all_ssreflect all_fingroup all_algebra zify.
Set Implicit Arguments. Unset Strict Implicit. Unset Printing Implicit Defensive.
Import GRing.Theory Num.Theory Order.Theory.
Local Open Scope ring_scope.

Section Model.
Variable C : numClosedFieldType.
(** alpha = (sqrt(17)+1)/8 in the code (188, 448); the theorems hold for any value
    between 0 and 1. *)
Variable alpha : C.
(** TMV_Underflow (TMV_Base.h): a test for values too small to be used.  In exact
    arithmetic it may hold only of zero. *)
Variable under : C -> bool.
(** SYM_LDL_BLOCKSIZE, 53-57. *)
Variable nb : nat.
Implicit Types (A LD : fm C) (xD : fv C) (P : nat -> nat).

(** herm ? TMV_CONJ(x) : x and herm ? TMV_REAL(x) : x. *)
Definition cs (herm : bool) (x : C) : C := if herm then x^* else x.
Definition hre (herm : bool) (x : C) : C := if herm then 'Re x else x.

(** swapRowsCols(i1,i2), TMV_SymMatrix.cpp:462-498, i1 < i2, lower storage. *)
Definition symswap (herm : bool) (N i1 i2 : nat) A : fm C :=
  let A : fm C := fun r c => if (c < i1)%N then A (tsw i1 i2 r) c else A r c in
  let A : fm C := fun r c => if (r == i2) && (i1 < c < i2)%N then A c i1
                             else if (c == i1) && (i1 < r < i2)%N then A i2 r else A r c in
  let A : fm C := if herm then fun r c => if (r == i2) && (i1 <= c < i2)%N then (A r c)^*
                                          else if (c == i1) && (i1 < r < i2)%N then (A r c)^* else A r c
                  else A in
  let A : fm C := fun r c => if (i2 < r < N)%N then A r (tsw i1 i2 c) else A r c in
  fun r c => if r == c then A (tsw i1 i2 r) (tsw i1 i2 r) else A r c.

(** The choice of the pivot, given |a_jj|, |a_pj|, and (once computed) |a_pq|, |a_pp|:
    no exchange, p brought to j, or a 2x2 block. *)
Inductive bk := Stay | Bring (p : nat) | Two (p : nat).

(** maxAbsElement of n elements of v from lo on. *)
Definition vmax (v : fv C) (lo n : nat) : C := `|v (amax v lo n)|.
(** The two maxima over row p left of the diagonal and column p below it, 216-220 and 507-511. *)
Definition maxoff (v w : fv C) (j p N : nat) : C :=
  let apq := vmax v j (p - j) in
  if (p.+1 < N)%N then tMAX apq (vmax w p.+1 (N - p.+1)) else apq.
(** The tests after |a_pq| and |a_pp| are known, 221-243. *)
Definition bkchoose (ajj apj app apq : C) (p : nat) : bk :=
  if alpha * apj * apj <= ajj * apq then Stay
  else if alpha * apq <= app then Bring p else Two p.

(** One pivot search of NonBlockLDL_Decompose, 199-221, for j < N-1: the choice, and the
    column cleared if its elements underflow. *)
Definition nbsearch (herm : bool) (N j : nat) A : bk * fm C :=
  let ajj := `|hre herm (A j j)| in
  let p := amax (fun i => A i j) j (N - j) in
  let apj := `|A p j| in
  let u := under apj in
  let '(ajj, apj, p, A) := if u then (0, 0, j, zerocol j j N A) else (ajj, apj, p, A) in
  if (p == j) || (alpha * apj <= ajj) then (Stay, A)
  else (bkchoose ajj apj `|hre herm (A p p)| (maxoff (fun k => A p k) (fun i => A i p) j p N) p, A).

(** The exchange, 225-246: A, P and whether the block is 1x1. *)
Definition nbswap (herm : bool) (N j : nat) (c : bk) A P : bool * (fm C * (nat -> nat)) :=
  match c with
  | Stay => (true, (A, updv P j j))
  | Bring p => (true, (symswap herm N j p A, updv P j p))
  | Two p => (false, (if p != j.+1 then symswap herm N j.+1 p A else A, updv (updv P j j) j.+1 p))
  end.

(** The 1x1 step, 250-285: the new A and d_j.  Only the lower triangle of the submatrix is
    stored; the rank-1 update is the mathematical one. *)
Definition seq1 (herm : bool) (N j : nat) A : fm C * C :=
  let dj := hre herm (A j j) in
  (if dj == 0 then A else
     let A := divcol j j.+1 N dj A in
     fun r c => if (j < c)%N && (c <= r < N)%N then A r c - dj * (A r j * cs herm (A c j)) else A r c,
   dj).

(** SymInvert_2x2, TMV_SymLDLPseudo.cpp:40-61 (with Sym2x2_Helper, TMV_SymLDLDiv.h:48-64):
    the new a, b, c and the determinant.  Division by zero is UB. *)
Definition sym2 (herm : bool) (a b c : C) : outcome (C * C * C * C) :=
  let max := tMAX (tABS2 a) (tMAX (tABS2 b) (tABS2 c)) in
  if max == 0 then UB else
  let a := a / max in let b := b / max in let c := c / max in
  let d := if herm then 'Re a * 'Re b - tNORM c else a * b - c * c in
  let d := d * max in
  if d == 0 then UB else Ok (b / d, a / d, c / - d, d * max).

(** The loops of the 2x2 step: by columns q from the top, 339-359, and by rows p from the
    bottom, 367-386. *)
Definition cmstep (herm : bool) (N j : nat) (x y z : C) A (q : nat) : fm C :=
  let L0 := A q j * x + A q j.+1 * z in
  let L1 := A q j * cs herm z + A q j.+1 * y in
  let A : fm C := fun r c => if (c == q) && (q <= r < N)%N then A r c - A r j * cs herm L0 else A r c in
  let A : fm C := fun r c => if (c == q) && (q <= r < N)%N then A r c - A r j.+1 * cs herm L1 else A r c in
  updm (updm A q j L0) q j.+1 L1.
Definition rmstep (herm : bool) (j : nat) (x y z : C) A (p : nat) : fm C :=
  let L0 := A p j * x + A p j.+1 * z in
  let L1 := A p j * cs herm z + A p j.+1 * y in
  let A : fm C := fun r c => if (r == p) && (j.+2 <= c < p.+1)%N then A r c - L0 * cs herm (A c j) else A r c in
  let A : fm C := fun r c => if (r == p) && (j.+2 <= c < p.+1)%N then A r c - L1 * cs herm (A c j.+1) else A r c in
  updm (updm A p j L0) p j.+1 L1.
(** The 2x2 step, 287-394: A, xD and the determinant of the block. *)
Definition seq2 (herm iscm : bool) (N j : nat) A xD : outcome (fm C * fv C * C) :=
  let x := A j j in
  let z := A j.+1 j in
  let xD := updv xD j z in
  let y := A j.+1 j.+1 in
  let A := updm A j.+1 j 0 in
  do X2 <- sym2 herm x y z;
  let '(x, y, z, d) := X2 in
  let A := if iscm then foldl (cmstep herm N j x y z) A (iota j.+2 (N - j.+2))
           else foldl (rmstep herm j x y z) A (rev (iota j.+2 (N - j.+2))) in
  let A : fm C := if herm then fun r c => if (r == c) && (j.+2 <= r < N)%N then 'Re (A r c) else A r c else A in
  Ok (A, xD, d).

(** A, xD, P and the determinant (signdet * exp(logdet), kept here as one number). *)
Record lst := Lst { la : fm C; lx : fv C; lp : nat -> nat; ld : C }.

(** NonBlockLDL_Decompose, 64-398, from column j on.  [fuel] bounds the number of turns:
    UB when it runs out. *)
Fixpoint NonBlockLDL (fuel : nat) (herm iscm : bool) (N j : nat) (s : lst) : outcome lst :=
  if (N <= j)%N then Ok s else
  match fuel with
  | 0 => UB
  | f.+1 =>
    let '(c, A) := if j == N.-1 then (Stay, la s) else nbsearch herm N j (la s) in
    let '(one, (A, P)) := nbswap herm N j c A (lp s) in
    if one then
      let '(A, dj) := seq1 herm N j A in
      NonBlockLDL f herm iscm N j.+1 (Lst A (lx s) P (ld s * dj))
    else
      do R <- seq2 herm iscm N j A (lx s);
      NonBlockLDL f herm iscm N j.+2 (Lst R.1.1 R.1.2 P (ld s * R.2))
  end.

(** ** The blocked version, 430-690 *)

(** The updated column c of the matrix put into column k of LD, from row j on: 463-465 for
    c = j, 493-499 for c = p (above the diagonal the column is read from row p). *)
Definition ldcol (herm : bool) (N j1 j c k : nat) A LD : fm C := fun r q =>
  if (q == k) && (j <= r < N)%N then
    (if (r < c)%N then cs herm (A c r) else A r c)
    - \sum_(0 <= t < j - j1) A r (j1 + t)%N * cs herm (LD c t)
  else LD r q.

(** The pivot search, 467-513. *)
Definition bsearch (herm : bool) (N j1 j : nat) A LD : bk * fm C :=
  let jj := (j - j1)%N in
  let LD := ldcol herm N j1 j j jj A LD in
  if j == N.-1 then (Stay, LD) else
  let ajj := `|hre herm (LD j jj)| in
  let p := amax (fun i => LD i jj) j (N - j) in
  let apj := `|LD p jj| in
  let u := under apj in
  let '(ajj, apj, p, LD) := if u then (0, 0, j, zerocol jj j N LD) else (ajj, apj, p, LD) in
  if (p == j) || (alpha * apj <= ajj) then (Stay, LD)
  else
    let LD := ldcol herm N j1 j p jj.+1 A LD in
    (bkchoose ajj apj `|hre herm (LD p jj.+1)| (maxoff (fun i => LD i jj.+1) (fun i => LD i jj.+1) j p N) p, LD).

(** The parts of swapRowsCols(a,p) that matter when columns from j to a are overwritten
    later, 527-538 (a = j) and 551-562 (a = j+1). *)
Definition partswap (herm : bool) (N j a p : nat) A : fm C :=
  let A := updm A p p (A a a) in
  let A : fm C := fun r c => if (r == p) && (a < c < p)%N then cs herm (A c a) else A r c in
  let A : fm C := fun r c => if (c == p) && (p < r < N)%N then A r a else A r c in
  fun r c => if (c < j)%N then A (tsw a p r) c else A r c.
Definition bswap (herm : bool) (N j1 j : nat) (c : bk) A LD P : bool * (fm C * fm C * (nat -> nat)) :=
  let jj := (j - j1)%N in
  match c with
  | Stay => (true, (A, LD, updv P j j))
  | Bring p =>
      let LD : fm C := fun r q => if (q == jj) && (j <= r < N)%N then LD r jj.+1 else LD r q in
      (true, (partswap herm N j j p A,
              fun r q => if (q < jj.+1)%N then LD (tsw j p r) q else LD r q, updv P j p))
  | Two p =>
      let P := updv (updv P j j) j.+1 p in
      if p != j.+1 then
        (false, (partswap herm N j j.+1 p A,
                 fun r q => if (q < jj.+2)%N then LD (tsw j.+1 p r) q else LD r q, P))
      else (false, (A, LD, P))
  end.

(** The 1x1 step, 571-606. *)
Definition bseq1 (herm : bool) (N j jj : nat) A LD : fm C * C :=
  let A : fm C := fun r c => if (c == j) && (j <= r < N)%N then LD r jj else A r c in
  let A := updm A j j (hre herm (A j j)) in
  let dj := hre herm (A j j) in
  (if dj == 0 then A else divcol j j.+1 N dj A, dj).
(** The 2x2 step, 608-690. *)
Definition bseq2 (herm : bool) (N j jj : nat) A LD xD : outcome (fm C * fv C * C) :=
  let A := updm A j j (hre herm (LD j jj)) in
  let x := A j j in
  let z := LD j.+1 jj in
  let xD := updv xD j z in
  let A := updm A j.+1 j.+1 (hre herm (LD j.+1 jj.+1)) in
  let y := A j.+1 j.+1 in
  let A := updm A j.+1 j 0 in
  do X2 <- sym2 herm x y z;
  let '(x, y, z, d) := X2 in
  Ok (fun r c => if (j.+2 <= r < N)%N then
                   if c == j then LD r jj * x + LD r jj.+1 * z
                   else if c == j.+1 then LD r jj * cs herm z + LD r jj.+1 * y else A r c
                 else A r c, xD, d).

(** The columns from j to j2 of one block, 458-690: the first column after them and the state. *)
Fixpoint blockcols (fuel : nat) (herm : bool) (N j1 j2 j : nat) LD (s : lst) : outcome (nat * fm C * lst) :=
  if (j2 <= j)%N then Ok (j, LD, s) else
  match fuel with
  | 0 => UB
  | f.+1 =>
    let jj := (j - j1)%N in
    let '(c, LD) := bsearch herm N j1 j (la s) LD in
    let '(one, (A, LD, P)) := bswap herm N j1 j c (la s) LD (lp s) in
    if one then
      let '(A, dj) := bseq1 herm N j jj A LD in
      blockcols f herm N j1 j2 j.+1 LD (Lst A (lx s) P (ld s * dj))
    else
      do R <- bseq2 herm N j jj A LD (lx s);
      blockcols f herm N j1 j2 j.+2 LD (Lst R.1.1 R.1.2 P (ld s * R.2))
  end.

(** A22 -= L21 * LD21^T (or dagger), 693-702: the lower triangle of the product. *)
Definition blockupd (herm : bool) (N j1 j2 : nat) A LD : fm C := fun r c =>
  if (j2 <= c)%N && (c <= r < N)%N then
    A r c - \sum_(0 <= t < j2 - j1) A r (j1 + t)%N * cs herm (LD c t)
  else A r c.

(** BlockLDL_Decompose, 430-710.  LD is uninitialised at first. *)
Fixpoint BlockLDL (fuel : nat) (herm iscm : bool) (N j1 : nat) LD (s : lst) : outcome lst :=
  if (N <= j1)%N then Ok s else
  match fuel with
  | 0 => UB
  | f.+1 =>
    let j2 := minn (j1 + nb) N in
    if (j2 < N)%N then
      do R <- blockcols N.+1 herm N j1 j2 j1 LD s;
      let '(j2, LD, s) := R in
      BlockLDL f herm iscm N j2 LD (Lst (blockupd herm N j1 j2 (la s) LD) (lx s) (lp s) (ld s))
    else NonBlockLDL N.+1 herm iscm N j1 s
  end.

(** NonLapLDL_Decompose, 763-783. *)
Definition NonLapLDL (herm iscm : bool) (N : nat) LD (s : lst) : outcome lst :=
  if (nb < N)%N then BlockLDL N.+1 herm iscm N 0 LD s else NonBlockLDL N.+1 herm iscm N 0 s.

(** LDL_Decompose, 1297-1340, on a view: the stored triangle [raw], whether that is the upper
    one and whether the view is conjugated.  adjoint() (hermitian) and transpose() (symmetric)
    exchange the triangles; adjoint() and conjugate() toggle the conjugation, and so does
    xD.conjugate(): xD is stored conjugated if an odd number of those calls is made. *)
Definition LDL_Decompose (herm iscm upper cj : bool) (N : nat) LD (raw : fm C) (xD : fv C) P (det : C) : outcome lst :=
  let tr (A : fm C) : fm C := if upper then trm A else A in
  let flip := if herm then cj (+) upper else cj in
  let cv (v : fv C) : fv C := if flip then fun i => (v i)^* else v in
  let xD0 : fv C := fun i => if (i < N.-1)%N then 0 else cv xD i in
  do s <- NonLapLDL herm iscm N LD (Lst (tr raw) xD0 P det);
  Ok (Lst (tr (la s)) (cv (lx s)) (lp s) (ld s)).
End Model.

(** Element access (cref, TMV_SymMatrix.cpp:52-64): the matrix a SymMatrixView or HermMatrixView stands for: one triangle is stored in [raw],
    read through a conjugation if [cj]; the other one is its transpose, conjugated if
    hermitian. *)
Definition symview (C : numClosedFieldType) (herm upper cj : bool) (raw : fm C) : fm C := fun i j =>
  let e i j := if cj then (raw i j)^* else raw i j in
  if (if upper then i <= j else j <= i)%N then e i j else if herm then (e j i)^* else e j i.
