(** Bidiagonalization, /repo/src/TMV_SVDecompose_Bidiag.cpp, without LAPACK: the unblocked
    algorithm, which is the one used for up to BIDIAG_BLOCKSIZE (16) columns (435-440), and
    the first half of SV_Decompose, TMV_SVDecompose.cpp:798-850, which unpacks the two
    factors.  BlockBidiagonalize (147-420) is not modelled.  Exact arithmetic. *)
From Verif Require Import Base FMat Cplx QR QRDiv.
From mathcomp Require Import all_ssreflect all_algebra.
Set Implicit Arguments. Unset Strict Implicit. Unset Printing Implicit Defensive.
Import GRing.Theory Num.Theory.
Local Open Scope ring_scope.

Section Model.
Variable C : numClosedFieldType.
Variable under : C -> bool.
Implicit Types (A U Vt : fm C) (D E ub vb : fv C).

(** The view A.transpose().subMatrix(1,N,0,M) and a write through it. *)
Definition tsub A : fm C := fun i j => A j i.+1.
Definition untsub (At A : fm C) : fm C := fun i j => if j is j'.+1 then At j' i else A i 0%N.

(** One pass of the loop of NonBlockBidiagonalize, 90-104: a reflection of the column j
    from row j on, then one of the row j from column j+1 on (as a column of the transpose:
    A.transpose().subMatrix(j+1,N,j,M) is tsub A from (j,j) on). *)
Definition bstep (M N j : nat) (s : fm C * fv C * fv C * C) : fm C * fv C * fv C * C :=
  let: (A, ub, vb, det) := s in
  let: (A, b, det) := hreflectM under M j N A det in
  let ub := updv ub j b in
  let: (At, b, det) := hreflectM under (N - 1) j M (tsub A) det in
  (untsub At A, ub, updv vb j b, det).

(** NonBlockBidiagonalize, 58-115: A, Ubeta, Vtbeta, D, E, signdet. *)
Definition NonBlockBidiagonalize (M N : nat) A ub vb D E (det : C) :=
  let: (A, ub, vb, det) := foldl (fun s j => bstep M N j s) (A, ub, vb, det) (iota 0 (N - 1)) in
  let: (A, b, det) := hreflect under M (N - 1) A det in
  let D' : fv C := fun i => if (i < N)%N then 'Re (A i i) else D i in
  let E' : fv C := fun i => if (i < N - 1)%N then 'Re (A i i.+1) else E i in
  (A, updv ub (N - 1) b, vb, D', E', det).

(** Unpacking in SV_Decompose, TMV_SVDecompose.cpp:829-840: Vt from the rows of U (its
    first row and column are those of the identity), then U from its columns.  Z0, Z1: the
    work matrices of GetQFromQR. *)
Definition setV (N : nat) U Vt : fm C := fun i j =>
  if (i < N)%N && (j < N)%N then
    (if i is i'.+1 then (if j == 0%N then 0 else U i' j) else (j == 0%N)%:R) else Vt i j.
Definition putV (Q Vt : fm C) : fm C := fun i j =>
  if i is i'.+1 then (if j is j'.+1 then Q j' i' else Vt i j) else Vt i j.
Definition unpackV (nb N : nat) U vb Vt Z0 : outcome (fm C) :=
  do Q <- GetQFromQR nb (N - 1) (N - 1) (tsub (fun i j => setV N U Vt i.+1 j)) vb Z0;
  Ok (putV Q (setV N U Vt)).
Definition BidiagUnpack (nb M N : nat) A ub vb D E (det : C) Vt Z0 Z1 :=
  let: (U, ub, vb, D, E, det) := NonBlockBidiagonalize M N A ub vb D E det in
  do Vt <- unpackV nb N U vb Vt Z0;
  do U <- GetQFromQR nb M N U ub Z1;
  Ok (U, D, E, Vt, det).
End Model.
