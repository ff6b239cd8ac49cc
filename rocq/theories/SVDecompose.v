(** SV_Decompose, /repo/src/TMV_SVDecompose.cpp:750-850, with StoreU and with Vt wanted, in
    exact arithmetic and without LAPACK.  logdet and signdet are left out, except that
    signdet is passed on. *)
From Verif Require Import Base FMat RowPerm Cplx Givens QR QRDiv Bidiag BidiagQR Perm Sort.
From mathcomp Require Import all_ssreflect all_algebra.
Set Implicit Arguments. Unset Strict Implicit. Unset Printing Implicit Defensive.
Import GRing.Theory Num.Theory.
Local Open Scope ring_scope.

Section Model.
Variable C : numClosedFieldType.
Variables (eps : C) (under : C -> bool) (dclim nb : nat).
Variable dc : nat -> nat -> nat -> nat -> bst C -> run (bst C).
(** std::sort on pairs of a value and an index. *)
Variable stdsort : (C * nat -> C * nat -> bool) -> list (C * nat) -> list (C * nat).
Implicit Types (A U Vt : fm C) (D E Sv : fv C).

(** The permutation that D.sort(p,Descend) puts in p, a new array, for the first n elements of D (216): the
    model of C07, with the real part as the value of a real number. *)
Definition sortp (n : nat) D : nat -> nat :=
  match sort_p id -%R (fun a b : C => 'Re a < 'Re b) stdsort Descend (nseq n 0%N) (map D (iota 0 n)) with
  | Ok (P, _) => fun k => List.nth k P 0%N
  | _ => id
  end.

(** The contents of newly allocated memory: Ubeta, Vtbeta, E, the work matrices of QR_Decompose and
    GetQFromQR, R and its factor beta. *)
Record work := Work { w_ub : fv C; w_vb : fv C; w_E : fv C; w_Z0 : fm C; w_Z1 : fm C;
  w_Z2 : fm C; w_Z3 : fm C; w_R : fm C; w_b : fv C }.

(** A result, an access outside an array (undefined behaviour), or none yet (None). *)
Definition toR (T : Type) (r : run T) : outcome (option T) :=
  match r with Done a => Ok (Some a) | Outside => UB | More => Ok None end.

(** 804-850: no initial QR decomposition.  [esz] is the size of the memory of E, which is
    N-1 (808). *)
Definition SV_direct (fuel esz M N : nat) A Sv Vt (w : work) (det : C) : outcome (option (fm C * fv C * fm C)) :=
  do r <- BidiagUnpack under nb M N A (w_ub w) (w_vb w) Sv (w_E w) det Vt (w_Z0 w) (w_Z1 w);
  let: (U, D, E, V, _) := r in
  toR (bindR (FromBidiagonal eps under dclim (dc M N) M N esz sortp fuel N (St U D E V)) (fun st =>
       Done (sU st, sD st, sV st))).

(** 750-850.  The recursive call (791) is made with a square matrix, for which M > 5*N/3 is
    false.  QR_Decompose(U,R,signdet) is TMV_QRDecompose.cpp:660-676. *)
Definition SV_Decompose (fuel esz M N : nat) A Sv Vt (w : work) (det : C) : outcome (option (fm C * fv C * fm C)) :=
  if N == 0%N then Ok (Some (A, Sv, Vt))
  else if (5 * N %/ 3 < M)%N then
    do r <- QR_Decompose nb under M N A (w_b w) det (w_Z2 w);
    let: (Q, beta, det) := r in
    let R : fm C := fun i j => if (i < N)%N && (j < N)%N then (if (i <= j)%N then Q i j else 0) else w_R w i j in
    do Q <- GetQFromQR nb M N Q beta (w_Z3 w);
    do r <- SV_direct fuel esz N N R Sv Vt w det;
    Ok (if r is Some (U, Sv, Vt) then
          Some (fun i j => if (i < M)%N && (j < N)%N then \sum_(0 <= k < N) Q i k * U k j else Q i j, Sv, Vt)
        else None)
  else SV_direct fuel esz M N A Sv Vt w det.
End Model.
