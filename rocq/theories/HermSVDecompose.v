(** SV_Decompose of a hermitian matrix into U, S and Vt, or U and S, or S and Vt:
    /repo/src/TMV_SymSVDecompose.cpp:1496-1572, hermitian case, in exact arithmetic.  U and Vt are
    views that may be conjugated (uconj, vconj): their elements here are those the user sees. *)
From Verif Require Import Base FMat RowPerm Cplx Chol LUDiv QR QRDiv SVDiv BidiagQR Tridiag TridiagQR HermSVD.
From mathcomp Require Import all_ssreflect all_algebra.
Set Implicit Arguments. Unset Strict Implicit. Unset Printing Implicit Defensive.
Import GRing.Theory Num.Theory.
Local Open Scope ring_scope.

Section Model.
Variable C : numClosedFieldType.
Variables (eps : C) (under : C -> bool) (dclim nb tb : nat).
Variable dc : nat -> nat -> nat -> tst C -> run (tst C).
Variable blk : nat -> fm C -> fv C -> fv C -> fv C -> fm C * fv C * fv C * fv C.
Variable stdsort : (C * nat -> C * nat -> bool) -> list (C * nat) -> list (C * nat).
Implicit Types (A U Vt : fm C) (SS : fv C).

(** 1520-1527: U, then Vt = U.adjoint() and the loop that moves the signs (the loops of getS and
    getVt, which do the same to each i). *)
Definition SV3_0 (fuel N : nat) A U SS Vt (w : hwork C) : outcome (option (fm C * fv C * fm C)) :=
  do r <- HermSV_Decompose eps under dclim nb tb dc blk stdsort fuel N (setlow N A U) SS w;
  Ok (if r is Some (U1, S1) then
        Some (U1, HermSVDiv_getS N S1, fun i j => if ((i < N) && (j < N))%N then HermSVDiv_getVt N U1 S1 i j else Vt i j)
      else None).
(** Vt.conjugateSelf(). *)
Definition conjSelf (N : nat) Vt : fm C := fun i j => if ((i < N) && (j < N))%N then (Vt i j)^* else Vt i j.
(** 1496-1536. *)
Definition SV3 (uconj vconj : bool) (fuel N : nat) A U SS Vt w : outcome (option (fm C * fv C * fm C)) :=
  if uconj then
    if vconj then
      do r <- SV3_0 fuel N (conjm A) (conjm U) SS (conjm Vt) w;
      Ok (if r is Some (U1, S1, V1) then Some (conjm U1, S1, conjm V1) else None)
    else
      do r <- SV3_0 fuel N (conjm A) (conjm U) SS Vt w;
      Ok (if r is Some (U1, S1, V1) then Some (conjm U1, S1, conjSelf N V1) else None)
  else
    if vconj then
      do r <- SV3_0 fuel N A U SS (conjm Vt) w;
      Ok (if r is Some (U1, S1, V1) then Some (U1, S1, conjSelf N (conjm V1)) else None)
    else SV3_0 fuel N A U SS Vt w.

(** 1538-1559: U and S. *)
Definition SV2_0 (fuel N : nat) A U SS (w : hwork C) : outcome (option (fm C * fv C)) :=
  do r <- HermSV_Decompose eps under dclim nb tb dc blk stdsort fuel N (setlow N A U) SS w;
  Ok (if r is Some (U1, S1) then Some (U1, HermSVDiv_getS N S1) else None).
Definition SV2U (uconj : bool) (fuel N : nat) A U SS w : outcome (option (fm C * fv C)) :=
  if uconj then
    do r <- SV2_0 fuel N (conjm A) (conjm U) SS w;
    Ok (if r is Some (U1, S1) then Some (conjm U1, S1) else None)
  else SV2_0 fuel N A U SS w.
(** 1561-1572: S and Vt, by way of Vt.adjoint(), which is conjugated when Vt is not. *)
Definition SV2V (vconj : bool) (fuel N : nat) A SS Vt w : outcome (option (fv C * fm C)) :=
  do r <- SV2U (~~ vconj) fuel N A (hadj Vt) SS w;
  Ok (if r is Some (U1, S1) then Some (S1, hadj U1) else None).
End Model.
