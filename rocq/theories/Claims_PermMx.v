(** Properties C03 (determinant) and C06 (matrix products). *)
From Coq Require Import ZArith List.
From Verif Require Import Base Perm PermSpec PermMat PermMC PermMatMC.
From mathcomp Require Import all_ssreflect all_fingroup all_algebra.
Delimit Scope Z_scope with Z.

(** C03: det() is the determinant of the 0/1 matrix given by element access,
    over every commutative ring.  ex_p in Claims_Perm.v is a legal instance. *)
Theorem C03_det_is_determinant :
  forall (R : comRingType) p, legal p ->
    exists b : bool,
      perm_det p = Ok (if b then (-1)%Z else 1%Z) /\
      (\det (elem_mx R p) = (-1) ^+ b)%R.
Proof. exact perm_det_is_det. Qed.
Print Assumptions C03_det_is_determinant.

(** C06: applyOnLeft / applyOnRight are the matrix products, for every build
    whose TMV_BLOCKSIZE is undefined or even ([good_bs]). *)
Theorem C06_apply_on_left_is_product :
  forall (R : comRingType) bs p N (m : mat R), good_bs bs -> legal p ->
    exists m', perm_apply_left bs p (psize p) N m = Ok m' /\
      ((\matrix_(i < psize p, j < N) m' i j)%R =
        elem_mx R p *m (\matrix_(i < psize p, j < N) m i j))%R.
Proof. exact apply_left_mulmx. Qed.
Print Assumptions C06_apply_on_left_is_product.

Theorem C06_apply_on_right_is_product :
  forall (R : comRingType) bs p M (m : mat R), good_bs bs -> legal p ->
    exists m', perm_apply_matright bs p M (psize p) m = Ok m' /\
      ((\matrix_(i < M, j < psize p) m' i j) =
        (\matrix_(i < M, j < psize p) m i j) *m elem_mx R p)%R.
Proof. exact apply_right_mulmx. Qed.
Print Assumptions C06_apply_on_right_is_product.

