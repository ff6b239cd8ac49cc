(** Matrix-product form of the row and column permutations of PermMat.v. *)
From Coq Require Import ZArith List Lia.
From Verif Require Import Base Perm PermSpec PermProofs PermMat PermMC.
From mathcomp Require Import all_ssreflect all_fingroup all_algebra.
Set Implicit Arguments.
Unset Strict Implicit.
Unset Printing Implicit Defensive.
Import GRing.Theory.
Local Open Scope ring_scope.

(** The M x N matrix seen through [mat]. *)
Definition mx_of (R : comRingType) (M N : nat) (m : mat R) : 'M[R]_(M, N) :=
  \matrix_(i, j) m i j.

Lemma ltb_ord n (j : 'I_n) : Nat.ltb j n = true.
Proof. by apply/PeanoNat.Nat.ltb_lt/ltP. Qed.

Lemma apply_left_mulmx (R : comRingType) bs p N (m : mat R) :
  good_bs bs -> legal p ->
  exists m', perm_apply_left bs p (psize p) N m = Ok m' /\
             mx_of (psize p) N m' = elem_mx R p *m mx_of (psize p) N m.
Proof.
move=> Hbs H; have [m' [E Hm]] := perm_apply_left_ok bs p N m Hbs (legal_in_range p H).
exists m'; split=> //.
have [s [Hs _]] := src_perm (legal_in_range p H).
rewrite (elem_mx_perm R H Hs) -row_permE; apply/matrixP => i j.
by rewrite !mxE Hm ltb_ord Hs.
Qed.

Lemma src_perm_inv p (s : 'S_(psize p)) (j : 'I_(psize p)) :
  in_range p -> (forall i : 'I_(psize p), src p i = s i :> nat) ->
  src (perm_inverse p) j = (s^-1)%g j :> nat.
Proof.
move=> H Hs; have := Hs ((s^-1)%g j); rewrite permKV => Ej.
have := src_inverse p ((s^-1)%g j); rewrite Ej; exact.
Qed.

Lemma apply_right_mulmx (R : comRingType) bs p M (m : mat R) :
  good_bs bs -> legal p ->
  exists m', perm_apply_matright bs p M (psize p) m = Ok m' /\
             mx_of M (psize p) m' = mx_of M (psize p) m *m elem_mx R p.
Proof.
move=> Hbs H; have [m' [E Hm]] := perm_apply_matright_ok bs p M m Hbs (legal_in_range p H).
exists m'; split=> //.
have [s [Hs _]] := src_perm (legal_in_range p H).
rewrite (elem_mx_perm R H Hs) -[in RHS](invgK s) -col_permE; apply/matrixP => i j.
by rewrite !mxE Hm ltb_ord (src_perm_inv _ (legal_in_range p H) Hs).
Qed.
