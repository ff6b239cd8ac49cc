(** Model of class Permutation (include/tmv/TMV_Permutation.h) at the level of
    values: the interchange list, its orientation flag and the functions that
    read them.  Ownership of the list is modelled in PermHeap.v.

    Vector contents are lists; indices are naturals (a negative index, which
    TMVAssert excludes, is not representable).  *)
From Coq Require Import List Arith Lia Bool ZArith.
From Verif Require Import Base.
Import ListNotations.

(** VectorView::DoSwap, src/TMV_Vector.cpp:1099-1111 (and Vector::DoSwap
    1113-1123), on the elements of the vector: no access when i1 == i2,
    otherwise both cells are read and written. *)
Definition do_swap {A} (i1 i2 : nat) (l : list A) : outcome (list A) :=
  if i1 =? i2 then Ok l
  else match nth_error l i1, nth_error l i2 with
       | Some a, Some b => Ok (upd (upd l i1 b) i2 a)
       | _, _ => UB
       end.

(** Reading p[i] through the raw pointer. *)
Definition rd {A} (p : list A) (i : nat) : outcome A :=
  match nth_error p i with Some x => Ok x | None => UB end.

(** VectorView::DoPermute, src/TMV_Vector.cpp:1125-1134. *)
Definition do_permute {A} (p : list nat) (i1 i2 : nat) (l : list A) :=
  for_up (i2 - i1) i1 (fun i s => do pi <- rd p i; do_swap i pi s) l.

(** VectorView::DoReversePermute, src/TMV_Vector.cpp:1136-1145. *)
Definition do_reverse_permute {A} (p : list nat) (i1 i2 : nat) (l : list A) :=
  for_down (i2 - i1) i1 (fun i s => do pi <- rd p i; do_swap i pi s) l.

(** The value of a Permutation, TMV_Permutation.h:520-525 (itsn, *itsp,
    isinv).  The buffer may be longer than itsn (after resize to a smaller n,
    508-517). *)
Record permutation := mkPerm { psize : nat; pvals : list nat; pinv : bool }.

(** Permutation(ptrdiff_t n), TMV_Permutation.h:183-188. *)
Definition perm_identity (n : nat) : permutation := mkPerm n (seq 0 n) false.

(** inverse() / transpose(), TMV_Permutation.h:267-271. *)
Definition perm_inverse (p : permutation) : permutation :=
  mkPerm (psize p) (pvals p) (negb (pinv p)).

(** transposeSelf() / invertSelf(), TMV_Permutation.h:358-362. *)
Definition perm_transpose_self (p : permutation) : permutation :=
  mkPerm (psize p) (pvals p) (negb (pinv p)).

(** apply(VectorView), TMV_Permutation.h:432-437; the permute overloads
    without a range use 0..v.size(), TMV_Vector.h:965-966, 974-975. *)
Definition perm_apply {A} (p : permutation) (v : list A) : outcome (list A) :=
  if pinv p then do_reverse_permute (pvals p) 0 (length v) v
  else do_permute (pvals p) 0 (length v) v.

(** v * p and v *= p, TMV_PermutationArith.h:45-50, 71-81, 95-101. *)
Definition perm_apply_right {A} (v : list A) (p : permutation) : outcome (list A) :=
  perm_apply (perm_inverse p) v.

(** The loop of cref, TMV_Permutation.h:248-252.  [fuel] is the number of
    remaining values of k below i+1, so running out is the exit k > i. *)
Fixpoint cref_loop (fuel : nat) (p : list nat) (k temp : nat) : outcome nat :=
  match fuel with
  | 0 => Ok temp
  | S fuel' =>
      if k <=? temp then
        do pk <- rd p k;
        let temp' :=
          if pk =? k then temp
          else if temp =? k then pk
          else if temp =? pk then k
          else temp in
        cref_loop fuel' p (S k) temp'
      else Ok temp
  end.

(** cref(i,j), TMV_Permutation.h:219-257. *)
Definition perm_cref (p : permutation) (i j : nat) : outcome Z :=
  let (i, j) := if pinv p then (j, i) else (i, j) in
  do temp <- cref_loop (S i) (pvals p) 0 j;
  Ok (if temp =? i then 1%Z else 0%Z).

(** det(), TMV_Permutation.h:273-278. *)
Definition perm_det (p : permutation) : outcome Z :=
  for_up (psize p) 0
    (fun i d => do pi <- rd (pvals p) i;
                Ok (if pi =? i then d else Z.opp d)) 1%Z.

(** makeIndex, TMV_Permutation.h:527-537 (TMV_SWAP of index[k] and
    index[itsp[k]], skipped when itsp[k]==k). *)
Definition perm_make_index (p : permutation) : outcome (list nat) :=
  let body := fun k s => do pk <- rd (pvals p) k; do_swap k pk s in
  if pinv p then for_down (psize p) 0 body (seq 0 (psize p))
  else for_up (psize p) 0 body (seq 0 (psize p)).

(** trace(), TMV_Permutation.h:283-297. *)
Definition perm_trace (p : permutation) : outcome Z :=
  do temp <- perm_make_index p;
  for_up (psize p) 0
    (fun k t => do x <- rd temp k;
                Ok (if x =? k then (t + 1)%Z else t)) 0%Z.

(** The element-by-element comparison loops of operator==,
    TMV_Permutation.h:919-922 and 930-933 (early return on a difference). *)
Fixpoint eq_upto (n k : nat) (a b : list nat) : outcome bool :=
  match n with
  | 0 => Ok true
  | S n' =>
      do x <- rd a k; do y <- rd b k;
      if x =? y then eq_upto n' (S k) a b else Ok false
  end.

(** operator==, TMV_Permutation.h:913-935.  The size assertion is a
    precondition of the theorems. *)
Definition perm_eqb (p q : permutation) : outcome bool :=
  if Bool.eqb (pinv p) (pinv q) then eq_upto (psize p) 0 (pvals p) (pvals q)
  else
    do t1 <- perm_make_index p;
    do t2 <- perm_make_index q;
    eq_upto (psize p) 0 t1 t2.
