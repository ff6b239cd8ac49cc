(** Specification vocabulary for permutations: no reference to the model's
    loops. *)
From Coq Require Import List Arith Lia Bool ZArith.
From Verif Require Import Base Perm.
Import ListNotations.

(** A legal Permutation object: the buffer holds at least itsn entries and
    interchange k never has its partner below k or outside the size.  This is
    what every producer in the library (sort, LU, QRP, LDL, identity)
    guarantees, and what TMV_Permutation.h:241-245 says it relies on. *)
Definition legal (p : permutation) : Prop :=
  forall k, k < psize p ->
    exists x, nth_error (pvals p) k = Some x /\ k <= x < psize p.

(** The interchanges stay in range, without the ordering condition. *)
Definition in_range (p : permutation) : Prop :=
  forall k, k < psize p ->
    exists x, nth_error (pvals p) k = Some x /\ x < psize p.

(** sum_{k<n} f k *)
Fixpoint zsum (n : nat) (f : nat -> Z) : Z :=
  match n with 0 => 0%Z | S m => (zsum m f + f m)%Z end.

(** The matrix element as an integer; 0 outside [Ok] is irrelevant because the
    theorems also state that the outcome is [Ok]. *)
Definition val_or0 (x : outcome Z) : Z := match x with Ok z => z | _ => 0%Z end.

Definition elem (p : permutation) (i j : nat) : Z := val_or0 (perm_cref p i j).
