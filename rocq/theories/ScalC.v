(** std::complex<R> for an element type R: pairs, exact arithmetic
    (the standard library's complex multiplication as the textbook formula). *)
From Coq Require Import ZArith Ring Bool Lia.
From Verif Require Import Scal.

Section Cplx.
Variable R : scal.
Add Ring Rring : (kring R).

Definition scalC : scal.
  refine (mkScal (R * R)%type (k0, k0) (k1, k0)
    (fun x y => (kadd (fst x) (fst y), kadd (snd x) (snd y)))
    (fun x y => (ksub (kmul (fst x) (fst y)) (kmul (snd x) (snd y)),
                 kadd (kmul (fst x) (snd y)) (kmul (snd x) (fst y))))
    (fun x y => (ksub (fst x) (fst y), ksub (snd x) (snd y)))
    (fun x => (kopp (fst x), kopp (snd x)))
    (fun x => (fst x, kopp (snd x)))
    (fun x y => keqb (fst x) (fst y) && keqb (snd x) (snd y))
    true (fun x => (fst x, k0)) (fun x => keqb (snd x) k0) _ _ _ _ _ _ _).
  - constructor; intros; repeat match goal with u : prod _ _ |- _ => destruct u end;
      cbn [fst snd]; apply (f_equal2 pair); ring.
  - intros [a b] [c d]; cbn [fst snd]; apply (f_equal2 pair); ring.
  - intros [a b] [c d]; cbn [fst snd]; apply (f_equal2 pair); ring.
  - intros [a b]; cbn [fst snd]; apply (f_equal2 pair); ring.
  - intros [a b] [c d]; cbn [fst snd]. rewrite andb_true_iff, !keqb_eq.
    split; [intros [-> ->]|intro H; injection H]; auto.
  - discriminate.
  - intros [a b]; cbn [fst snd]. rewrite keqb_eq. intros ->. reflexivity.
Defined.
End Cplx.
