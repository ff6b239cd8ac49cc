(** The element types T the templates are instantiated with: a commutative ring
    with a conjugation, exact arithmetic.  [kcplx] is isComplex(T()); for a real
    type conjugation is the identity.  [kre] is TMV_REAL seen as an element of T
    and [kisreal] is TMV_IMAG(x)==0 (include/tmv/TMV_Base.h:269-420). *)
From Coq Require Import ZArith Ring Bool Lia.
Open Scope Z_scope.

Record scal := mkScal {
  car :> Type;
  k0 : car; k1 : car;
  kadd : car -> car -> car; kmul : car -> car -> car; ksub : car -> car -> car; kopp : car -> car;
  cj : car -> car; keqb : car -> car -> bool;
  kcplx : bool; kre : car -> car; kisreal : car -> bool;
  kring : ring_theory k0 k1 kadd kmul ksub kopp eq;
  cj_add : forall x y, cj (kadd x y) = kadd (cj x) (cj y);
  cj_mul : forall x y, cj (kmul x y) = kmul (cj x) (cj y);
  cj_cj : forall x, cj (cj x) = x;
  keqb_eq : forall x y, keqb x y = true <-> x = y;
  cj_real_type : kcplx = false -> forall x, cj x = x;
  kre_real : forall x, kisreal x = true -> kre x = x
}.
Arguments k0 {s}. Arguments k1 {s}. Arguments kadd {s}. Arguments kmul {s}.
Arguments ksub {s}. Arguments kopp {s}. Arguments cj {s}. Arguments keqb {s}.
Arguments kre {s}. Arguments kisreal {s}.

Lemma cj_0 (K : scal) : cj (k0 : K) = k0.
Proof.
  pose proof (kring K) as R.
  assert (H : kadd (cj (k0 : K)) (cj k0) = kadd (cj k0) k0).
  { rewrite <- cj_add, (Radd_comm R (cj k0) k0), !(Radd_0_l R). reflexivity. }
  apply (f_equal (fun z => kadd (kopp (cj k0)) z)) in H.
  rewrite !(Radd_assoc R), (Radd_comm R (kopp _) (cj _)), (Ropp_def R), !(Radd_0_l R) in H. exact H.
Qed.

Lemma cj_1 (K : scal) : cj (k1 : K) = k1.
Proof.
  pose proof (kring K) as R.
  assert (H : forall y : K, kmul (cj k1) y = y).
  { intro y. rewrite <- (cj_cj K y) at 1. rewrite <- cj_mul, (Rmul_1_l R). apply cj_cj. }
  rewrite <- (H k1) at 2. rewrite (Rmul_comm R), (Rmul_1_l R). reflexivity.
Qed.

Lemma cj_eq0 (K : scal) (x : K) : cj x = k0 -> x = k0.
Proof. intro H. rewrite <- (cj_cj K x), H. apply cj_0. Qed.
Lemma cj_eq1 (K : scal) (x : K) : cj x = k1 -> x = k1.
Proof. intro H. rewrite <- (cj_cj K x), H. apply cj_1. Qed.

(** Two instances: int, and complex int. *)
Definition ZK : scal.
  refine (mkScal Z 0 1 Z.add Z.mul Z.sub Z.opp (fun x => x) Z.eqb false (fun x => x)
            (fun _ => true) Zth _ _ _ _ _ _); auto. apply Z.eqb_eq.
Defined.

Definition ZC : scal.
  refine (mkScal (Z * Z)%type (0, 0) (1, 0)
    (fun x y => (fst x + fst y, snd x + snd y))
    (fun x y => (fst x * fst y - snd x * snd y, fst x * snd y + snd x * fst y))
    (fun x y => (fst x - fst y, snd x - snd y))
    (fun x => (- fst x, - snd x))
    (fun x => (fst x, - snd x))
    (fun x y => (fst x =? fst y) && (snd x =? snd y))
    true (fun x => (fst x, 0)) (fun x => snd x =? 0) _ _ _ _ _ _ _).
  - constructor; intros; repeat match goal with u : (Z * Z)%type |- _ => destruct u end; cbn [fst snd]; f_equal; ring.
  - intros [a b] [c d]; simpl; f_equal; ring.
  - intros [a b] [c d]; simpl; f_equal; ring.
  - intros [a b]; simpl; f_equal; lia.
  - intros [a b] [c d]; simpl. rewrite andb_true_iff, !Z.eqb_eq. split; [intros [-> ->]|intro H; injection H]; auto.
  - discriminate.
  - intros [a b]; simpl. rewrite Z.eqb_eq. intros ->. reflexivity.
Defined.
