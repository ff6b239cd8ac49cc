(** The ring and field tactics of the standard library on mathcomp fields: the
    operations are first renamed to constants with one fixed form. *)
From Coq Require Import Ring Field setoid_ring.Ring_theory setoid_ring.Field_theory.
From mathcomp Require Import all_ssreflect all_algebra.
Set Implicit Arguments. Unset Strict Implicit. Unset Printing Implicit Defensive.
Import GRing.Theory.
Local Open Scope ring_scope.

Section Ops.
Variable F : fieldType.
Definition fzero : F := 0.
Definition fone : F := 1.
Definition fadd (x y : F) : F := x + y.
Definition fmul (x y : F) : F := x * y.
Definition fopp (x : F) : F := - x.
Definition finv (x : F) : F := x^-1.
Definition fsub (x y : F) : F := fadd x (fopp y).
Definition fdiv (x y : F) : F := fmul x (finv y).
Lemma mc_rt : ring_theory fzero fone fadd fmul fsub fopp eq.
Proof.
  split.
  - exact: add0r. - exact: addrC. - exact: addrA. - exact: mul1r. - exact: mulrC. - exact: mulrA.
  - exact: mulrDl. - by []. - exact: subrr.
Qed.
Lemma mc_ft : field_theory fzero fone fadd fmul fsub fopp fdiv finv eq.
Proof.
  split.
  - exact: mc_rt. - by apply/eqP; exact: oner_neq0. - by [].
  - by move=> p /eqP h; rewrite /fmul /finv mulVf.
Qed.
End Ops.

(** Rename the operations of the goal (an equation in F). *)
Ltac mcnorm F :=
  rewrite ?exprS ?expr0 ?mulrS ?mulr0n;
  match goal with |- @eq _ ?l ?r => change (@eq (GRing.Field.sort F) l r) end;
  repeat match goal with
  | |- context [@GRing.add ?V ?a ?b] => change (@GRing.add V a b) with (@fadd F a b)
  | |- context [@GRing.mul ?V ?a ?b] => change (@GRing.mul V a b) with (@fmul F a b)
  | |- context [@GRing.opp ?V ?a] => change (@GRing.opp V a) with (@fopp F a)
  | |- context [@GRing.inv ?V ?a] => change (@GRing.inv V a) with (@finv F a)
  | |- context [GRing.zero ?V] => change (GRing.zero V) with (@fzero F)
  | |- context [GRing.one ?V] => change (GRing.one V) with (@fone F)
  end.
