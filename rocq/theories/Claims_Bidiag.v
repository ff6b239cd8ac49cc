(** C52, first half: reduction to bidiagonal form, with the two factors. *)
From Verif Require Import Base FMat LUDiv Cplx QR QRProofs QRDiv QRDivProofs Claims_QR SVDiv SVDivProofs Claims_SVD Bidiag BidiagProofs.
From mathcomp Require Import all_ssreflect all_algebra all_field zify.
Set Implicit Arguments. Unset Strict Implicit. Unset Printing Implicit Defensive.
Import GRing.Theory Num.Theory Order.Theory.
Local Open Scope ring_scope.

(** Specification: the N x N matrix with D on the diagonal and E just above it, and
    A = U B Vt with orthonormal columns of U and orthonormal rows of Vt. *)
Section Spec.
Variable C : numClosedFieldType.
Definition bidiagonal (D E : nat -> C) : nat -> nat -> C := fun i j =>
  if j == i then D i else if j == i.+1 then E i else 0.
Definition is_bidiagonalization (M N : nat) (A U : fm C) (D E : nat -> C) (Vt : fm C) : Prop :=
  [/\ orthonormal M N U, rows_orthonormal N N Vt,
      (forall i, (i < N)%N -> D i \is Num.real), (forall i, (i.+1 < N)%N -> E i \is Num.real) &
      forall i j, (i < M)%N -> (j < N)%N -> A i j = prodm N U (prodm N (bidiagonal D E) Vt) i j].
End Spec.

Lemma bidi_spec (C : numClosedFieldType) (D E : fv C) i j : bidi D E i j = bidiagonal D E i j.
Proof. by rewrite /bidi /bidiagonal ![_ == j]eq_sym. Qed.
Lemma bfact_spec (C : numClosedFieldType) M N (A U : fm C) D E Vt i j :
  (i < M)%N -> (j < N)%N ->
  bfact M N A U D E Vt -> A i j = prodm N U (prodm N (bidiagonal D E) Vt) i j.
Proof.
  move=> hi hj f; rewrite (f i j hi hj) /prodm; apply: eq_bigr => k _; rewrite big_distrr /=.
  by apply: eq_bigr => l _; rewrite mulrA bidi_spec.
Qed.

(** For every M x N matrix with N <= M, whatever its contents and rank and whatever the
    memory of the outputs held, A = U B Vt; nothing outside the two factors changes. *)
Theorem C52_bidiagonalize (C : numClosedFieldType) (under : C -> bool) (nb M N : nat)
    (A Vt Z0 Z1 : fm C) (ub vb D E : fv C) (d : C) :
  (0 < nb)%N -> (0 < N)%N -> (N <= M)%N ->
  exists U' D' E' Vt' d', BidiagUnpack under nb M N A ub vb D E d Vt Z0 Z1 = Ok (U', D', E', Vt', d') /\
    is_bidiagonalization M N A U' D' E' Vt' /\
    (forall i j, ~~ ((i < M) && (j < N))%N -> U' i j = A i j) /\
    (forall i j, ~~ ((i < N) && (j < N))%N -> Vt' i j = Vt i j).
Proof.
  move=> hnb hN hM; have [U [D' [E' [V [d' [-> [o1 o2 f [r1 r2] [f1 [f2 _]]]]]]]]] :=
    BidiagUnpackP under hnb A ub vb D E d Vt Z0 Z1 hN hM.
  exists U, D', E', V, d'; split=> //; split=> //.
  by split=> // i j hi hj; apply: bfact_spec f.
Qed.
Print Assumptions C52_bidiagonalize.

(** The sign kept beside: for a square A, det A is signdet times the product of D. *)
Theorem C52_bidiagonal_determinant (C : numClosedFieldType) (under : C -> bool) (nb N : nat)
    (A Vt Z0 Z1 : fm C) (ub vb D E : fv C) :
  (0 < nb)%N -> (0 < N)%N ->
  exists U' D' E' Vt' d', BidiagUnpack under nb N N A ub vb D E 1 Vt Z0 Z1 = Ok (U', D', E', Vt', d') /\
    d' * (\prod_(i < N) D' i) = \det (\matrix_(i < N, j < N) A i j).
Proof.
  move=> hnb hN; have [U [D' [E' [V [d' [-> [_ _ _ _ [_ [_ h]]]]]]]]] :=
    BidiagUnpackP under hnb A ub vb D E 1 Vt Z0 Z1 hN (leqnn N).
  exists U, D', E', V, d'; split=> //; rewrite h // mul1r.
  by congr (\det _); apply/matrixP => i j; rewrite !mxE.
Qed.
Print Assumptions C52_bidiagonal_determinant.

(** A bidiagonalization is not trivially satisfied: this 2 x 2 matrix has one with the
    identity factors only because it is bidiagonal; the transpose of it does not. *)
Definition exb : fm algC := fun i j => if i == 0%N then (if j == 0%N then 3%:R else 4%:R) else (j == 1%N)%:R.
Definition idm : fm algC := fun i j => (i == j)%:R.
Definition exD : fv algC := fun i => if i == 0%N then 3%:R else 1.
Definition exE : fv algC := fun _ => 4%:R.
Example exb_bidiagonal : is_bidiagonalization 2 2 exb idm exD exE idm.
Proof.
  split=> [c c'|c c'|[|i]|i|i j].
  - by move=> hc hc'; rewrite !big_ord_recl big_ord0 /idm; move: c c' hc hc' => [|[|c]] [|[|c']] //= _ _;
      rewrite ?conjC0 ?conjC1 ?mulr0 ?mulr1 ?mul0r ?mul1r ?addr0 ?add0r.
  - by move=> hc hc'; rewrite !big_ord_recl big_ord0 /idm; move: c c' hc hc' => [|[|c]] [|[|c']] //= _ _;
      rewrite ?conjC0 ?conjC1 ?mulr0 ?mulr1 ?mul0r ?mul1r ?addr0 ?add0r.
  - by rewrite /exD /= realn.
  - by rewrite /exD /= real1.
  - by rewrite /exE realn.
  by case: i j => [|[|i]] [|[|j]] // _ _; rewrite /prodm !big_ord_recl !big_ord0 /exb /idm /bidiagonal /exD /exE /=;
    rewrite ?mulr0 ?mulr1 ?mul0r ?mul1r ?addr0 ?add0r ?mul0r ?mul1r.
Qed.
Example exbT_not : ~ is_bidiagonalization 2 2 (trm exb) idm exD exE idm.
Proof.
  case=> _ _ _ _ /(_ 1%N 0%N isT isT); rewrite /trm /exb /= /prodm !big_ord_recl !big_ord0 /idm /bidiagonal /=.
  by do 4 rewrite ?(mul0r, mulr0, addr0, add0r, mul1r, mulr1); move/eqP; rewrite pnatr_eq0.
Qed.
