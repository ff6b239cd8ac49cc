(** C36: the complex scalar helpers of TMV_Base.h. *)
From Verif Require Import Base Cplx.
From mathcomp Require Import all_ssreflect all_algebra all_field.
Set Implicit Arguments. Unset Strict Implicit. Unset Printing Implicit Defensive.
Import GRing.Theory Num.Theory Order.Theory.
Local Open Scope ring_scope.

(** TMV_InverseOf and the TMV_Divide overloads return the exact quotient for every
    non-zero divisor, whichever component dominates. *)
Theorem C36_divide : forall (C : numClosedFieldType) (x y : C), y != 0 ->
  [/\ tINV y * y = 1, tDIV x y * y = x & (y \is Num.real -> tDIVr x y * y = x)].
Proof.
  move=> C x y hy; split.
  - by rewrite tINVE // mulVf.
  - by rewrite /tDIV tINVE // divfK.
  - by move=> hr; rewrite tDIVrE // divfK.
Qed.
Print Assumptions C36_divide.

(** TMV_ABS (rescaled by the larger component) and TMV_NORM are the modulus and its
    square, for zero and for purely real or imaginary numbers too. *)
Theorem C36_abs : forall (C : numClosedFieldType) (x : C),
  0 <= tABS x /\ tABS x ^+ 2 = x * x^* /\ tNORM x = x * x^*.
Proof. by move=> C x; rewrite tABSE tNORM_conj normCK; split. Qed.
Print Assumptions C36_abs.

(** TMV_SIGN: a number of modulus 1 with sign * |x| = x; 1 (complex) for zero. *)
Theorem C36_sign : forall (C : numClosedFieldType) (x : C),
  let s := tSIGN x (tABS x) in
  s * s^* = 1 /\ s * tABS x = x /\
  (x \is Num.real -> tSIGNr x * tABS x = x /\ (tSIGNr x = 1 \/ tSIGNr x = -1)).
Proof.
  move=> C x /=; rewrite tABSE; case: (eqVneq x 0) => [->|hx].
    rewrite normr0 /tSIGN /tSIGNr ltxx rmorph1 !mulr0 mulr1; do !split=> //; by auto.
  rewrite -tABSE tSIGNE // tABSE -normCK normrM normfV normr_id divff ?normr_eq0 // expr1n divfK ?normr_eq0 //.
  do 2 split=> //; move=> hr; rewrite tSIGNrE // divfK ?normr_eq0 //; split=> //.
  by rewrite -tSIGNrE // /tSIGNr; case: ifP; auto.
Qed.
Print Assumptions C36_sign.

(** TMV_ABS2 (|re|+|im|) and TMV_MAXABS: zero exactly at zero, within constant factors
    of the modulus, unchanged by conjugation, triangle inequality. *)
Theorem C36_abs2 : forall (C : numClosedFieldType) (x y : C),
  [/\ (tABS2 x == 0) = (x == 0), `|x| <= tABS2 x <= 2%:R * `|x|, tABS2 x^* = tABS2 x
    & tABS2 (x + y) <= tABS2 x + tABS2 y].
Proof. by move=> C x y; split; rewrite ?tABS2_eq0 ?tABS2_bounds ?tABS2_conj ?tABS2_triangle. Qed.
Print Assumptions C36_abs2.
Theorem C36_maxabs : forall (C : numClosedFieldType) (x : C),
  [/\ (tMAXABS x == 0) = (x == 0), tMAXABS x <= `|x| & `|x| ^+ 2 <= 2%:R * tMAXABS x ^+ 2].
Proof. by move=> C x; split; rewrite ?tMAXABS_eq0 ?tMAXABS_le ?tMAXABS_ge. Qed.
Print Assumptions C36_maxabs.

(** The hypothesis of C36_divide in a closed field: 2 + 3i, whose imaginary part dominates. *)
Example C36_ex : let y : algC := 2%:R + 'i * 3%:R in y != 0 /\ 'Re y = 2%:R /\ 'Im y = 3%:R.
Proof.
  have h2 : (2%:R : algC) \is Num.real by apply: ger0_real; exact: ler0n.
  have h3 : (3%:R : algC) \is Num.real by apply: ger0_real; exact: ler0n.
  move=> y; have hr : 'Re y = 2%:R by rewrite /y Re_rect.
  have hi : 'Im y = 3%:R by rewrite /y Im_rect.
  by split=> //; apply/eqP => h; move: hr; rewrite h raddf0 => /eqP; rewrite eq_sym pnatr_eq0.
Qed.
