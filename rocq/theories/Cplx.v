(** The scalar helpers of include/tmv/TMV_Base.h and TMV_Givens.h, exact arithmetic.
    C is any algebraically closed field with a conjugation (numClosedFieldType); the
    complex types range over C and the real types over its real elements.  Overflow,
    underflow and rounding are not modelled. *)
From Coq Require Import Ring Field.
From Verif Require Import Base RingTac.
From mathcomp Require Import all_ssreflect all_algebra.
Set Implicit Arguments. Unset Strict Implicit. Unset Printing Implicit Defensive.
Import GRing.Theory Num.Theory Order.Theory.
Local Open Scope ring_scope.

Section Cplx.
Variable C : numClosedFieldType.
Add Field Cf : (mc_ft C).
Ltac mfield := mcnorm C; field.
Ltac mring := mcnorm C; ring.
Implicit Types x y z : C.

(** TMV_MAX, TMV_Base.h:340-342 (and std::max). *)
Definition tMAX x y : C := if y < x then x else y.
(** TMV_NORM, 270-275. *)
Definition tNORM x : C := 'Re x ^+ 2 + 'Im x ^+ 2.
(** TMV_ABS for complex, 314-327. *)
Definition tABS x : C :=
  let s := tMAX `|'Re x| `|'Im x| in
  if s == 0 then s else s * sqrtC (('Re x / s) * ('Re x / s) + ('Im x / s) * ('Im x / s)).
(** TMV_ABS2, 330-335. *)
Definition tABS2 x : C := `|'Re x| + `|'Im x|.
(** TMV_Divide(complex,real), 710-716. *)
Definition tDIVr x y : C := 'Re x / y + 'i * ('Im x / y).
(** TMV_InverseOf(complex), 723-744.  In the last case the program divides by zero. *)
Definition tINV x : C :=
  let xr := 'Re x in let xi := 'Im x in
  if `|xi| < `|xr| then
    let xi := xi / xr in let denom := xr * (1 + xi * xi) in
    1 / denom + 'i * (- xi / denom)
  else if 0 < `|xi| then
    let xr := xr / xi in let denom := xi * (1 + xr * xr) in
    xr / denom + 'i * (- 1 / denom)
  else 1 / xi.
(** TMV_Divide(complex,complex) and (real,complex), 748-753. *)
Definition tDIV x y : C := x * tINV y.
(** TMV_SIGN for real and for complex types, 756-761. *)
Definition tSIGNr x : C := if 0 < x then 1 else -1.
Definition tSIGN x (absx : C) : C := if 0 < absx then tDIVr x absx else 1.
(** TMV_MAXABS, TMV_Givens.h:110-117. *)
Definition tMAXABS x : C := tMAX `|'Re x| `|'Im x|.

(** ** Facts *)
Lemma tNORM_norm x : tNORM x = `|x| ^+ 2.
Proof. by rewrite /tNORM normC2_Re_Im. Qed.
Lemma tNORM_conj x : tNORM x = x * x^*.
Proof. by rewrite tNORM_norm normCK. Qed.

Lemma realRe x : 'Re x \is Num.real. Proof. exact: Creal_Re. Qed.
Lemma realIm x : 'Im x \is Num.real. Proof. exact: Creal_Im. Qed.
Hint Resolve realRe realIm normr_real : core.

Lemma tMAX_case x y : x \is Num.real -> y \is Num.real ->
  [/\ x <= tMAX x y, y <= tMAX x y & tMAX x y = x \/ tMAX x y = y].
Proof.
  move=> hx hy; rewrite /tMAX; case: (real_leP hx hy) => h; split; auto; exact: ltW.
Qed.

Lemma Re0Im0 x : 'Re x = 0 -> 'Im x = 0 -> x = 0.
Proof. by move=> h1 h2; rewrite [x]Crect h1 h2 mulr0 addr0. Qed.

Lemma tMAXABS_ge0 x : 0 <= tMAXABS x.
Proof. by have [h _ _] := tMAX_case (normr_real ('Re x)) (normr_real ('Im x)); apply: le_trans h. Qed.

Lemma tMAXABS_eq0 x : (tMAXABS x == 0) = (x == 0).
Proof.
  have [h1 h2 h3] := tMAX_case (normr_real ('Re x)) (normr_real ('Im x)).
  rewrite -/(tMAXABS x) in h1 h2 h3 *.
  apply/eqP/eqP => [E|->]; last by rewrite /tMAXABS !raddf0 normr0 /tMAX ltxx.
  rewrite E in h1 h2; rewrite normr_le0 in h1; rewrite normr_le0 in h2.
  by apply: Re0Im0; apply/eqP.
Qed.

Lemma tABSE x : tABS x = `|x|.
Proof.
  rewrite /tABS -/(tMAXABS x); case: eqP => [/eqP h|/eqP h].
    by rewrite (eqP h); move: h; rewrite tMAXABS_eq0 => /eqP ->; rewrite normr0.
  have hs := tMAXABS_ge0 x; set s := tMAXABS x in h hs *.
  have -> : 'Re x / s * ('Re x / s) + 'Im x / s * ('Im x / s) = (`|x| / s) ^+ 2.
    rewrite expr_div_n normC2_Re_Im; mfield; exact/eqP.
  rewrite sqrCK ?divr_ge0 //; mfield; exact/eqP.
Qed.

Lemma tDIVrE x y : y \is Num.real -> y != 0 -> tDIVr x y = x / y.
Proof. by move=> hy h; rewrite /tDIVr {3}[x]Crect; mfield; exact/eqP. Qed.

Lemma sum_sq_neq0 x y : x \is Num.real -> y \is Num.real -> x != 0 -> x * x + y * y != 0.
Proof.
  move=> hx hy h; rewrite gt_eqF // ltr_paddr //; first by rewrite -expr2 real_exprn_even_ge0.
  by rewrite -expr2 real_exprn_even_gt0.
Qed.

Lemma tINVE x : x != 0 -> tINV x = x^-1.
Proof.
  move=> hx; have hI : 'i * 'i = -1 :> C by rewrite -expr2 sqrCi.
  rewrite /tINV; case: ifP => [h1|h1].
    have hr : 'Re x != 0 by rewrite -normr_gt0; apply: le_lt_trans h1.
    have hn := sum_sq_neq0 (realRe x) (realIm x) hr.
    have hd : 'Re x * (1 + 'Im x / 'Re x * ('Im x / 'Re x)) = ('Re x * 'Re x + 'Im x * 'Im x) / 'Re x.
      by mfield; exact/eqP.
    rewrite hd; apply: (mulfI hx); rewrite divff // {1}[x]Crect.
    have -> : forall a b i : C, a != 0 -> a * a + b * b != 0 ->
       (a + i * b) * (1 / ((a * a + b * b) / a) + i * (- (b / a) / ((a * a + b * b) / a))) =
       (a * a - i * i * (b * b)) / (a * a + b * b).
      by move=> a b i h2 h3; mfield; split; exact/eqP.
    - by rewrite hI mulN1r opprK divff.
    - exact: hr.
    - exact: hn.
  case: ifP => [h2|h2].
    have hi : 'Im x != 0 by rewrite -normr_gt0.
    have hn := sum_sq_neq0 (realIm x) (realRe x) hi.
    have hd : 'Im x * (1 + 'Re x / 'Im x * ('Re x / 'Im x)) = ('Im x * 'Im x + 'Re x * 'Re x) / 'Im x.
      by mfield; exact/eqP.
    rewrite hd; apply: (mulfI hx); rewrite divff // {1}[x]Crect.
    have -> : forall a b i : C, b != 0 -> b * b + a * a != 0 ->
       (a + i * b) * (a / b / ((b * b + a * a) / b) + i * (- 1 / ((b * b + a * a) / b))) =
       (a * a - i * i * (b * b)) / (b * b + a * a).
      by move=> a b i h3 h4; mfield; split; exact/eqP.
    - by rewrite hI mulN1r opprK addrC divff.
    - exact: hi.
    - exact: hn.
  move: hx; have -> : x = 0; last by rewrite eqxx.
  have hi : 'Im x = 0 by apply/eqP; rewrite -normr_le0; move: h2; rewrite normr_gt0 normr_le0 => /negbFE.
  apply: Re0Im0 => //; apply/eqP; rewrite -normr_le0; move: h1; rewrite hi normr0 normr_gt0 normr_le0.
  by move/negbFE.
Qed.

Lemma tSIGNE x : x != 0 -> tSIGN x (tABS x) = x / `|x|.
Proof. by move=> h; rewrite /tSIGN tABSE normr_gt0 h tDIVrE ?normr_eq0 // normr_real. Qed.
Lemma tSIGNrE x : x \is Num.real -> x != 0 -> tSIGNr x = x / `|x|.
Proof.
  move=> hr h; rewrite /tSIGNr; case: ifP => h1; first by rewrite gtr0_norm // divff.
  have h2 : x < 0 by rewrite real_ltNge // ?real0 // le_eqVlt eq_sym (negbTE h) h1.
  by rewrite ltr0_norm // invrN mulrN divff.
Qed.

Lemma tABS2_eq0 x : (tABS2 x == 0) = (x == 0).
Proof.
  rewrite /tABS2 paddr_eq0 // !normr_eq0; apply/andP/eqP => [[/eqP h1 /eqP h2]|->].
    exact: Re0Im0.
  by rewrite !raddf0 eqxx.
Qed.
Lemma norm_Re_le x : `|'Re x| <= `|x|.
Proof.
  rewrite -(ler_pexpn2r (n := 2)) ?nnegrE // real_normK // normC2_Re_Im.
  by rewrite ler_addl real_exprn_even_ge0.
Qed.
Lemma norm_Im_le x : `|'Im x| <= `|x|.
Proof.
  rewrite -(ler_pexpn2r (n := 2)) ?nnegrE // real_normK // normC2_Re_Im.
  by rewrite ler_addr real_exprn_even_ge0.
Qed.
Lemma tABS2_bounds x : `|x| <= tABS2 x <= 2%:R * `|x|.
Proof.
  rewrite /tABS2 {1}[x]Crect; apply/andP; split.
    apply: le_trans (ler_norm_add _ _) _; by rewrite normrM normCi mul1r.
  by rewrite mulr_natl mulr2n ler_add // ?norm_Re_le ?norm_Im_le.
Qed.
Lemma tABS2_triangle x y : tABS2 (x + y) <= tABS2 x + tABS2 y.
Proof.
  rewrite /tABS2 !raddfD /= addrACA; apply: ler_add; exact: ler_norm_add.
Qed.
Lemma tABS2_conj x : tABS2 x^* = tABS2 x.
Proof. by rewrite /tABS2 Re_conj Im_conj normrN. Qed.
Lemma tMAXABS_le x : tMAXABS x <= `|x|.
Proof. by rewrite /tMAXABS; have [_ _ [->|->]] := tMAX_case (normr_real ('Re x)) (normr_real ('Im x)); rewrite ?norm_Re_le ?norm_Im_le. Qed.
Lemma tMAXABS_ge x : `|x| ^+ 2 <= 2%:R * tMAXABS x ^+ 2.
Proof.
  have [h1 h2 _] := tMAX_case (normr_real ('Re x)) (normr_real ('Im x)); rewrite -/(tMAXABS x) in h1 h2.
  rewrite normC2_Re_Im mulr_natl mulr2n -(real_normK (realRe x)) -(real_normK (realIm x)).
  by apply: ler_add; apply: ler_expn2r => //; rewrite nnegrE // tMAXABS_ge0.
Qed.
Lemma tMAXABS_real x : x \is Num.real -> tMAXABS x = `|x|.
Proof.
  move=> h; rewrite /tMAXABS (Creal_ReP _ h) (Creal_ImP _ h) normr0 /tMAX.
  by case: ifP => // /negbT; rewrite normr_gt0 negbK => /eqP ->; rewrite normr0.
Qed.
End Cplx.
