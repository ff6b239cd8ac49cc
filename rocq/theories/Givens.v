(** Givens rotations: src/TMV_Givens.cpp and include/tmv/TMV_Givens.h, exact
    arithmetic as in Cplx.v.  [eps] is TMV_Epsilon<T>(). *)
From Coq Require Import Ring Field.
From Verif Require Import Base RingTac Cplx.
From mathcomp Require Import all_ssreflect all_algebra.
Set Implicit Arguments. Unset Strict Implicit. Unset Printing Implicit Defensive.
Import GRing.Theory Num.Theory Order.Theory.
Local Open Scope ring_scope.

Section Givens.
Variable C : numClosedFieldType.
Add Field Cf : (mc_ft C).
Ltac mfield := mcnorm C; field.
Ltac mring := mcnorm C; ring.
Implicit Types x y z c s : C.

Record rotres := RotRes { r_c : C; r_s : C; r_x : C; r_y : C }.

(** GivensRotate, TMV_Givens.cpp:37-120: the rotation and the new x, y.  The real
    instance is the same function on real numbers (tSIGNr agrees with tSIGN there by
    Cplx.tSIGNrE, TMV_ABS with TMV_MAXABS by tMAXABS_real). *)
Definition grot (eps x y : C) : rotres :=
  let mx := tMAXABS x in
  let my := tMAXABS y in
  if my == 0 then RotRes 1 0 x 0
  else if mx == 0 then
    let absy := tABS y in
    RotRes 0 (tSIGN y^* absy) absy 0
  else if my < mx then
    if my <= sqrtC eps * mx then RotRes 1 (y^* / x^*) x 0
    else
      let yx := y / x in
      let n := tNORM yx in
      let f := sqrtC (1 + n) in
      let c := 1 / f in
      RotRes c (yx^* * c) (x + x * (n / (1 + f))) 0
  else
    let xy := x / y in
    let n := tNORM xy in
    let a := sqrtC n in
    if n <= eps then
      let s := tSIGN xy a in RotRes a s (s * y) 0
    else
      let f := sqrtC (1 + n) in
      let g := 1 / f in
      let sg := tSIGN xy a in
      RotRes (a * g) (sg * g) (y * sg * f) 0.

(** GivensMult on two scalars, 125-134. *)
Definition gmult c s (p : C * C) : C * C := (c * p.1 + s * p.2, c * p.2 - s^* * p.1).

(** Givens::transpose, conjugate, adjoint, TMV_Givens.h:165-172: (c,s) pairs. *)
Definition g_transpose (g : C * C) := (g.1, - g.2^*).
Definition g_conjugate (g : C * C) := (g.1, g.2^*).
Definition g_adjoint (g : C * C) := (g.1, - g.2).

(** GivensMult on two vectors, 156-200 and 331-352, without BLAS: the elements of the
    two views in memory, and whether each view is conjugated.  Both views are
    reversed together if at all (shouldReverse), which only changes the order of the
    loop over disjoint pairs.  The views are taken not to overlap. *)
Definition gvec c s (k1 k2 : bool) (n : nat) (v : (nat -> C) * (nat -> C)) : (nat -> C) * (nat -> C) :=
  if (0 < n)%N && (s != 0) then
    let s' := if k2 then s^* else s in
    (fun i => if (i < n)%N then (gmult c s' (v.1 i, v.2 i)).1 else v.1 i,
     fun i => if (i < n)%N then (gmult c s' (v.1 i, v.2 i)).2 else v.2 i)
  else v.

(** GivensHermMult, 357-379: (d0, d1, e0). *)
Definition ghmult c s (d : C * C * C) : C * C * C :=
  let: (d0, d1, e0) := d in
  let re := 'Re (s * e0) in
  let dm := d1 - d0 in
  let dd := 2%:R * c * re + (s * dm) * s^* in
  (d0 + dd, d1 - dd, e0 + s^* * (c * dm - 2%:R * re)).

(** GivensSymMult, 380-400; [isreal] is isReal(T()). *)
Definition gsmult (isreal : bool) c s (d : C * C * C) : C * C * C :=
  let: (d0, d1, e0) := d in
  let se := s * e0 in
  let dm := d1 - d0 in
  let dd := 2%:R * c * se + (s * dm) * s in
  (d0 + dd, d1 - dd,
   if isreal then e0 + s * (c * dm - 2%:R * se)
   else e0 + (c * (s * (d1 - dd) - s^* * (d0 + dd)) - 2%:R * s^* * se)).

(** ** Facts *)
Lemma cjM x y : (x * y)^* = x^* * y^*. Proof. exact: rmorphM. Qed.
Lemma cjV x : (x^-1)^* = (x^*)^-1. Proof. exact: fmorphV. Qed.
Lemma cjD x y : (x + y)^* = x^* + y^*. Proof. exact: rmorphD. Qed.
Lemma cjN x : (- x)^* = - x^*. Proof. exact: rmorphN. Qed.
Lemma sqrt1n_gt0 (n : C) : 0 <= n -> 0 < sqrtC (1 + n).
Proof. by move=> h; rewrite sqrtC_gt0 ltr_paddr ?ltr01. Qed.

Lemma grot_sound (eps : C) x y : 0 <= eps ->
  let r := grot eps x y in
  [/\ r_y r = 0, 0 <= r_c r, r_c r * y - (r_s r)^* * x = 0,
      1 <= r_c r ^+ 2 + `|r_s r| ^+ 2 <= 1 + 2%:R * eps
    & `|r_c r * x + r_s r * y - r_x r| <= 2%:R * eps * `|r_x r| ].
Proof.
  move=> he; have he2 : 0 <= 2%:R * eps by rewrite mulr_ge0 // ler0n.
  have he3 z : 0 <= 2%:R * eps * `|z| by rewrite mulr_ge0.
  rewrite /grot tMAXABS_eq0; case: (eqVneq y 0) => [->|hy] /=.
    split=> //; rewrite ?ler01 ?mul1r ?mulr0 ?rmorph0 ?mul0r ?subr0 ?addr0 ?subrr ?normr0 ?he3 //.
    by rewrite expr1n expr0n addr0 lexx ler_addl.
  rewrite tMAXABS_eq0; case: (eqVneq x 0) => [->|hx] /=.
    have hn : `|y| != 0 by rewrite normr_eq0.
    have E : tSIGN y^* (tABS y) = y^* / `|y|.
      by rewrite /tSIGN tABSE normr_gt0 hy tDIVrE ?normr_real ?normr_eq0.
    have h1 : `|tSIGN y^* (tABS y)| = 1 by rewrite E normrM normfV norm_conjC normr_id divff.
    split=> //; rewrite ?lexx ?mulr0 ?mul0r ?subr0 //.
      by rewrite h1 expr0n expr1n add0r lexx ler_addl.
    by rewrite E tABSE add0r mulrAC (mulrC y^*) -normCK expr2 mulfK // subrr normr0 mulr_ge0.
  have hxn : `|x| != 0 by rewrite normr_eq0.
  have hyn : `|y| != 0 by rewrite normr_eq0.
  have hcx : x^* != 0 by rewrite conjC_eq0.
  case: ifP => [hlt|_]; first case: ifP => [hs|_] /=.
  - (* |y| tiny *)
    have hn : `|y^* / x^*| ^+ 2 <= 2%:R * eps.
      rewrite normrM normfV !norm_conjC expr_div_n ler_pdivr_mulr ?exprn_gt0 ?normr_gt0 //.
      apply: le_trans (tMAXABS_ge y) _; rewrite -mulrA ler_pmul2l ?ltr0n //.
      have h2 : tMAXABS y ^+ 2 <= (sqrtC eps * tMAXABS x) ^+ 2.
        by apply: ler_expn2r => //; rewrite nnegrE ?mulr_ge0 ?tMAXABS_ge0 ?sqrtC_ge0.
      apply: le_trans h2 _; rewrite exprMn sqrtCK ler_wpmul2l //.
      by apply: ler_expn2r; rewrite ?nnegrE ?tMAXABS_ge0 ?tMAXABS_le.
    split=> //; rewrite ?ler01 //.
    + by rewrite mul1r cjM cjV !conjCK divfK // subrr.
    + by rewrite expr1n ler_addl exprn_ge0 //= ler_add2l.
    + rewrite mul1r addrAC subrr add0r.
      have -> : y^* / x^* * y = (`|y^* / x^*| ^+ 2) * x.
        rewrite normrM normfV !norm_conjC expr_div_n !normCK; mfield; repeat split; exact/eqP.
      by rewrite normrM ger0_norm ?exprn_ge0 // ler_wpmul2r.
  - (* |x| > |y| *)
    set n := tNORM _; have hn : n = y * y^* / (x * x^*).
      by rewrite /n tNORM_conj cjM cjV; mfield; repeat split; exact/eqP.
    have n0 : 0 <= n by rewrite /n tNORM_norm exprn_ge0.
    have f0 := sqrt1n_gt0 n0; have hf : sqrtC (1 + n) ^+ 2 = 1 + n by rewrite sqrtCK.
    set f := sqrtC (1 + n) in f0 hf *; have hf0 : f != 0 by rewrite gt_eqF.
    have hg : 0 <= 1 / f by apply: divr_ge0; [exact: ler01 | exact: ltW].
    have fr : f^* = f by apply: CrealP; apply: gtr0_real.
    have hc : (1 / f)^* = 1 / f by rewrite cjM cjV fr rmorph1.
    have h1f : 1 + f != 0 by rewrite gt_eqF // ltr_paddl ?ler01.
    have hnf : n / (1 + f) = f - 1.
      have -> : n = f ^+ 2 - 1 by rewrite hf addrAC subrr add0r.
      by mfield; exact/eqP.
    have one : (1 / f) ^+ 2 + `|(y / x)^* * (1 / f)| ^+ 2 = 1.
      rewrite normrM norm_conjC [(_ * `|_|) ^+ 2]exprMn -tNORM_norm -/n [`|1 / f|]ger0_norm; last exact: hg.
      rewrite expr_div_n expr1n hf -[X in X + _]mul1r -mulrDl mul1r divff // gt_eqF //.
      by rewrite ltr_paddr ?ltr01.
    split=> //.
    + by rewrite cjM hc conjCK; mfield; repeat split; exact/eqP.
    + by rewrite one lexx ler_addl.
    + rewrite hnf.
      have -> : 1 / f * x + (y / x)^* * (1 / f) * y - (x + x * (f - 1)) = 0; last first.
        by rewrite normr0 mulr_ge0.
      have -> : (y / x)^* = n * x / y by rewrite hn cjM cjV; mfield; repeat split; exact/eqP.
      have -> : n = f ^+ 2 - 1 by rewrite hf addrAC subrr add0r.
      mfield; repeat split; exact/eqP.
  - (* |x| <= |y| *)
    set n := tNORM _; have n0 : 0 <= n by rewrite /n tNORM_norm exprn_ge0.
    have hz : x / y != 0 by rewrite mulf_neq0 // invr_eq0.
    have ha : sqrtC n = `|x / y| by rewrite /n tNORM_norm sqrCK.
    have hS : tSIGN (x / y) (sqrtC n) = (x / y) / `|x / y| by rewrite ha -tABSE tSIGNE // tABSE.
    rewrite hS ha; set z := x / y in hz n n0 ha hS *.
    have nE : n = `|z| ^+ 2 by rewrite /n tNORM_norm.
    have hzn : `|z| != 0 by rewrite normr_eq0.
    have hx1 : x = z * y by rewrite /z divfK.
    have hcz : z^* = `|z| ^+ 2 / z by rewrite normCK mulrAC divff // mul1r.
    have hcn : `|z|^* = `|z| by apply: CrealP; exact: normr_real.
    have hsn : `|z / `|z| | = 1 by rewrite normrM normfV normr_id divff.
    case: ifP => [hs|_] /=.
    + split=> //.
      * by rewrite cjM cjV hcn hcz hx1; mfield; repeat split; exact/eqP.
      * rewrite hsn expr1n -nE; apply/andP; split; first by rewrite ler_addr.
        rewrite addrC ler_add2l; apply: le_trans hs _.
        by rewrite mulr_natl mulr2n ler_addl.
      * have -> : `|z| * x + z / `|z| * y - z / `|z| * y = (`|z| ^+ 2) * (z / `|z| * y).
          by rewrite hx1; mfield; repeat split; exact/eqP.
        rewrite normrM -nE ger0_norm // ler_wpmul2r //; apply: le_trans hs _.
        by rewrite mulr_natl mulr2n ler_addl.
    + have f0 := sqrt1n_gt0 n0; have hf : sqrtC (1 + n) ^+ 2 = 1 + n by rewrite sqrtCK.
      set f := sqrtC (1 + n) in f0 hf *; have hf0 : f != 0 by rewrite gt_eqF.
    have hg : 0 <= 1 / f by apply: divr_ge0; [exact: ler01 | exact: ltW].
      have fr : f^* = f by apply: CrealP; apply: gtr0_real.
      have hc : (1 / f)^* = 1 / f by rewrite cjM cjV fr rmorph1.
      have one : (`|z| * (1 / f)) ^+ 2 + `|z / `|z| * (1 / f)| ^+ 2 = 1.
        rewrite [`|z / `|z| * _|]normrM hsn [`|1 / f|]ger0_norm; last exact: hg.
        rewrite [X in _ + X ^+ 2]mul1r exprMn -nE.
        have -> : (1 / f) ^+ 2 = (1 + n)^-1 by rewrite expr_div_n expr1n hf mul1r.
        by rewrite -[X in _ + X]mul1r -mulrDl addrC divff // gt_eqF // ltr_paddr ?ltr01.
      split=> //.
      * by rewrite mulr_ge0.
      * by rewrite [(_ * (1 / f))^*]cjM hc [(z / _)^*]cjM cjV hcn hcz hx1; mfield; repeat split; exact/eqP.
      * by rewrite one lexx ler_addl.
      * have -> : `|z| * (1 / f) * x + z / `|z| * (1 / f) * y - y * (z / `|z|) * f = 0; last first.
          by rewrite normr0 mulr_ge0.
        have -> : y * (z / `|z|) * f = y * (z / `|z|) * (f ^+ 2) / f by mfield; repeat split; exact/eqP.
        rewrite hf nE hx1; mfield; repeat split; exact/eqP.
Qed.

(** Polynomial identities modulo c^2 = 1 - s*t (t the conjugate of s). *)
Lemma byc2 (c s t l r k : C) : c ^+ 2 = 1 - s * t -> l - r = k * (c ^+ 2 - (1 - s * t)) -> l = r.
Proof. by move=> ->; rewrite subrr mulr0 => /eqP; rewrite subr_eq0 => /eqP. Qed.
End Givens.
