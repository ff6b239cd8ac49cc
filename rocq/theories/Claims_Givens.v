(** C32: Givens rotations. *)
From Coq Require Import Ring Field.
From Verif Require Import Base RingTac Cplx Givens.
From mathcomp Require Import all_ssreflect all_algebra all_field.
Set Implicit Arguments. Unset Strict Implicit. Unset Printing Implicit Defensive.
Import GRing.Theory Num.Theory Order.Theory.
Local Open Scope ring_scope.

(** The 2 x 2 matrix with the given elements, and the matrix a Givens object (c,s)
    stands for (TMV_Givens.h:24-28). *)
Definition mx2 (F : ringType) (a b c d : F) : 'M[F]_2 :=
  \matrix_(i, j) if i == 0 then (if j == 0 then a else b) else (if j == 0 then c else d).
Definition gmx (C : numClosedFieldType) (g : C * C) : 'M[C]_2 := mx2 g.1 g.2 (- g.2^*) g.1.
Definition is_rotation (C : numClosedFieldType) (g : C * C) : Prop :=
  g.1 \is Num.real /\ g.1 ^+ 2 + `|g.2| ^+ 2 = 1.
Definition rot (C : numClosedFieldType) (r : rotres C) : C * C := (r_c r, r_s r).

Lemma mx2E (F : ringType) (a b c d a' b' c' d' : F) :
  a = a' -> b = b' -> c = c' -> d = d' -> mx2 a b c d = mx2 a' b' c' d'.
Proof. by move=> -> -> -> ->. Qed.
Lemma mx2M (F : ringType) (a b c d a' b' c' d' : F) :
  mx2 a b c d *m mx2 a' b' c' d' = mx2 (a * a' + b * c') (a * b' + b * d') (c * a' + d * c') (c * b' + d * d').
Proof.
  apply/matrixP => i j; rewrite !mxE big_ord_recl big_ord1 !mxE /=.
  by case: i => [[|[|?]] //= ?]; case: j => [[|[|?]] //= ?].
Qed.
Lemma mx2T (F : ringType) (a b c d : F) : (mx2 a b c d)^T = mx2 a c b d.
Proof. by apply/matrixP => i j; rewrite !mxE; case: i => [[|[|?]] //= ?]; case: j => [[|[|?]] //= ?]. Qed.

Section Poly.
Variable C : numClosedFieldType.
Add Field Cf : (mc_ft C).
Ltac mring := mcnorm C; ring.
Lemma p_C32_undo : forall (g p : C * C), is_rotation g ->
  gmult (g_adjoint g).1 (g_adjoint g).2 (gmult g.1 g.2 p) = p /\
  `|(gmult g.1 g.2 p).1| ^+ 2 + `|(gmult g.1 g.2 p).2| ^+ 2 = `|p.1| ^+ 2 + `|p.2| ^+ 2.
Proof.
  move=> [c s] [x y] [] /= hc h1; have hcc : c^* = c := CrealP hc.
  rewrite normCK in h1; have hc2 : c ^+ 2 = 1 - s * s^* by rewrite -h1 addrK.
  rewrite /gmult /= cjN; split.
    congr (_, _).
      by apply: (byc2 (k := x) hc2); mring.
    by apply: (byc2 (k := y) hc2); mring.
  rewrite !normCK !cjD !cjN !cjM hcc conjCK.
  by apply: (byc2 (k := x * x^* + y * y^*) hc2); mring.
Qed.
Lemma p_C32_herm : forall (c s d0 d1 e0 : C), is_rotation (c, s) ->
  d0 \is Num.real -> d1 \is Num.real ->
  let: (d0', d1', e0') := ghmult c s (d0, d1, e0) in
  gmx (c, s) *m mx2 d0 e0^* e0 d1 *m map_mx conjC (gmx (c, s))^T = mx2 d0' e0'^* e0' d1'.
Proof.
  move=> c s d0 d1 e0 [/= /CrealP hc h1] /CrealP h2 /CrealP h3.
  rewrite normCK in h1; have hc2 : c ^+ 2 = 1 - s * s^* by rewrite -h1 addrK.
  have -> : map_mx conjC (gmx (c, s))^T = mx2 c (- s) s^* c.
    apply/matrixP => i j; rewrite !mxE /=.
    by case: i => [[|[|?]] //= ?]; case: j => [[|[|?]] //= ?]; rewrite ?cjN ?conjCK ?hc.
  have hre : 2%:R * 'Re (s * e0) = s * e0 + s^* * e0^* by rewrite ReE mulrC divfK ?pnatr_eq0 // cjM.
  have E1 : 2%:R * c * 'Re (s * e0) = c * (s * e0 + s^* * e0^*) by rewrite -hre mulrCA mulrA.
  rewrite !mx2M E1 hre; apply: mx2E => /=.
  - by apply: (byc2 (k := d0) hc2); mring. 
  - rewrite !(cjD, cjN, cjM) !conjCK hc h2 h3; by apply: (byc2 (k := e0^*) hc2); mring.
  - by apply: (byc2 (k := e0) hc2); mring.
  - by apply: (byc2 (k := d1) hc2); mring.
Qed.
Lemma p_C32_sym_partial : forall (c s d0 d1 e0 : C) (isreal : bool), is_rotation (c, s) ->
  s \is Num.real -> isreal = true ->
  let: (d0', d1', e0') := gsmult isreal c s (d0, d1, e0) in
  gmx (c, s) *m mx2 d0 e0 e0 d1 *m (gmx (c, s))^T = mx2 d0' e0' e0' d1'.
Proof.
  move=> c s d0 d1 e0 _ [/= /CrealP hc h1] /CrealP h2 ->.
  rewrite normCK h2 in h1; have hc2 : c ^+ 2 = 1 - s * s by rewrite -h1 addrK.
  rewrite /gmx /= mx2T !mx2M h2; apply: mx2E.
  - by apply: (byc2 (k := d0) hc2); mring. 
  - by apply: (byc2 (k := e0) hc2); mring.
  - by apply: (byc2 (k := e0) hc2); mring.
  - by apply: (byc2 (k := d1) hc2); mring.
Qed.
End Poly.

(** GivensRotate(x,y), for all x and y: y becomes 0, the rotation maps the old
    (x,y) to (x',0) and |c|^2+|s|^2 = 1, when the tolerance of the shortcuts is 0. *)
Theorem C32_rotate_exact : forall (C : numClosedFieldType) (x y : C),
  let r := grot 0 x y in
  is_rotation (rot r) /\ r_y r = 0 /\ gmult (r_c r) (r_s r) (x, y) = (r_x r, r_y r).
Proof.
  move=> C x y r; have [] := grot_sound x y (lexx (0 : C)); rewrite -/r => -> hc h2 h3 h4.
  rewrite mulr0 addr0 -eq_le in h3; rewrite mulr0 mul0r normr_le0 subr_eq0 in h4.
  do 2 split=> //=; last by rewrite /gmult /= h2 (eqP h4).
    exact: ger0_real.
  by rewrite -(eqP h3).
Qed.
Print Assumptions C32_rotate_exact.

(** With the library's tolerance (eps = machine epsilon in the code): y becomes 0,
    the second component of the rotated vector is exactly 0, and the defect of
    |c|^2+|s|^2 and of x' are at most 2 eps. *)
Theorem C32_rotate : forall (C : numClosedFieldType) (eps x y : C), 0 <= eps ->
  let r := grot eps x y in
  [/\ r_y r = 0 /\ 0 <= r_c r,
      (gmult (r_c r) (r_s r) (x, y)).2 = 0,
      1 <= r_c r ^+ 2 + `|r_s r| ^+ 2 <= 1 + 2%:R * eps
    & `|(gmult (r_c r) (r_s r) (x, y)).1 - r_x r| <= 2%:R * eps * `|r_x r| ].
Proof. by move=> C eps x y he r; have [] := grot_sound x y he. Qed.
Print Assumptions C32_rotate.

(** The shortcut for a small y does leave the unit circle: for every tolerance eps
    between 0 and 1, some pair gives |c|^2+|s|^2 = 1 + eps. *)
Theorem C32_unit_refuted : forall (C : numClosedFieldType) (eps : C), 0 < eps < 1 ->
  exists x y, r_c (grot eps x y) ^+ 2 + `|r_s (grot eps x y)| ^+ 2 = 1 + eps.
Proof.
  move=> C eps /andP [h0 h1]; exists 1, (sqrtC eps).
  have hs : 0 < sqrtC eps by rewrite sqrtC_gt0.
  have hr : sqrtC eps \is Num.real by exact: gtr0_real.
  have E1 : tMAXABS (1 : C) = 1 by rewrite tMAXABS_real ?real1 // normr1.
  have E2 : tMAXABS (sqrtC eps) = sqrtC eps by rewrite tMAXABS_real // gtr0_norm.
  rewrite /grot E1 E2 gt_eqF // oner_eq0 /=.
  have -> : sqrtC eps < 1 by rewrite -(sqrtC1 C) ltr_sqrtC ?nnegrE ?ler01 ?ltW.
  by rewrite mulr1 lexx /= expr1n rmorph1 divr1 norm_conjC gtr0_norm // sqrtCK.
Qed.
Print Assumptions C32_unit_refuted.

(** A real pair stays real. *)
Theorem C32_rotate_real : forall (C : numClosedFieldType) (eps x y : C), 0 <= eps ->
  x \is Num.real -> y \is Num.real ->
  let r := grot eps x y in r_c r \is Num.real /\ r_s r \is Num.real /\ r_x r \is Num.real.
Proof.
  move=> C eps x y he hx hy r.
  have nr (z : C) : tNORM z \is Num.real by rewrite tNORM_norm rpredX // normr_real.
  have n0 (z : C) : 0 <= tNORM z by rewrite tNORM_norm exprn_ge0.
  have sr (z : C) : 0 <= z -> sqrtC z \is Num.real by move=> h; apply: ger0_real; rewrite sqrtC_ge0.
  have sg (z a : C) : z \is Num.real -> a \is Num.real -> tSIGN z a \is Num.real.
    move=> hz ha; rewrite /tSIGN; case: ifP => h; last exact: real1.
    by rewrite tDIVrE // ?gt_eqF // rpred_div.
  have hcj (z : C) : z \is Num.real -> z^* = z by move=> h; exact: CrealP.
  have f1 (z : C) : sqrtC (1 + tNORM z) \is Num.real by apply: sr; rewrite addr_ge0 ?ler01 ?n0.
  have g1 (z : C) : 1 / sqrtC (1 + tNORM z) \is Num.real by rewrite rpred_div ?real1.
  rewrite /r /grot tABSE; case: ifP => _ /=; first by rewrite real1 real0.
  case: ifP => _ /=; first by rewrite real0 normr_real (hcj y) // sg // normr_real.
  have yx : y / x \is Num.real by rewrite rpred_div.
  have xy : x / y \is Num.real by rewrite rpred_div.
  case: ifP => _; case: ifP => _ /=; rewrite ?(hcj x) ?(hcj y) ?(hcj (y / x)) //.
  - by rewrite real1 rpred_div.
  - do 2?split; [exact: g1 | by rewrite rpredM // g1 |].
    by rewrite rpredD // rpredM // rpred_div // rpredD // real1.
  - do 2?split; [exact: sr | by rewrite sg // sr | by rewrite rpredM // sg // sr].
  - have sx : tSIGN (x / y) (sqrtC (tNORM (x / y))) \is Num.real by rewrite sg // sr.
    do 2?split; [by rewrite rpredM ?sr ?g1 | by rewrite rpredM ?g1 | by rewrite rpredM // rpredM].
Qed.
Print Assumptions C32_rotate_real.

(** Applying a rotation and then its adjoint restores every pair, and lengths are kept. *)
Theorem C32_undo : forall (C : numClosedFieldType) (g p : C * C), is_rotation g ->
  gmult (g_adjoint g).1 (g_adjoint g).2 (gmult g.1 g.2 p) = p /\
  `|(gmult g.1 g.2 p).1| ^+ 2 + `|(gmult g.1 g.2 p).2| ^+ 2 = `|p.1| ^+ 2 + `|p.2| ^+ 2.
Proof. exact: p_C32_undo. Qed.
Print Assumptions C32_undo.

(** GivensMult on scalars is multiplication by the matrix; transpose, conjugate and
    adjoint of the object are those of the matrix. *)
Theorem C32_matrix : forall (C : numClosedFieldType) (g p : C * C), g.1 \is Num.real ->
  [/\ gmx g *m (\col_i if i == 0 then p.1 else p.2) =
        \col_i (if i == 0 then (gmult g.1 g.2 p).1 else (gmult g.1 g.2 p).2),
      gmx (g_transpose g) = (gmx g)^T,
      gmx (g_conjugate g) = map_mx conjC (gmx g)
    & gmx (g_adjoint g) = map_mx conjC (gmx g)^T].
Proof.
  move=> C [c s] [x y] /= /CrealP hc; split.
  - apply/colP => i; rewrite !mxE big_ord_recl big_ord1 !mxE /=.
    by case: i => [[|[|?]] //= ?]; rewrite mulNr addrC.
  - by rewrite mx2T; apply: mx2E => //=; rewrite cjN conjCK opprK.
  - apply/matrixP => i j; rewrite !mxE /= -[c in RHS]hc.
    by case: i => [[|[|?]] //= ?]; case: j => [[|[|?]] //= ?]; rewrite ?cjN ?conjCK ?hc.
  - apply/matrixP => i j; rewrite !mxE /=.
    by case: i => [[|[|?]] //= ?]; case: j => [[|[|?]] //= ?]; rewrite ?cjN ?conjCK ?hc ?opprK.
Qed.
Print Assumptions C32_matrix.

(** The value an element of a view stands for. *)
Definition vval (C : numClosedFieldType) (k : bool) (v : nat -> C) (i : nat) : C := if k then (v i)^* else v i.

(** GivensMult on two vectors both conjugated or both not: every pair of elements is
    rotated, the rest of memory is kept. *)
Theorem C32_vector_partial : forall (C : numClosedFieldType) (c s : C) (k : bool) (n : nat) (v1 v2 : nat -> C),
  is_rotation (c, s) -> (s = 0 -> c = 1) ->
  let w := gvec c s k k n (v1, v2) in
  (forall i, (i < n)%N ->
     (vval k w.1 i, vval k w.2 i) = gmult c s (vval k v1 i, vval k v2 i)) /\
  forall i, (n <= i)%N -> w.1 i = v1 i /\ w.2 i = v2 i.
Proof.
  move=> C c s k n v1 v2 [hc0 _] h0 w; have hc : c^* = c := CrealP hc0; split=> i hi; last first.
    by rewrite /w /gvec; case: ifP => _ //=; rewrite ltnNge hi.
  rewrite /w /gvec (leq_ltn_trans (leq0n i) hi) /vval; case: eqP => [E|E] /=.
    by rewrite E h0 // /gmult /= rmorph0 !mul0r !mul1r subr0 addr0.
  rewrite hi; case: (k) => //=.
  by rewrite /gmult /= !cjD cjN !cjM hc !conjCK.
Qed.
Print Assumptions C32_vector_partial.

(** If only one of the two views is conjugated, the result is wrong; and a rotation by
    180 degrees (c = -1, s = 0) is not applied at all. *)
Theorem C32_vector_conj_refuted : forall C : numClosedFieldType,
  exists (c s : C) (v1 v2 : nat -> C), is_rotation (c, s) /\
    let w := gvec c s true false 1 (v1, v2) in
    (vval true w.1 0, vval false w.2 0) <> gmult c s (vval true v1 0, vval false v2 0).
Proof.
  move=> C; exists 0, 1, (fun _ => 0), (fun _ => 'i); split.
    by split=> /=; rewrite ?real0 // normr1 expr0n expr1n add0r.
  rewrite /gvec /vval oner_neq0 /gmult /= rmorph1 rmorph0 !mul0r !mul1r !add0r oppr0 conjCi => -[/eqP].
  by rewrite eq_sym -addr_eq0 -mulr2n -mulr_natl mulf_eq0 pnatr_eq0 /= (negbTE (neq0Ci C)).
Qed.
Print Assumptions C32_vector_conj_refuted.
Theorem C32_vector_half_turn_refuted : forall C : numClosedFieldType,
  exists (c s : C) (v1 v2 : nat -> C), is_rotation (c, s) /\
    let w := gvec c s false false 1 (v1, v2) in
    (vval false w.1 0, vval false w.2 0) <> gmult c s (vval false v1 0, vval false v2 0).
Proof.
  move=> C; exists (-1), 0, (fun _ => 1), (fun _ => 1); split.
    by split=> /=; rewrite ?rpredN ?real1 // normr0 sqrrN expr0n expr1n addr0.
  rewrite /gvec /vval eqxx /gmult /= mul0r !mulr1 addr0 => -[/eqP + _].
  by rewrite -addr_eq0 -mulr2n pnatr_eq0.
Qed.
Print Assumptions C32_vector_half_turn_refuted.

(** GivensHermMult: G * H * G^dagger for a hermitian 2 x 2 matrix H. *)
Theorem C32_herm : forall (C : numClosedFieldType) (c s d0 d1 e0 : C), is_rotation (c, s) ->
  d0 \is Num.real -> d1 \is Num.real ->
  let: (d0', d1', e0') := ghmult c s (d0, d1, e0) in
  gmx (c, s) *m mx2 d0 e0^* e0 d1 *m map_mx conjC (gmx (c, s))^T = mx2 d0' e0'^* e0' d1'.
Proof. exact: p_C32_herm. Qed.
Print Assumptions C32_herm.

(** GivensSymMult: G * S * G^T for a symmetric matrix, for real rotations ... *)
Theorem C32_sym_partial : forall (C : numClosedFieldType) (c s d0 d1 e0 : C) (isreal : bool), is_rotation (c, s) ->
  s \is Num.real -> isreal = true ->
  let: (d0', d1', e0') := gsmult isreal c s (d0, d1, e0) in
  gmx (c, s) *m mx2 d0 e0 e0 d1 *m (gmx (c, s))^T = mx2 d0' e0' e0' d1'.
Proof. exact: p_C32_sym_partial. Qed.
Print Assumptions C32_sym_partial.

(** ... but not for complex ones. *)
Theorem C32_sym_refuted : forall C : numClosedFieldType,
  exists c s d0 d1 e0 : C, is_rotation (c, s) /\
    let: (d0', d1', e0') := gsmult false c s (d0, d1, e0) in
    (gmx (c, s) *m mx2 d0 e0 e0 d1 *m (gmx (c, s))^T) 0 0 <> d0'.
Proof.
  move=> C; exists 0, 'i, 1, 0, 0; split.
    by split=> /=; rewrite ?real0 // normCi expr0n expr1n add0r.
  rewrite /gmx /= mx2T !mx2M mxE /= !(mulr0, mul0r, addr0, add0r, sub0r, mulrN, mulNr, mulr1) -expr2 sqrCi opprK => /eqP.
  by rewrite eq_sym -mulr2n pnatr_eq0.
Qed.
Print Assumptions C32_sym_refuted.

(** Rotations with c and s different from 0: (3/5, 4/5) and (3/5, 4i/5). *)
Example C32_ex : is_rotation (3%:R / 5%:R : algC, 4%:R / 5%:R) /\ is_rotation (3%:R / 5%:R : algC, 'i * (4%:R / 5%:R)).
Proof.
  have h (n : nat) : (n%:R / 5%:R : algC) \is Num.real by rewrite rpred_div // ger0_real // ler0n.
  have e : (3%:R / 5%:R : algC) ^+ 2 + (4%:R / 5%:R) ^+ 2 = 1.
    by rewrite !expr_div_n -mulrDl -!natrX -natrD divff // pnatr_eq0.
  have hn : `|4%:R / 5%:R : algC| = 4%:R / 5%:R by rewrite ger0_norm // divr_ge0 // ler0n.
  by do 2 split=> //=; rewrite ?normrM ?normCi ?mul1r -?normrM hn.
Qed.
