(** C33: LDL (Bunch-Kaufman) decomposition of symmetric and hermitian matrices. *)
From mathcomp Require Import all_ssreflect all_fingroup all_algebra all_field zify.
From Verif Require Import Base FMat TriSolve RowPerm LU LUProofs LUDiv Cplx LDL LDLProofs.
Set Implicit Arguments. Unset Strict Implicit. Unset Printing Implicit Defensive.
Import GRing.Theory Num.Theory Order.Theory.
Local Open Scope ring_scope.

(** The block diagonal factor as getD() gives it: the diagonal of the view, xD below it and
    its transpose or adjoint above it. *)
Definition blockdiag (C : numClosedFieldType) (herm : bool) (V : fm C) (xD : fv C) : fm C := fun i j =>
  if i == j then V i i else if i == j.+1 then xD j else if j == i.+1 then (if herm then (xD i)^* else xD i) else 0.

(** L^T, or its conjugate. *)
Definition trL (C : numClosedFieldType) (herm : bool) N (L : 'M[C]_N) : 'M[C]_N :=
  if herm then map_mx conjC L^T else L^T.

(** H, with rows and columns permuted, is L D L^T (or dagger); L is the unit lower triangle
    of V; D has 1x1 and 2x2 blocks, the latter invertible and
    with a zero of L beside them; s is what the exchanges k <-> P k,
    k = 0, 1, ..., make. *)
Definition is_LDL (C : numClosedFieldType) (herm : bool) N (H V : fm C) (xD : fv C) (P : nat -> nat) : Prop :=
  [/\ forall k, (k < N)%N -> (k <= P k < N)%N,
      exists s : 'S_N, (forall i : 'I_N, psig P 0 N i = s i :> nat) /\
        row_perm s (col_perm s (mx N N H)) =
        mx N N (lower true V) *m mx N N (blockdiag herm V xD) *m trL herm (mx N N (lower true V)),
      forall k, (k.+1 < N)%N -> xD k != 0 -> (k.+2 < N)%N -> xD k.+1 = 0
    & forall k, (k.+1 < N)%N -> xD k != 0 -> V k.+1 k = 0 /\
        V k k * V k.+1 k.+1 - xD k * (if herm then (xD k)^* else xD k) != 0].

Lemma is_LDL_det (C : numClosedFieldType) (herm : bool) N (H V : fm C) xD P :
  is_LDL herm N H V xD P -> \det (mx N N H) = \det (mx N N (blockdiag herm V xD)).
Proof.
  move=> [_ [s [_ E]] _ _].
  have := congr1 determinant E; rewrite row_permE col_permE !det_mulmx !det_perm lowdet mul1r.
  have -> : \det (trL herm (mx N N (lower true V))) = 1.
    rewrite /trL; case: herm {E}; last by rewrite det_tr lowdet.
    by rewrite det_map_mx det_tr lowdet rmorph1.
  rewrite mulr1 mulrC -mulrA => <-.
  by rewrite odd_permV -signr_addb addbb mulr1.
Qed.

Section Top.
Variable C : numClosedFieldType.
Lemma ldlt_mx (herm : bool) N (H A : fm C) xD P :
  (forall k, (k < N)%N -> (k <= P k < N)%N) ->
  (forall i k, (i < N)%N -> (k < N)%N -> H (psig P 0 N i) (psig P 0 N k) = ldlt herm N A xD i k) ->
  exists s : 'S_N, (forall i : 'I_N, psig P 0 N i = s i :> nat) /\
    row_perm s (col_perm s (mx N N H)) =
    mx N N (lower true A) *m mx N N (blockdiag herm A xD) *m trL herm (mx N N (lower true A)).
Proof.
  move=> hP hE; have [s [Hs _]] := @psig_perm N P 0 N ltac:(by move=> k Hk; have := hP k; lia).
  exists s; split=> //; apply/matrixP => i k; rewrite !mxE -!Hs hE // /ldlt.
  rewrite exchange_big_nat big_mkord; apply: eq_bigr => m _.
  rewrite !mxE big_mkord mulr_suml; apply: eq_bigr => l _; rewrite !mxE; congr (_ * _ * _).
  by rewrite /trL /LDL.cs; case: (herm); rewrite !mxE.
Qed.
End Top.

(** The two reasons why the source cannot leave the 2x2 case with a singular block: the
    constant alpha = (1 + sqrt 17)/8 lies between 0 and 1 ... *)
Definition bkalpha (C : numClosedFieldType) : C := (1 + sqrtC 17%:R) / 8%:R.
Lemma bkalpha01 (C : numClosedFieldType) : 0 < bkalpha C < 1.
Proof.
  have h0 : 0 < sqrtC 17%:R :> C by rewrite sqrtC_gt0 ltr0n.
  have h5 : sqrtC 17%:R < 5%:R :> C.
    have -> : 5%:R = sqrtC 25%:R :> C by rewrite (_ : 25%:R = 5%:R ^+ 2) ?sqrCK ?ler0n // -natrX.
    by rewrite ltr_sqrtC ?ltr_nat // qualifE ler0n.
  rewrite /bkalpha divr_gt0 ?ltr0n ?addr_gt0 ?ltr01 //=.
  rewrite ltr_pdivr_mulr ?ltr0n // mul1r; apply: lt_trans (_ : 1 + 5%:R < _); first by rewrite ltr_add2l.
  by rewrite -(natrD _ 1 5) ltr_nat.
Qed.

(** LDL_Decompose on every symmetric or hermitian view (either triangle stored, conjugated or
    not, row or column major), every size and block size, singular matrices included: it ends
    normally, and what the view and xD hold afterwards are the factors.  Nothing outside the
    stored triangle, xD's N-1 entries and P's N entries changes.  [under] is the underflow
    test of the source; in exact arithmetic it can only be true of 0.  The diagonal of a
    hermitian matrix is real.  The determinant is accumulated without regard to a conjugation
    of the view: see C33_det_refuted. *)
Theorem C33_decompose (C : numClosedFieldType) (alpha : C) (under : C -> bool) (nb : nat)
    (herm iscm upper cj : bool) (N : nat) (LD raw : fm C) (xD : fv C) (P : nat -> nat) (det : C) :
  0 < alpha < 1 -> (forall x, under x -> x = 0) -> (0 < nb)%N ->
  (herm -> forall i, (i < N)%N -> raw i i \is Num.real) ->
  exists s, [/\ LDL_Decompose alpha under nb herm iscm upper cj N LD raw xD P det = Ok s,
     is_LDL herm N (symview herm upper cj raw) (symview herm upper cj (la s)) (lx s) (lp s),
     herm -> forall i, (i < N)%N -> la s i i \is Num.real,
     ld s = det * (let d := \det (mx N N (symview herm upper cj raw)) in if cj && ~~ herm then d^* else d)
   & [/\ forall i j, ~~ [&& i < N, j < N & if upper then i <= j else j <= i]%N -> la s i j = raw i j,
         forall k, (N <= k.+1)%N -> lx s k = xD k & forall k, (N <= k)%N -> lp s k = P k]].
Proof.
  move=> Ha Hu Hn Hd.
  pose B : fm C := if upper then trm raw else raw.
  pose flip := if herm then cj (+) upper else cj.
  pose fc (x : C) := if flip then x^* else x.
  have fcK x : fc (fc x) = x by rewrite /fc; case: (flip); rewrite ?conjCK.
  have fcM x y : fc (x * y) = fc x * fc y by rewrite /fc; case: (flip); rewrite ?rmorphM.
  have fcB x y : fc (x - y) = fc x - fc y by rewrite /fc; case: (flip); rewrite ?rmorphB.
  have fc0 : fc 0 = 0 by rewrite /fc; case: (flip); rewrite ?rmorph0.
  have fc1 : fc 1 = 1 by rewrite /fc; case: (flip); rewrite ?rmorph1.
  have fc_eq0 x : (fc x == 0) = (x == 0) by rewrite /fc; case: (flip); rewrite ?conjC_eq0.
  have fcS n (f : nat -> C) : fc (\sum_(0 <= l < n) f l) = \sum_(0 <= l < n) fc (f l).
    by rewrite /fc; case: (flip); rewrite ?rmorph_sum.
  have fccs x : fc (cs herm x) = cs herm (fc x) by rewrite /fc /LDL.cs; case: (flip); case: (herm).
  have fcR x : x \is Num.real -> fc x = x by move=> h; rewrite /fc; case: (flip); rewrite // conj_Creal.
  pose tr (A : fm C) : fm C := if upper then trm A else A.
  (* the view's lower triangle, and the other one *)
  have vlow R i j : (j <= i)%N -> (herm -> R i i \is Num.real) -> symview herm upper cj R i j = fc (tr R i j).
    move=> Hji HR; rewrite /symview /fc /flip /tr; case: (upper); last first.
      by rewrite addbF Hji; case: (herm); case: (cj).
    rewrite addbT /trm; case: (leqP i j) => H1.
      have E : i = j by lia. subst j.
      case: (herm) HR => HR; last by case: (cj).
      by case: (cj) => //=; rewrite conj_Creal //; exact: HR.
    by case: (herm); case: (cj); rewrite /= ?conjCK.
  have vcs R i j : i != j -> symview herm upper cj R i j = cs herm (symview herm upper cj R j i).
    move=> H; rewrite /symview /LDL.cs; case: (upper); rewrite /=; case: (ltngtP i j) H => // h _;
      by case: (herm) => //; rewrite conjCK.
  have fcs i k : (i < N)%N -> (k < N)%N -> symview herm upper cj raw i k = fc (symlow herm B i k).
    move=> Hi Hk; rewrite /symlow; case: leqP => h; first by rewrite vlow //; move=> hh; exact: Hd.
    rewrite vcs; last by lia. rewrite vlow ?fccs //; first by lia. by move=> hh; exact: Hd.
  have Bd i : (i < N)%N -> cs herm (B i i) = B i i.
    move=> Hi; rewrite /LDL.cs /B; case E : herm => //.
    by case: (upper); rewrite /trm conj_Creal //; apply: Hd.
  pose s0 := Lst B (fun i => if (i < N.-1)%N then 0 else fc (xD i)) P det.
  have I0 : sinv herm N (symlow herm B) det 0 s0 (symlow herm B).
    split=> //=; last by rewrite det_mx00 mulr1.
    split=> //.
    - by move=> i k Hi Hk; rewrite /ldlt big_geq // add0r.
    - move=> i k Hi Hk; have [->|Hik] := eqVneq i k; first by rewrite symlow_le // Bd //; lia.
      by rewrite symlow_cs // eq_sym.
    - by move=> k Hk; rewrite ifT //; lia.
  have [s1 [E1 [I1 hP hdet] [F1 F2 F3]]] := @NonLapLDLP C herm N _ alpha under Ha Hu det nb Hn iscm LD s0 I0.
  have [J1 J2 J3 J4 J5] := I1.
  pose s := Lst (tr (la s1)) (fun i => fc (lx s1 i)) (lp s1) (ld s1).
  have trK A i j : tr (tr A) i j = A i j by rewrite /tr; case: (upper).
  have sd i : (i < N)%N -> la s1 i i = la s i i by move=> Hi; rewrite /s /= /tr; case: (upper).
  have sreal : herm -> forall i, (i < N)%N -> la s i i \is Num.real.
    by move=> h i Hi; rewrite -sd //; have := J3 i Hi; rewrite /LDL.cs h => /CrealP.
  have sv i k : (k <= i)%N -> (i < N)%N -> symview herm upper cj (la s) i k = fc (la s1 i k).
    by move=> h Hi; rewrite vlow // => [|hh]; [rewrite /s /= trK | exact: sreal].
  have sL i l : (i < N)%N -> (l < N)%N -> lower true (symview herm upper cj (la s)) i l = fc (lower true (la s1) i l).
    move=> Hi Hl; rewrite /lower; case: ltngtP => h; rewrite ?fc0 ?fc1 //=; by rewrite sv //; lia.
  have sD l m : (l < N)%N -> (m < N)%N ->
      pdiag herm (symview herm upper cj (la s)) (lx s) l m = fc (pdiag herm (la s1) (lx s1) l m).
    move=> Hl Hm; rewrite /pdiag; case: eqP => _; first by rewrite sv.
    by case: eqP => // _; case: eqP => // _; rewrite ?fccs ?fc0.
  have LDLs : is_LDL herm N (symview herm upper cj raw) (symview herm upper cj (la s)) (lx s) (lp s).
    split=> //.
    - apply: ldlt_mx => // i k Hi Hk.
      have hp q : (q < N)%N -> (psig (lp s) 0 N q < N)%N.
        by move=> Hq; apply: psig_lt => // q' Hq'; have := hP q'; rewrite /s /=; lia.
      rewrite fcs ?hp // J1 // leqNgt Hi addr0 /ldlt fcS.
      apply: eq_big_nat => l Hl; rewrite fcS; apply: eq_big_nat => m Hm.
      by rewrite !fcM fccs sL // sD // sL.
    - move=> k Hk; rewrite /s /= fc_eq0 => hx hk; have [h _ _] := J5 k Hk hx.
      by rewrite h // fc0.
    - move=> k Hk; rewrite /s /= fc_eq0 => hx; have [_ h0 h] := J5 k Hk hx.
      split; first by rewrite -[tr _]/(la s) sv // h0 fc0.
      rewrite -/(cs herm (fc (lx s1 k))) -[tr _]/(la s) !sv //; last by lia.
      by rewrite -fccs -!fcM -fcB fc_eq0.
  exists s; split=> //.
  - rewrite /LDL_Decompose -/B -/flip.
    have -> : (fun i => if (i < N.-1)%N then 0 else (if flip then fun i => (xD i)^* else xD) i) = lx s0.
      by rewrite /s0 /= /fc; case: (flip).
    rewrite -/s0 E1 /bindO /= /s /fc /tr; congr (Ok (Lst _ _ _ _)); by case: (flip).
  - rewrite (is_LDL_det LDLs) /s /= hdet; congr (_ * _).
    have -> : \det (mx N N (blockdiag herm (symview herm upper cj (la s)) (lx s)))
            = \det (mx N N (pdiag herm (symview herm upper cj (la s)) (lx s))) by [].
    have -> : mx N N (pdiag herm (symview herm upper cj (la s)) (lx s)) =
              if flip then map_mx conjC (mx N N (pdiag herm (la s1) (lx s1))) else mx N N (pdiag herm (la s1) (lx s1)).
      apply/matrixP => l m; rewrite mxE sD // /fc; case: (flip); by rewrite !mxE.
    case: (boolP herm) => hh; last first.
      rewrite andbT; have -> : flip = cj by rewrite /flip (negPf hh).
      by case: (cj); rewrite ?det_map_mx ?conjCK.
    rewrite andbF; case: (flip) => //; rewrite det_map_mx; apply/esym/CrealP/CrealP.
    rewrite -det_map_mx -det_tr; congr (\det _); apply/matrixP => l m; rewrite !mxE.
    rewrite /pdiag /LDL.cs ?hh eq_sym.
    have [E|_] := eqVneq (l : nat) m; first by rewrite -E; have := J3 l (ltn_ord l); rewrite /LDL.cs hh => ->; rewrite ?eqxx.
    by case: eqP => [E|_]; case: eqP => [E'|_] //; rewrite ?conjCK ?rmorph0 //; lia.
  - split=> //.
    + have Bt r c : la s0 r c = if upper then raw c r else raw r c by rewrite /s0 /= /B /trm; case: (upper).
      move=> i j h; rewrite /s /= /tr /trm; move: h Bt; case: (upper) => h Bt; rewrite F1 ?Bt //.
        by move: h; rewrite !negb_and -!leqNgt -!ltnNge; lia.
      by move: h; rewrite !negb_and -!leqNgt -!ltnNge; lia.
    + move=> k Hk; rewrite /s /= F2 // /s0 /= ifN ?fcK //; lia.
Qed.
Print Assumptions C33_decompose.

(** With the constant of the source. *)
Corollary C33_decompose_alpha (C : numClosedFieldType) (under : C -> bool) (herm iscm upper cj : bool)
    (N : nat) (LD raw : fm C) (xD : fv C) (P : nat -> nat) :
  (forall x, under x -> x = 0) -> (herm -> forall i, (i < N)%N -> raw i i \is Num.real) ->
  exists s, LDL_Decompose (bkalpha C) under 48 herm iscm upper cj N LD raw xD P 1 = Ok s /\
     is_LDL herm N (symview herm upper cj raw) (symview herm upper cj (la s)) (lx s) (lp s).
Proof.
  move=> Hu Hd; have [s [H1 H2 _ _ _]] := @C33_decompose C (bkalpha C) under 48 herm iscm upper cj N LD raw xD P 1
    (bkalpha01 C) Hu isT Hd.
  by exists s.
Qed.
Print Assumptions C33_decompose_alpha.

(** Indefinite matrices need 2x2 blocks: every LDL of ((0,1),(1,0)) has one, so the one
    found has. *)
Definition swap2 : fm algCnumClosedField := fun i j => if i == j then 0 else 1.
Example C33_ex_2x2 :
  exists s, LDL_Decompose (bkalpha algCnumClosedField) (fun x => x == 0) 48 true true false false 2 (fun _ _ => 0) swap2 (fun _ => 0) id 1 = Ok s /\
    lx s 0%N != 0 /\ ld s = -1.
Proof.
  have [] := @C33_decompose algCnumClosedField (bkalpha algCnumClosedField) (fun x => x == 0) 48 true true false false 2 (fun _ _ => 0) swap2 (fun _ => 0) id 1
    (bkalpha01 _) _ isT _.
  - by move=> x /eqP.
  - by move=> _ i _; rewrite /swap2 eqxx rpred0.
  have V i j : symview true false false swap2 i j = swap2 i j.
    by rewrite /symview /swap2 /=; case: leqP => // h; rewrite eq_sym; case: eqP; rewrite ?conjC0 ?conjC1.
  move=> s [E [_ [p [_ Ep]] _ _] _ Ed _]; exists s; split=> //; split.
  - apply/eqP => x0.
    have e0 := congr1 (fun A : 'M_2 => A ord0 ord0) Ep.
    have e1 := congr1 (fun A : 'M_2 => A (lift ord0 ord0) ord0) Ep.
    move: e0 e1; rewrite !mxE !V !big_ord_recl !big_ord0 !mxE !big_ord_recl !big_ord0 !mxE /lower /blockdiag /= x0.
    rewrite {1}/swap2 eqxx !(mulr0, mul0r, addr0, add0r, mulr1, mul1r, rmorph0, rmorph1, conjC0, conjC1) => <-.
    rewrite !(mulr0, mul0r, addr0, add0r, mulr1, mul1r, rmorph0, rmorph1, conjC0, conjC1) /swap2.
    case: eqP => [h|_]; first by move/val_inj/perm_inj: h.
    by move/eqP; rewrite oner_eq0.
  - rewrite Ed andbF mul1r (expand_det_row _ ord0) !big_ord_recl big_ord0 /cofactor !det_mx11 !mxE !V /swap2 /=.
    by rewrite !mul0r add0r addr0 mul1r expr1 mulr1.
Qed.

(** The determinant LDL_Decompose returns is not always that of the matrix: on a conjugated
    view of a complex symmetric matrix it is the conjugate. *)
Theorem C33_det_refuted :
  exists (raw : fm algCnumClosedField) s,
    LDL_Decompose (bkalpha algCnumClosedField) (fun x => x == 0) 48 false true false true 1 (fun _ _ => 0) raw (fun _ => 0) id 1 = Ok s /\
    ld s != \det (mx 1 1 (symview false false true raw)).
Proof.
  exists (fun _ _ => 'i).
  have [] := @C33_decompose algCnumClosedField (bkalpha algCnumClosedField) (fun x => x == 0) 48 false true false true 1 (fun _ _ => 0) (fun _ _ => 'i) (fun _ => 0) id 1
    (bkalpha01 _) _ isT _.
  - by move=> x /eqP.
  - by [].
  move=> s [E _ _ Ed _]; exists s; split=> //; rewrite Ed /= mul1r det_mx11 mxE /symview /= conjCK conjCi.
  rewrite -addr_eq0 -mulr2n mulrn_eq0 /=; exact: neq0Ci.
Qed.
Print Assumptions C33_det_refuted.
