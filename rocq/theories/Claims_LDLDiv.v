(** C46: division, determinant and singularity test through the LDL decomposition. *)
From mathcomp Require Import all_ssreflect all_fingroup all_algebra all_field zify.
From Verif Require Import Base FMat TriSolve RowPerm LU LUProofs LUDiv Cplx LDL LDLProofs Claims_LDL LDLDiv LDLInv.
Set Implicit Arguments. Unset Strict Implicit. Unset Printing Implicit Defensive.
Import GRing.Theory Num.Theory Order.Theory.
Local Open Scope ring_scope.

Section Views.
Variable C : numClosedFieldType.
(** The two triangles of a view are transposes (adjoints) of each other. *)
Lemma symview_cs (herm upper cj : bool) (R : fm C) (i j : nat) : (herm -> R i i \is Num.real) ->
  symview herm upper cj R i j = cs herm (symview herm upper cj R j i).
Proof.
  rewrite /symview /LDL.cs => h; case: (ltngtP i j) => Hij.
  - by case: (upper); case: (herm); rewrite ?conjCK.
  - by case: (upper); case: (herm); rewrite ?conjCK.
  - subst j; case: (herm) h => // h; rewrite if_same.
    by case: (cj); rewrite ?conjCK conj_Creal // h.
Qed.

(** What the array of the divider shows before the decomposition is the matrix. *)
Lemma newview (herm upper cj : bool) N (A : fm C) i j : (i < N)%N -> (j < N)%N ->
  (herm -> forall i, (i < N)%N -> A i i \is Num.real) ->
  symview herm false (if upper && herm then ~~ cj else cj) (if upper then trm A else A) i j =
  symview herm upper cj A i j.
Proof.
  move=> Hi Hj Hd; case: upper => //=.
  rewrite /symview /trm; case: (ltngtP i j) => Hij; try by case: (herm); case: (cj); rewrite /= ?conjCK.
  subst j; case E : herm Hd => // h; rewrite /=; case: (cj) => //=; by rewrite conj_Creal // h.
Qed.
End Views.

(** The divider holds a decomposition of the matrix, if it was made by copying or in place in
    row or column major storage.  (In place in other storage: C46_inplace_storage_refuted.) *)
Theorem C46_construct (C : numClosedFieldType) (alpha : C) (under : C -> bool) (nb : nat)
    (herm upper cj inplace contig iscm : bool) (N : nat) (LD A junk : fm C) (xD : fv C) (P : nat -> nat) :
  0 < alpha < 1 -> (forall x, under x -> x = 0) -> (0 < nb)%N ->
  (herm -> forall i, (i < N)%N -> A i i \is Num.real) -> (inplace -> contig) ->
  exists cj1 s, [/\ SymLDLDiv_new alpha under nb herm upper cj inplace contig iscm N LD A junk xD P = Ok (cj1, s),
    is_LDL herm N (symview herm upper cj A) (symview herm false cj1 (la s)) (lx s) (lp s),
    herm -> forall i, (i < N)%N -> la s i i \is Num.real,
    ld s = (let d := \det (mx N N (symview herm upper cj A)) in if inplace && cj && ~~ herm then d^* else d)
  & cj1 = inplace && (if upper && herm then ~~ cj else cj)].
Proof.
  move=> Ha Hu Hn Hd Hin; rewrite /SymLDLDiv_new.
  have -> : inplace && contig = inplace by case: (inplace) Hin => // ->.
  set cj1 := inplace && _; set iscm1 := if inplace then _ else _.
  pose LLx : fm C := if inplace then if upper then trm A else A else junk.
  pose LLy : fm C := if inplace then LLx else
    fun i j => if (i < N)%N && (j <= i)%N then symview herm upper cj A i j else LLx i j.
  rewrite -/LLx -/LLy.
  have Hv i j : (i < N)%N -> (j < N)%N -> symview herm false cj1 LLy i j = symview herm upper cj A i j.
    move=> Hi Hj; rewrite /cj1 /LLy /LLx; case: (inplace); first exact: (newview upper cj Hi Hj Hd).
    rewrite {1}/symview /=; case: (leqP j i) => Hji; first by rewrite Hi.
    rewrite Hj (ltnW Hji) /=.
    by rewrite [RHS]symview_cs // => hh; exact: Hd.
  have Hr : herm -> forall i, (i < N)%N -> LLy i i \is Num.real.
    move=> h i Hi; rewrite /LLy /LLx; case: (inplace); first by case: (upper); exact: Hd.
    by rewrite Hi leqnn /symview leqnn; case: (upper); case: (cj); rewrite ?CrealJ // Hd.
  have [s [E1 E2 E3 E4 _]] := C33_decompose iscm1 false cj1 LD xD P 1 Ha Hu Hn Hr.
  have EM : mx N N (symview herm false cj1 LLy) = mx N N (symview herm upper cj A) by apply: mx_ext.
  exists cj1, s; split=> //; first by rewrite E1.
  - by case: E2 => h1 [q [h2 h3]] h4 h5; split=> //; exists q; split=> //; rewrite -EM.
  - rewrite E4 EM mul1r /cj1; case: (inplace) => //=.
    by case: (upper); case: (herm); case: (cj).
Qed.
Print Assumptions C46_construct.

(** M / A and M % A: every size, either triangle stored, conjugated or not, real or complex,
    any storage of the right hand side, conjugated or not.  The in-place divider of a
    conjugated symmetric (not hermitian) view is excluded: C46_inplace_conj_refuted. *)
Theorem C46_divide (C : numClosedFieldType) (alpha : C) (under : C -> bool) (nb tb tb2 : nat)
    (herm upper cj inplace contig iscm : bool) (N : nat) (LD A junk : fm C) (xD : fv C) (P : nat -> nat) :
  0 < alpha < 1 -> (forall x, under x -> x = 0) -> (0 < nb)%N -> (0 < tb)%N -> (0 < tb2)%N ->
  (herm -> forall i, (i < N)%N -> A i i \is Num.real) -> (inplace -> contig) ->
  ~~ (inplace && cj && ~~ herm) -> \det (mx N N (symview herm upper cj A)) != 0 ->
  exists cj1 s, SymLDLDiv_new alpha under nb herm upper cj inplace contig iscm N LD A junk xD P = Ok (cj1, s) /\
    forall (stA stB : stor) (mc : bool) (K : nat) (M : fm C),
      (exists X, [/\ LDL_LDivEq tb tb2 stA stB herm cj1 mc N K (la s) (lx s) (lp s) M = Ok X,
         mx N N (symview herm upper cj A) *m mx N K X = mx N K M
       & forall r c, ~~ ((r < N)%N && (c < K)%N) -> X r c = M r c]) /\
      (exists X, [/\ LDL_RDivEq tb tb2 stA stB herm cj1 mc N K (la s) (lx s) (lp s) M = Ok X,
         mx K N X *m mx N N (symview herm upper cj A) = mx K N M
       & forall r c, ~~ ((r < K)%N && (c < N)%N) -> X r c = M r c]).
Proof.
  move=> Ha Hu Hn Ht Ht2 Hd Hin Hc Hdet.
  have [cj1 [s [E1 E2 E3 _ E5]]] := C46_construct upper cj iscm LD junk xD P Ha Hu Hn Hd Hin.
  exists cj1, s; split=> // stA stB mc K M.
  have Hc1 : herm || ~~ cj1 by rewrite E5; move: Hc; case: (herm); case: (inplace); rewrite //= andbF ?andbT.
  split; first exact: (LDL_LDivEqP Ht Ht2 E2 E3 Hc1 Hdet).
  apply: (LDL_RDivEqP Ht Ht2 E2 E3 Hc1 Hdet) => i j Hi Hj; apply: symview_cs => h; exact: Hd.
Qed.
Print Assumptions C46_divide.

(** The inverse, written into a symmetric or hermitian view of either triangle, conjugated or
    not, and into an ordinary matrix: nothing outside the view changes.  Here the in-place
    divider of a conjugated symmetric view is right too. *)
Theorem C46_inverse (C : numClosedFieldType) (alpha : C) (under : C -> bool) (nb tb bs : nat)
    (herm upper cj inplace contig iscm : bool) (N : nat) (LD A junk : fm C) (xD : fv C) (P : nat -> nat) :
  0 < alpha < 1 -> (forall x, under x -> x = 0) -> (0 < nb)%N -> (0 < tb)%N -> (0 < bs)%N ->
  (herm -> forall i, (i < N)%N -> A i i \is Num.real) -> (inplace -> contig) ->
  \det (mx N N (symview herm upper cj A)) != 0 ->
  exists cj1 s, SymLDLDiv_new alpha under nb herm upper cj inplace contig iscm N LD A junk xD P = Ok (cj1, s) /\
    (forall (su sc : bool) (raw : fm C),
       exists R, [/\ LDL_Inverse tb bs herm cj1 N (la s) (lx s) (lp s) su sc raw = Ok R,
         mx N N (symview herm su sc R) *m mx N N (symview herm upper cj A) = 1%:M
       & forall i j, ~~ [&& i < N, j < N & if su then i <= j else j <= i]%N -> R i j = raw i j]) /\
    (forall (mc : bool) (m : fm C),
       exists R, [/\ LDL_InverseM tb bs herm cj1 N (la s) (lx s) (lp s) mc m = Ok R,
         mx N N R *m mx N N (symview herm upper cj A) = 1%:M
       & forall i j, ~~ ((i < N)%N && (j < N)%N) -> R i j = m i j]).
Proof.
  move=> Ha Hu Hn Ht Hb Hd Hin Hdet.
  have [cj1 [s [E1 E2 E3 _ E5]]] := C46_construct upper cj iscm LD junk xD P Ha Hu Hn Hd Hin.
  exists cj1, s; split=> //; split.
    by move=> su sc raw; have [R [h1 h2 _ h3]] := LDL_InverseP Ht Hb su sc raw E2 E3 Hdet; exists R.
  by move=> mc m; exact: (LDL_InverseMP Ht Hb mc m E2 E3 Hdet).
Qed.
Print Assumptions C46_inverse.

(** The determinant the divider reports, up to the conjugation found in C33_det_refuted. *)
Theorem C46_det (C : numClosedFieldType) (alpha : C) (under : C -> bool) (nb : nat)
    (herm upper cj inplace contig iscm : bool) (N : nat) (LD A junk : fm C) (xD : fv C) (P : nat -> nat) :
  0 < alpha < 1 -> (forall x, under x -> x = 0) -> (0 < nb)%N ->
  (herm -> forall i, (i < N)%N -> A i i \is Num.real) -> (inplace -> contig) ->
  ~~ (inplace && cj && ~~ herm) ->
  exists cj1 s, SymLDLDiv_new alpha under nb herm upper cj inplace contig iscm N LD A junk xD P = Ok (cj1, s) /\
    ld s = \det (mx N N (symview herm upper cj A)).
Proof.
  move=> Ha Hu Hn Hd Hin Hc.
  have [cj1 [s [E1 _ _ E4 _]]] := C46_construct upper cj iscm LD junk xD P Ha Hu Hn Hd Hin.
  by exists cj1, s; split=> //; rewrite E4 (negPf Hc).
Qed.
Print Assumptions C46_det.

(** isSingular never misses a matrix that is exactly singular ... *)
Theorem C46_singular_partial (C : numClosedFieldType) (alpha : C) (under : C -> bool) (nb : nat) (abs2 : C -> C) (eps : C)
    (herm upper cj inplace contig iscm : bool) (N : nat) (LD A junk : fm C) (xD : fv C) (P : nat -> nat) :
  0 < alpha < 1 -> (forall x, under x -> x = 0) -> (0 < nb)%N ->
  (herm -> forall i, (i < N)%N -> A i i \is Num.real) -> (inplace -> contig) ->
  \det (mx N N (symview herm upper cj A)) = 0 ->
  exists cj1 s, SymLDLDiv_new alpha under nb herm upper cj inplace contig iscm N LD A junk xD P = Ok (cj1, s) /\
    LDL_isSingular abs2 eps N s.
Proof.
  move=> Ha Hu Hn Hd Hin H0.
  have [cj1 [s [E1 _ _ E4 _]]] := C46_construct upper cj iscm LD junk xD P Ha Hu Hn Hd Hin.
  exists cj1, s; split=> //; rewrite /LDL_isSingular E4 H0 /=.
  by case: ifP; rewrite ?conjC0 eqxx.
Qed.
Print Assumptions C46_singular_partial.

(** ... but it calls well conditioned matrices singular: it looks at the diagonal of D alone,
    and that of a 2x2 block may be zero.  For [[0,1],[1,0]] it is. *)
Theorem C46_singular_refuted : exists s,
  [/\ SymLDLDiv_new (bkalpha algCnumClosedField) (fun x => x == 0) 48 true false false false true true 2 swap2 swap2 swap2 (fun _ => 0) id = Ok (false, s),
      forall eps, 0 <= eps -> LDL_isSingular (fun x => `|x|) eps 2 s
    & \det (mx 2 2 (symview true false false swap2)) = -1].
Proof.
  have [] := @C46_construct algCnumClosedField (bkalpha algCnumClosedField) (fun x => x == 0) 48 true false false false true true 2 swap2 swap2 swap2 (fun _ => 0) id
    (bkalpha01 _) _ isT _ _; [by move=> x /eqP | by move=> _ i _; rewrite /swap2 eqxx rpred0 | by [] |].
  have V i j : symview true false false swap2 i j = swap2 i j.
    by rewrite /symview /swap2 /=; case: leqP => // h; rewrite eq_sym; case: eqP; rewrite ?conjC0 ?conjC1.
  move=> cj1 [s [E [_ [p [_ Ep]] _ _] _ _ h]]; rewrite h in E Ep; exists s; split=> //.
  - move=> eps He.
    have e0 := congr1 (fun A : 'M_2 => A ord0 ord0) Ep.
    move: e0; rewrite !mxE !V !big_ord_recl !big_ord0 !mxE !big_ord_recl !big_ord0 !mxE /lower /blockdiag /=.
    rewrite {1}/swap2 eqxx !(mulr0, mul0r, addr0, add0r, mulr1, mul1r, rmorph0, rmorph1, conjC0, conjC1) /symview /= => e0.
    rewrite /LDL_isSingular; apply/orP; right.
    apply: isSingularP; [by move=> x; exact: normr_ge0 | exact: normr0 | by [] | by exists 0%N].
  - rewrite (expand_det_row _ ord0) !big_ord_recl big_ord0 /cofactor !det_mx11 !mxE !V /swap2 /=.
    by rewrite !mul0r add0r addr0 mul1r expr1 mulr1.
Qed.
Print Assumptions C46_singular_refuted.

(** A decomposition done in place in storage that is neither row nor column major (for
    example a real part view) never reads the matrix: whatever the new array held is
    decomposed. *)
Theorem C46_inplace_storage_refuted (C : numClosedFieldType) : exists (A junk : fm C) cj1 s,
  SymLDLDiv_new (bkalpha C) (fun x => x == 0) 48 false false false true false false 1 A A junk (fun _ => 0) id = Ok (cj1, s) /\
  ld s != \det (mx 1 1 (symview false false false A)).
Proof.
  exists (fun _ _ => 1), (fun _ _ => 2%:R), false.
  have [] := @C33_decompose C (bkalpha C) (fun x => x == 0) 48 false true false false 1 (fun _ _ => 1) (fun _ _ => 2%:R) (fun _ => 0) id 1
    (bkalpha01 _) _ isT _; [by move=> x /eqP | by [] |].
  move=> s [E _ _ Ed _]; exists s; split; first by rewrite /SymLDLDiv_new E.
  by rewrite Ed /= mul1r !det_mx11 !mxE /symview /= (eqr_nat _ 2 1).
Qed.
Print Assumptions C46_inplace_storage_refuted.

(** In place on a conjugated view of a complex symmetric matrix, division uses the conjugate
    of D: 1 / conj('i) gives 1 / 'i. *)
Theorem C46_inplace_conj_refuted (tb tb2 : nat) (stA stB : stor) : (0 < tb)%N -> (0 < tb2)%N ->
  exists (A : fm algCnumClosedField) cj1 s X,
  [/\ SymLDLDiv_new (bkalpha algCnumClosedField) (fun x => x == 0) 48 false false true true true true 1 A A A (fun _ => 0) id = Ok (cj1, s),
      \det (mx 1 1 (symview false false true A)) != 0,
      LDL_LDivEq tb tb2 stA stB false cj1 false 1 1 (la s) (lx s) (lp s) (fun _ _ => 1) = Ok X
    & mx 1 1 (symview false false true A) *m mx 1 1 X != mx 1 1 (fun _ _ => 1)].
Proof.
  move=> Ht Ht2; exists (fun _ _ => 'i).
  have [] := @C46_construct algCnumClosedField (bkalpha algCnumClosedField) (fun x => x == 0) 48 false false true true true true 1 (fun _ _ => 'i) (fun _ _ => 'i) (fun _ _ => 'i) (fun _ => 0) id
    (bkalpha01 _) _ isT _ _; [by move=> x /eqP | by [] | by [] |].
  move=> cj1 [s [E1 HL _ _ E5]]; rewrite /= in E5; rewrite E5 in E1 HL *.
  have [hP _ _ _] := HL; have hP0 := hP 0%N isT.
  have e0 : la s 0%N 0%N = 'i.
    have := is_LDL_det HL; rewrite !det_mx11 !mxE /blockdiag /symview /= => e.
    by apply: (can_inj (@conjCK _)); rewrite -e.
  exists true, s.
  have := TriLDivEqMLP Ht Ht2 stA stB true 1 1 (vw true (la s)) (permrows 1 (lp s) 0 1 (fun _ _ => 1)).
  rewrite /LDL_LDivEq.
  case: (TriLDivEqML _ _ _ _ _ _ _ _ _) => [Y|e|] //=; last by case=> _ [].
  case=> h1 _.
  have := TriLDivEqMUP Ht Ht2 stA stB true 1 1 (fun i j => cs false (vw true (la s) j i)) (vw false
    (fun r k => if (r == 0%N) && (k < 1)%N then vw false Y 0%N k / hre false (la s 0%N 0%N) else vw false Y r k)).
  rewrite /bindO /=.
  case: (TriLDivEqMU _ _ _ _ _ _ _ _ _) => [Z|e|] //=; last by case=> _ [].
  case=> h2 _; eexists; split=> //.
  - by rewrite det_mx11 mxE /symview /= conjC_eq0 neq0Ci.
  have Z0 : Z 0%N 0%N = 1 / 'i.
    have := h1 0%N 0%N isT isT; rewrite big_ord1 /lower /= mul1r permrowsE /= => y0.
    have := h2 0%N 0%N isT isT; rewrite big_ord1 /upper /= mul1r => ->.
    by rewrite /vw /= y0 /hre e0.
  have RZ : revpermrows 1 (lp s) 0 1 Z 0%N 0%N = Z 0%N 0%N.
    rewrite -[RHS](revpermrowsK 1 (lp s) 0 1) permrowsE /= /psig /= /tsw.
    by have -> : lp s 0%N = 0%N by lia.
  apply/negP => /eqP /matrixP /(_ ord0 ord0); rewrite !mxE big_ord1 !mxE RZ Z0 /symview /=.
  rewrite conjCi mul1r mulNr divff ?neq0Ci // => /eqP.
  by rewrite eq_sym -subr_eq0 opprK -(natrD _ 1 1) pnatr_eq0.
Qed.
Print Assumptions C46_inplace_conj_refuted.

(** The hypotheses of C46_divide are met by an indefinite matrix that needs a 2x2 block. *)
Example C46_ex_indefinite (M : fm algCnumClosedField) : exists s X,
  [/\ SymLDLDiv_new (bkalpha algCnumClosedField) (fun x => x == 0) 48 true true true true true false 2 swap2 swap2 swap2 (fun _ => 0) id = Ok (false, s),
      LDL_LDivEq 4 2 CM RM true false true 2 3 (la s) (lx s) (lp s) M = Ok X
    & forall c, (c < 3)%N -> X 0%N c = M 1%N c /\ X 1%N c = M 0%N c].
Proof.
  have V i j : symview true true true swap2 i j = swap2 i j.
    by rewrite /symview /swap2 /=; case: leqP => // h; rewrite eq_sym; case: eqP; rewrite ?conjCK ?conjC0 ?conjC1.
  have D : \det (mx 2 2 (symview true true true swap2)) = -1.
    rewrite (expand_det_row _ ord0) !big_ord_recl big_ord0 /cofactor !det_mx11 !mxE !V /swap2 /=.
    by rewrite !mul0r add0r addr0 mul1r expr1 mulr1.
  have [] := @C46_construct algCnumClosedField (bkalpha algCnumClosedField) (fun x => x == 0) 48 true true true true true false 2 swap2 swap2 swap2 (fun _ => 0) id
    (bkalpha01 _) _ isT _ _; [by move=> x /eqP | by move=> _ i _; rewrite /swap2 eqxx rpred0 | by [] |].
  move=> cj1 [s [E1 _ _ _ h]]; rewrite /= in h; rewrite h in E1 *.
  have [] := @C46_divide algCnumClosedField (bkalpha algCnumClosedField) (fun x => x == 0) 48 4 2 true true true true true false 2 swap2 swap2 swap2 (fun _ => 0) id
    (bkalpha01 _) _ isT isT isT _ _ _ _; [by move=> x /eqP | by move=> _ i _; rewrite /swap2 eqxx rpred0 | by [] | by [] | by rewrite D oppr_eq0 oner_eq0 |].
  move=> cj2 [s2]; rewrite E1 => [[[<- <-] H]]; have [[X [EX XE _]] _] := H CM RM true 3%N M.
  exists s, X; split=> // c Hc; move/(mx_mulP 2 2 3): XE => XE.
  have := XE 0%N c isT Hc; have := XE 1%N c isT Hc; rewrite !big_ord_recl !big_ord0 !V /swap2 /=.
  by rewrite !mul0r !mul1r !addr0 !add0r => -> ->.
Qed.
