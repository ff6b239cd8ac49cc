(** C47: makeInverseATA of symmetric and hermitian matrices. *)
From Coq Require Import Ring Field.
From mathcomp Require Import all_ssreflect all_fingroup all_algebra all_field zify.
From Verif Require Import Base FMat TriSolve RingTac RowPerm LU LUProofs LUDiv Cplx Chol CholDiv Claims_Chol LDL LDLProofs Claims_LDL LDLDiv LDLInv Claims_LDLDiv SymSquare.
Set Implicit Arguments. Unset Strict Implicit. Unset Printing Implicit Defensive.
Import GRing.Theory Num.Theory Order.Theory.
Local Open Scope ring_scope.

(** The squaring step: a hermitian (symmetric) matrix, both triangles present, is replaced by
    its square, for every size but zero. *)
Theorem C47_square (C : numClosedFieldType) (herm : bool) (N fuel : nat) (A : fm C) :
  (0 < N <= fuel)%N -> (forall i j, (i < N)%N -> (j < N)%N -> A i j = if herm then (A j i)^* else A j i) ->
  exists R, [/\ SymSquare fuel herm N A = Ok R, mx N N R = mx N N A *m mx N N A
  & forall i j, ~~ ((i < N)%N && (j < N)%N) -> R i j = A i j].
Proof.
  move=> HN Hs; have [R [h1 h2 h3]] := SymSquareP HN Hs; exists R; split=> //.
  by apply/esym/mx_mulP => i j Hi Hj; rewrite h2 // big_mkord.
Qed.
Print Assumptions C47_square.

(** It never ends on an empty matrix, however deep the stack. *)
Theorem C47_empty_refuted (C : numClosedFieldType) (herm : bool) (fuel : nat) (A : fm C) :
  SymSquare fuel herm 0 A = UB.
Proof. exact: SymSquare0. Qed.
Print Assumptions C47_empty_refuted.

Section Sq.
Variable C : numClosedFieldType.
Lemma inv_sq N (X R Y H : 'M[C]_N) : X *m H = 1%:M -> Y *m H = 1%:M -> adj H = H -> R = X *m Y ->
  R *m (adj H *m H) = 1%:M.
Proof. by move=> h1 h2 -> ->; rewrite -mulmxA (mulmxA Y) h2 mul1mx. Qed.

Lemma sqlow (herm : bool) N fuel (A : fm C) : (0 < N <= 2)%N -> (N <= fuel)%N ->
  (herm -> forall i, (i < N)%N -> A i i \is Num.real) ->
  exists R, SymSquare fuel herm N A = Ok R /\
    mx N N R = mx N N (symview herm false false A) *m mx N N (symview herm false false A).
Proof.
  move=> HN Hf Hr.
  have [R' [h1 h2 _]] : exists R, [/\ SymSquare fuel herm N (symview herm false false A) = Ok R,
      mx N N R = mx N N (symview herm false false A) *m mx N N (symview herm false false A)
      & forall i j, ~~ ((i < N)%N && (j < N)%N) -> R i j = symview herm false false A i j].
    apply: C47_square; first by lia.
    by move=> i j Hi Hj; apply: symview_cs => h; apply: Hr.
  have [|R [e1 e2]] := @SymSquare2 C herm fuel N A _ HN Hf _ R' h1.
    by move=> i j Hij Hi; rewrite /symview Hij.
  by exists R; split=> //; rewrite -h2; apply: mx_ext.
Qed.

Lemma adj_symview (herm upper cj : bool) N (A : fm C) :
  (herm -> forall i, (i < N)%N -> A i i \is Num.real) -> (~~ herm -> forall i j, A i j \is Num.real) ->
  adj (mx N N (symview herm upper cj A)) = mx N N (symview herm upper cj A).
Proof.
  move=> Hd Hs; apply/matrixP => i j; rewrite !mxE.
  rewrite [RHS]symview_cs => [|h]; last exact: Hd.
  rewrite /cs; case: (herm) Hs => // /(_ isT) Hs.
  by rewrite /symview; case: (upper); case: (cj); case: leqP => _; rewrite ?conjCK ?(conj_Creal (Hs _ _)).
Qed.
End Sq.

(** (A^dagger A)^-1 from the LDL divider of a hermitian or a real symmetric matrix: right for
    sizes 1 and 2.  Missing: the other sizes, where it is wrong (below), and complex
    symmetric matrices, where it is wrong too. *)
Theorem C47_ata_partial (C : numClosedFieldType) (alpha : C) (under : C -> bool) (nb tb bs fuel : nat)
    (herm upper cj inplace contig iscm : bool) (N : nat) (LD A junk : fm C) (xD : fv C) (P : nat -> nat) :
  0 < alpha < 1 -> (forall x, under x -> x = 0) -> (0 < nb)%N -> (0 < tb)%N -> (0 < bs)%N ->
  (herm -> forall i, (i < N)%N -> A i i \is Num.real) -> (inplace -> contig) ->
  (~~ herm -> forall i j, A i j \is Num.real) -> (0 < N <= 2)%N -> (N <= fuel)%N ->
  \det (mx N N (symview herm upper cj A)) != 0 ->
  exists cj1 s, SymLDLDiv_new alpha under nb herm upper cj inplace contig iscm N LD A junk xD P = Ok (cj1, s) /\
    forall ata : fm C, exists R, LDL_InverseATA fuel tb bs herm cj1 N (la s) (lx s) (lp s) ata = Ok R /\
      mx N N R *m (adj (mx N N (symview herm upper cj A)) *m mx N N (symview herm upper cj A)) = 1%:M.
Proof.
  move=> Ha Hu Hn Ht Hb Hd Hin Hs HN Hf Hdet.
  have [cj1 [s [E1 E2 E3 _ _]]] := C46_construct upper cj iscm LD junk xD P Ha Hu Hn Hd Hin.
  exists cj1, s; split=> // ata; rewrite /LDL_InverseATA; set ata1 := if _ then _ else _.
  have [R0 [-> h2 h3 _]] := LDL_InverseP Ht Hb false false ata1 E2 E3 Hdet.
  have [R [e1 e2]] := sqlow HN Hf h3; exists R; split; first exact: e1.
  by apply: (inv_sq h2 h2 _ e2); exact: adj_symview.
Qed.
Print Assumptions C47_ata_partial.

(** The same from the Cholesky divider. *)
Theorem C47_ata_chol_partial (C : numClosedFieldType) (tb tb2 nb nb2 fuel : nat) (iscm : bool) (stA stB : stor)
    (up cj : bool) (N : nat) (raw R ata : fm C) :
  (0 < tb)%N -> (0 < tb2)%N -> (0 < nb)%N -> (0 < nb2)%N -> hermok N raw ->
  CH_Decompose tb tb2 nb nb2 iscm stA stB up cj N raw = Ok R -> (0 < N <= 2)%N -> (N <= fuel)%N ->
  exists S, CH_InverseATA fuel tb up cj N R ata = Ok S /\
    mx N N S *m (adj (mx N N (hermview up cj raw)) *m mx N N (hermview up cj raw)) = 1%:M.
Proof.
  move=> h1 h2 h3 h4 Hr E HN Hf; have [[X [EX [X1 X2]]] _] := C30_inverse_det h1 h2 h3 h4 Hr E.
  rewrite /CH_InverseATA EX /=; set A := fun i j : nat => _.
  have Hh : adj (mx N N (hermview up cj raw)) = mx N N (hermview up cj raw).
    have := @adj_symview C true up cj N raw (fun _ => Hr); apply; by [].
  have HX : adj (mx N N X) = mx N N X.
    have adjM (U V : 'M[C]_N) : adj (U *m V) = adj V *m adj U.
      by apply/matrixP => i j; rewrite !mxE rmorph_sum; apply: eq_bigr => k _; rewrite !mxE rmorphM mulrC.
    have adj1 : adj (1%:M : 'M[C]_N) = 1%:M by apply/matrixP => i j; rewrite !mxE eq_sym rmorph_nat.
    have e : mx N N (hermview up cj raw) *m adj (mx N N X) = 1%:M by rewrite -{1}Hh -adjM X1 adj1.
    by rewrite -[LHS]mul1mx -X1 -mulmxA e mulmx1.
  have hX i j : (i < N)%N -> (j < N)%N -> X i j = (X j i)^*.
    move=> Hi Hj; move/matrixP: HX => /(_ (Ordinal Hi) (Ordinal Hj)); by rewrite !mxE /=.
  have EA : mx N N (symview true false false A) = mx N N X.
    apply: mx_ext => i j Hi Hj; rewrite /symview /A Hi Hj /=; case: leqP => Hij //.
    by rewrite (ltnW Hij) [RHS]hX.
  have Hd : true -> forall i, (i < N)%N -> A i i \is Num.real.
    by move=> _ i Hi; rewrite /A Hi leqnn /=; apply/CrealP; rewrite -hX.
  have [S [e1 e2]] := sqlow HN Hf Hd; exists S; split=> //.
  by apply: (inv_sq X1 X1 Hh); rewrite e2 EA.
Qed.
Print Assumptions C47_ata_chol_partial.

(** The matrix of second differences, real symmetric and positive definite, and its inverse. *)
Definition tri3 {C : numClosedFieldType} : fm C := fun i j =>
  if i == j then if i == 2%N then 1 else 2%:R else if (i == j.+1) || (j == i.+1) then -1 else 0.
Definition inv3 {C : numClosedFieldType} : fm C := fun i j => (minn i j).+1%:R.

Section Wrong.
Variable C : numClosedFieldType.
Add Field Cf : (mc_ft C).
Ltac mring := mcnorm C; ring.

Lemma tri3_view herm : mx 3 3 (symview herm false false (@tri3 C)) = mx 3 3 tri3.
Proof.
  apply: mx_ext => i j _ _; rewrite /symview; case: leqP => // Hij.
  have -> : @tri3 C j i = tri3 i j by rewrite /tri3 eq_sym orbC; case: eqP => // ->.
  case: herm => //; rewrite /tri3; case: eqP => _; first by case: eqP => _; rewrite ?rmorph1 ?rmorph_nat.
  by case: (_ || _); rewrite ?rmorphN ?rmorph1 ?rmorph0.
Qed.

Lemma inv3P : mx 3 3 inv3 *m mx 3 3 (@tri3 C) = 1%:M /\ mx 3 3 (@tri3 C) *m mx 3 3 inv3 = 1%:M.
Proof.
  have h : mx 3 3 inv3 *m mx 3 3 (@tri3 C) = 1%:M.
    apply/matrixP => i j; rewrite !mxE !big_ord_recl big_ord0 !mxE.
    case: i => [[|[|[|i]]] Hi] //; case: j => [[|[|[|j]]] Hj] //; rewrite /tri3 /inv3 /minn -val_eqE /=; mring.
  by split=> //; exact: mulmx1C.
Qed.

Lemma adj_tri3 : adj (mx 3 3 (@tri3 C)) = mx 3 3 tri3.
Proof.
  apply/matrixP => i j; rewrite !mxE.
  by case: i => [[|[|[|i]]] Hi] //; case: j => [[|[|[|j]]] Hj] //; rewrite /tri3 /= ?rmorphN ?rmorph1 ?rmorph0 ?rmorph_nat.
Qed.

(** With the inverse in the lower triangle only, element (0,2) of the "square" depends on what
    element (1,2) held before. *)
Lemma wrong3 (herm : bool) fuel (A : fm C) : (3 <= fuel)%N ->
  (forall i j, (i < 3)%N -> (j <= i)%N -> A i j = inv3 i j) -> A 1%N 2%N != 2%:R ->
  exists R, SymSquare fuel herm 3 A = Ok R /\
    mx 3 3 R *m (adj (mx 3 3 (@tri3 C)) *m mx 3 3 tri3) != 1%:M.
Proof.
  move=> Hf HA Hg.
  have [R [E0 R02]] : exists R, SymSquare fuel herm 3 A = Ok R /\ R 0%N 2%N = 4%:R + A 1%N 2%N.
    case: fuel Hf => [|[|[|f]]] // _; rewrite SymSquareS; cbv zeta.
    rewrite (_ : (3 == 1)%N = false) // (_ : (3 %/ 2 = 1)%N) // (_ : (3 - 1 = 2)%N) // (SymSquareS _ _ 1) (SymSquareS _ _ 2).
    cbv zeta; rewrite (_ : (2 == 1)%N = false) // (_ : (2 %/ 2 = 1)%N) // (_ : (2 - 1 = 1)%N) // !(SymSquareS _ _ 1).
    rewrite /=; eexists; split; first by [].
    rewrite /= !unlock /= !addr0 !add1n (HA 0%N 0%N) // (HA 2%N 0%N) // (HA 1%N 0%N) // (HA 2%N 2%N) // /inv3 /minn /=.
    rewrite /cs (_ : (if herm then 1^* else 1) = 1 :> C); last by case: (herm); rewrite ?rmorph1.
    rewrite (_ : (2 - 1).+1 = 2%N) //; mring.
  exists R; split=> //; apply/negP => /eqP E; have [X1 X2] := inv3P.
  have : mx 3 3 R = mx 3 3 inv3 *m mx 3 3 inv3.
    have e : mx 3 3 (@tri3 C) *m mx 3 3 tri3 *m (mx 3 3 inv3 *m mx 3 3 inv3) = 1%:M.
      by rewrite mulmxA -(mulmxA _ (mx 3 3 tri3)) X2 mulmx1 X2.
    by rewrite -[LHS]mulmx1 -e mulmxA -{1}adj_tri3 E mul1mx.
  move/matrixP => /(_ ord0 (inord 2)); rewrite !mxE !inordK // R02.
  rewrite !big_ord_recl big_ord0 !mxE /= !inordK // /bump /inv3 /minn /= => e.
  move/eqP: Hg; apply; apply: (addrI 4%:R); rewrite e; mring.
Qed.

Lemma tri3_det herm : \det (mx 3 3 (symview herm false false (@tri3 C))) != 0.
Proof.
  rewrite tri3_view; apply/negP => /eqP h; have := congr1 determinant (proj1 inv3P).
  by rewrite det_mulmx h mulr0 det1 => /esym/eqP; rewrite oner_eq0.
Qed.

Lemma tri3_real i j : @tri3 C i j \is Num.real.
Proof. by rewrite /tri3; do ![case: ifP => _]; rewrite ?rpredN ?rpred1 ?rpred0 ?realn. Qed.

Lemma tri3_posdef : posdef 3 (hermview false false (@tri3 C)).
Proof.
  move=> x [i [Hi Hx]].
  have -> : qform 3 (hermview false false tri3) x =
     `|x 0%N| ^+ 2 + `|x 0%N - x 1%N| ^+ 2 + `|x 1%N - x 2%N| ^+ 2.
    rewrite /qform !unlock /= !addr0 /hermview /velt /tri3 /= !normCK !rmorphB ?rmorphN ?rmorph1 ?rmorph0.
    move: ((x 0%N)^*) ((x 1%N)^*) ((x 2%N)^*) => a b c; mring.
  have n0 (y : C) : 0 <= `|y| ^+ 2 by rewrite exprn_ge0.
  rewrite lt_def !addr_ge0 // andbT; apply/negP => /eqP E.
  move/eqP: E; rewrite !paddr_eq0 ?addr_ge0 // !expf_eq0 /= !normr_eq0 !subr_eq0 => /andP [/andP [/eqP a /eqP b] /eqP c].
  by move: Hx; case: i Hi => [|[|[|i]]] // _; rewrite -?c -?b a eqxx.
Qed.
End Wrong.

(** Size 3, LDL: for the matrix of second differences the answer is wrong unless the memory
    the result is written to already held the right value at (1,2). *)
Theorem C47_ata_refuted (C : numClosedFieldType) (nb tb bs fuel : nat) (herm : bool) (ata : fm C) :
  (0 < nb)%N -> (0 < tb)%N -> (0 < bs)%N -> (3 <= fuel)%N -> ata 1%N 2%N != 2%:R ->
  exists cj1 s R,
  [/\ SymLDLDiv_new (bkalpha C) (fun x => x == 0) nb herm false false false true true 3 tri3 tri3 tri3 (fun _ => 0) id = Ok (cj1, s),
      LDL_InverseATA fuel tb bs herm cj1 3 (la s) (lx s) (lp s) ata = Ok R
    & mx 3 3 R *m (adj (mx 3 3 (symview herm false false tri3)) *m mx 3 3 (symview herm false false tri3)) != 1%:M].
Proof.
  move=> Hn Ht Hb Hf Hg.
  have [] := @C46_construct C (bkalpha C) (fun x => x == 0) nb herm false false false true true 3 tri3 tri3 tri3 (fun _ => 0) id
    (bkalpha01 _) _ Hn _ _; [by move=> x /eqP | by move=> _ i _; exact: tri3_real | by [] |].
  move=> cj1 [s [E1 E2 E3 _ _]].
  exists cj1, s; rewrite /LDL_InverseATA; set ata1 := if _ then _ else _.
  have [R0 [-> h2 h3 h4]] := LDL_InverseP Ht Hb false false ata1 E2 E3 (tri3_det C herm).
  have HX : mx 3 3 (symview herm false false R0) = mx 3 3 inv3.
    have [X1 X2] := inv3P C; by rewrite -[LHS]mulmx1 -X2 mulmxA -{1}(tri3_view C herm) h2 mul1mx.
  have [i j Hi Hij||R [e1 e2]] := @wrong3 C herm fuel R0 Hf.
  - have Hj : (j < 3)%N by lia.
    by move/matrixP: HX => /(_ (Ordinal Hi) (Ordinal Hj)); rewrite !mxE /symview /= Hij.
  - by rewrite h4 // /ata1; case: (herm).
  - by exists R; split=> //; rewrite tri3_view.
Qed.
Print Assumptions C47_ata_refuted.

(** The same with Cholesky. *)
Theorem C47_ata_chol_refuted (C : numClosedFieldType) (tb tb2 nb nb2 fuel : nat) (iscm : bool) (stA stB : stor) (ata : fm C) :
  (0 < tb)%N -> (0 < tb2)%N -> (0 < nb)%N -> (0 < nb2)%N -> (3 <= fuel)%N -> ata 1%N 2%N != 2%:R ->
  exists R S,
  [/\ CH_Decompose tb tb2 nb nb2 iscm stA stB false false 3 tri3 = Ok R,
      CH_InverseATA fuel tb false false 3 R ata = Ok S
    & mx 3 3 S *m (adj (mx 3 3 (hermview false false tri3)) *m mx 3 3 (hermview false false tri3)) != 1%:M].
Proof.
  move=> h1 h2 h3 h4 Hf Hg.
  have Hr : hermok 3 (@tri3 C) by move=> i _; exact: tri3_real.
  have [R ER] := (proj2 (C30_posdef iscm stA stB false false h1 h2 h3 h4 Hr)) (@tri3_posdef C).
  have [[X [EX [X1 X2]]] _] := C30_inverse_det h1 h2 h3 h4 Hr ER.
  have V : mx 3 3 (hermview false false tri3) = mx 3 3 (@tri3 C) by exact: (tri3_view C true).
  rewrite V in X1 X2 *.
  have HX : mx 3 3 X = mx 3 3 inv3.
    have [Y1 Y2] := inv3P C; by rewrite -[LHS]mulmx1 -Y2 mulmxA X1 mul1mx.
  exists R; rewrite /CH_InverseATA EX /=.
  have [i j Hi Hij||S [e1 e2]] := @wrong3 C true fuel (fun i j => if (i < 3)%N && (j <= i)%N then X i j else realdiag 3 ata i j) Hf.
  - have Hj : (j < 3)%N by lia.
    by move/matrixP: HX => /(_ (Ordinal Hi) (Ordinal Hj)); rewrite !mxE /= Hi Hij.
  - by rewrite /= /realdiag.
  - by exists S.
Qed.
Print Assumptions C47_ata_chol_refuted.

(** Complex symmetric, size 1: for A = ('i) the answer is -1, not 1. *)
Theorem C47_ata_symmetric_refuted (C : numClosedFieldType) (nb tb bs fuel : nat) (ata : fm C) :
  (0 < nb)%N -> (0 < tb)%N -> (0 < bs)%N -> (1 <= fuel)%N ->
  exists cj1 s R,
  [/\ SymLDLDiv_new (bkalpha C) (fun x => x == 0) nb false false false false true true 1 (fun _ _ => 'i) (fun _ _ => 'i) (fun _ _ => 'i) (fun _ => 0) id = Ok (cj1, s),
      LDL_InverseATA fuel tb bs false cj1 1 (la s) (lx s) (lp s) ata = Ok R,
      R 0%N 0%N = -1
    & mx 1 1 R *m (adj (mx 1 1 (fun _ _ => 'i)) *m mx 1 1 (fun _ _ => 'i)) != 1%:M].
Proof.
  move=> Hn Ht Hb Hf.
  have [] := @C46_construct C (bkalpha C) (fun x => x == 0) nb false false false false true true 1 (fun _ _ => 'i) (fun _ _ => 'i) (fun _ _ => 'i) (fun _ => 0) id
    (bkalpha01 _) _ Hn _ _; [by move=> x /eqP | by [] | by [] |].
  move=> cj1 [s [E1 E2 E3 _ _]].
  exists cj1, s; rewrite /LDL_InverseATA.
  have D : \det (mx 1 1 (symview false false false (fun _ _ => 'i : C))) != 0 by rewrite det_mx11 mxE /symview /= neq0Ci.
  have [R0 [-> h2 _ _]] := LDL_InverseP Ht Hb false false ata E2 E3 D.
  have e0 : R0 0%N 0%N * 'i = 1.
    by move/matrixP: h2 => /(_ ord0 ord0); rewrite !mxE big_ord1 !mxE /symview /=.
  have e1 : R0 0%N 0%N = - 'i by apply: (mulIf (neq0Ci C)); rewrite e0 mulNr -expr2 sqrCi opprK.
  case: fuel Hf => // f _; rewrite /bindO SymSquareS eqxx; eexists.
  have e2 : updm R0 0 0 (R0 0%N 0%N * R0 0%N 0%N) 0%N 0%N = -1 by rewrite /updm eqxx e1 mulrNN -expr2 sqrCi.
  have e3 : ('i)^* * 'i = 1 :> C by rewrite conjCi mulNr -expr2 sqrCi opprK.
  split; [by [] | by [] | exact: e2 |].
  apply/negP => /eqP /matrixP /(_ ord0 ord0); rewrite !mxE big_ord1 !mxE big_ord1 !mxE e2 e3 mulr1 => /eqP.
  by rewrite eq_sym -subr_eq0 opprK -(natrD _ 1 1) pnatr_eq0.
Qed.
Print Assumptions C47_ata_symmetric_refuted.


(** The hypotheses of C47_square and of C47_ata_partial are met. *)
Example C47_ex_square (C : numClosedFieldType) : exists R, SymSquare 3 true 3 (@tri3 C) = Ok R /\ R 0%N 0%N = 5%:R /\ R 2%N 0%N = 1.
Proof.
  have [] := @C47_square C true 3 3 tri3 isT.
    by case=> [|[|[|i]]] [|[|[|j]]] // _ _; rewrite /tri3 /= ?rmorphN ?rmorph1 ?rmorph0 ?rmorph_nat.
  move=> R [e1 e2 _]; exists R; split=> //; move/esym/(mx_mulP 3 3 3): e2 => e2.
  by split; rewrite -e2 // !big_ord_recl big_ord0 /tri3 /= ?(mul0r, mulr0, addr0, add0r, mulrNN, mulr1, mul1r, mulr1n) // -natrM -(natrD _ 4 1).
Qed.

Example C47_ex_ata (ata : fm algCnumClosedField) : exists cj1 s R,
  [/\ SymLDLDiv_new (bkalpha algCnumClosedField) (fun x => x == 0) 48 true false false false true true 2 swap2 swap2 swap2 (fun _ => 0) id = Ok (cj1, s),
      LDL_InverseATA 2 64 64 true cj1 2 (la s) (lx s) (lp s) ata = Ok R
    & mx 2 2 R = 1%:M].
Proof.
  have V : mx 2 2 (symview true false false (@swap2)) = mx 2 2 swap2.
    apply: mx_ext => i j _ _.
    by rewrite /symview /swap2 /=; case: leqP => // h; rewrite eq_sym; case: eqP; rewrite ?conjC0 ?conjC1.
  have D : \det (mx 2 2 (symview true false false swap2)) != 0.
    rewrite V (expand_det_row _ ord0) !big_ord_recl big_ord0 /cofactor !det_mx11 !mxE /swap2 /=.
    by rewrite !mul0r add0r addr0 mul1r expr1 mulr1 oppr_eq0 oner_eq0.
  have [] := @C47_ata_partial algCnumClosedField (bkalpha algCnumClosedField) (fun x => x == 0) 48 64 64 2 true false false false true true 2 swap2 swap2 swap2 (fun _ => 0) id
    (bkalpha01 _) _ isT isT isT _ _ _ isT isT D; [by move=> x /eqP | by move=> _ i _; rewrite /swap2 eqxx rpred0 | by [] | by [] |].
  move=> cj1 [s [E H]]; have [R [ER HR]] := H ata; exists cj1, s, R; split=> //.
  rewrite -[LHS]mulmx1 -[RHS]HR; congr (_ *m _); rewrite V; apply/matrixP => i j; rewrite !mxE !big_ord_recl big_ord0 !mxE.
  by case: i => [[|[|i]] Hi] //; case: j => [[|[|j]] Hj] //; rewrite /swap2 -val_eqE /= ?(conjC0, conjC1) ?(mul0r, mulr0, addr0, add0r, mulr1, mul1r).
Qed.
