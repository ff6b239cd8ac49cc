(** C54: Cholesky decomposition of hermitian band matrices, LDL decomposition of tridiagonal
    ones, and division through them.
    [band_of nlo nlo raw] is the array with zeros outside the band, [hermview upper cj] and
    [symview herm upper cj] the hermitian or symmetric matrix it stands for, [posdef]
    positive definiteness (Chol.v), [mx N N A] the matrix with entries A i j. *)
From Coq Require Import Ring Field.
From Verif Require Import Base FMat TriSolve TriInv LUDiv Cplx Chol CholDiv LDL LDLProofs BandTri BandLUDiv Claims_BandLU BandCH BandCHProofs BandLDLProofs BandCHDivProofs SymSquare Claims_SymSquare.
From mathcomp Require Import all_ssreflect all_fingroup all_algebra all_field zify.
Set Implicit Arguments. Unset Strict Implicit. Unset Printing Implicit Defensive.
Import GRing.Theory Num.Theory Order.Theory.
Local Open Scope ring_scope.

Section Claims.
Variable C : numClosedFieldType.
Implicit Types (A m raw LL R : fm C).

(** The element is stored: in the triangle kept, inside the band, inside the matrix. *)
Definition stored (upper : bool) (N nlo i j : nat) : bool :=
  [&& (if upper then i <= j else j <= i)%N, (i <= j + nlo)%N, (j <= i + nlo)%N, (i < N)%N & (j < N)%N].
(** A leading principal minor vanishes. *)
Definition leading_minor_zero (N : nat) (H : fm C) : Prop :=
  exists k, [/\ (0 < k)%N, (k <= N)%N & \det (mx k k H) = 0].

(** CH_Decompose(HermBandMatrixView), every storage order, half bandwidth and triangle: it
    succeeds exactly for the positive definite matrices, and leaves a lower triangular band
    L with positive diagonal and L L^dagger = A. *)
Theorem C54_decompose stA stB isrm iscm isdm cm upper cj N nlo raw : (nlo < N)%N -> hermok N raw ->
  let A := hermview upper cj (band_of nlo nlo raw) in
  match BCH_Decompose stA stB isrm iscm isdm cm upper N nlo raw with
  | Ok R => let L := mx N N (lowview upper cj (band_of nlo nlo R)) in
      [/\ posdef N A, L *m adj L = mx N N A, forall i, (i < N)%N -> 0 < R i i &
          forall i j, ~~ stored upper N nlo i j -> R i j = raw i j]
  | Throw e => e = NonPosDef /\ ~ posdef N A
  | UB => False
  end.
Proof.
  move=> HN Hr A; have := @BCH_DecomposeP C stA stB isrm iscm isdm cm upper cj N nlo raw HN Hr.
  case: (BCH_Decompose _ _ _ _ _ _ _ _ _ _) => [R|e|] //= [[h1 h2 h3] h4 h5]; split=> //.
  by move=> i Hi; have := h2 i Hi; rewrite bandof_lband // lband_d.
Qed.

(** LDL_Decompose of a tridiagonal matrix, hermitian, or symmetric and not DiagMajor: it
    succeeds exactly if no leading principal minor vanishes, and leaves L unit lower
    bidiagonal and D diagonal with L D L^dagger (L D L^T) = A. *)
Theorem C54_ldl_partial (herm dm upper cj : bool) N raw : herm || ~~ dm -> (0 < N)%N ->
  (herm -> hermok N raw) ->
  let A := symview herm upper cj (band_of 1 1 raw) in
  match BLDL_Decompose herm dm upper N raw with
  | Ok R => let L := mx N N (lower true (symview herm upper cj (band_of 1 1 R))) in
      [/\ L *m diagm N (symview herm upper cj R) *m csadj herm L = mx N N A,
          ~ leading_minor_zero N A,
          forall i, (i < N)%N -> R i i != 0 /\ (herm -> R i i \is Num.real) &
          forall i j, ~~ stored upper N 1 i j -> R i j = raw i j]
  | Throw e => e = NonPosDef /\ leading_minor_zero N A
  | UB => False
  end.
Proof.
  move=> Hdm HN Hr A.
  have Hd : diagok herm N raw.
    by move=> i Hi; rewrite /cs; case E : herm => //; apply: realcj; apply: Hr.
  have := @BLDL_DecomposeP C herm dm upper cj N raw _ HN Hd; rewrite negb_and negbK => /(_ Hdm).
  case: (BLDL_Decompose _ _ _ _ _) => [R|e|] //= [h1 h2 h3 h4]; split=> //.
  move=> i Hi; have [g1 g2] := h2 i Hi; split=> // hh; apply/CrealP; by move: g2; rewrite /cs hh.
Qed.

(** The HermBandCHDiv of A.  When it is asked to work in place it must be able to. *)
Theorem C54_object stA stB isrm iscm isdm (rm cm dm inplace upper cj : bool) N nlo raw junk :
  (nlo < N)%N -> hermok N raw -> (inplace -> bch_inplace rm cm dm inplace nlo) ->
  let A := hermview upper cj (band_of nlo nlo raw) in
  match BCHDiv_new stA stB isrm iscm isdm rm cm dm inplace upper cj N nlo raw junk with
  | Ok (LL, cjL) =>
      let L := mx N N (BCHDiv_getL cjL nlo LL) in let D := mx N N (BCHDiv_getD cjL nlo LL) in
      [/\ L *m D *m adj L = mx N N A,
          forall i j, (i < j)%N || (j + nlo < i)%N -> BCHDiv_getL cjL nlo LL i j = 0,
          nlo <> 1%N -> posdef N A,
          posdef N A <-> (forall i, (i < N)%N -> 0 < BCHDiv_getD cjL nlo LL i i) &
          nlo = 1%N -> ~ leading_minor_zero N A]
  | Throw e => [/\ e = NonPosDef, ~ posdef N A & nlo = 1%N -> leading_minor_zero N A]
  | UB => False
  end.
Proof.
  move=> HN Hr Hip A.
  have := @BCHDiv_newP C stA stB isrm iscm isdm rm cm dm inplace upper cj N nlo raw junk HN Hr Hip.
  case: (BCHDiv_new _ _ _ _ _ _ _ _ _ _ _ _ _ _ _) => [[LL cjL]|e|] //=.
    case=> h1 h2 h3; split=> //; [exact: (proj1 h1) | | by move=> /h2 [] | exact: (posdef_getD HN h1)].
    move=> i j hij; rewrite /BCHDiv_getL (_ : (i == j) = false); last by apply/eqP; lia.
    by rewrite andbF ifN //; lia.
  case=> -> h; split=> //; last by move=> /eqP E; move: h; rewrite E.
  by move: h; case: (nlo == 1%N) => // h hp; exact: (posdef_minors hp h).
Qed.

Section Div.
Variables (nb : nat) (stA stB : stor) (isrm iscm isdm rm cm dm inplace upper cj : bool).
Variables (N nlo : nat) (raw junk : fm C).
Hypotheses (nbP : (0 < nb)%N) (HN : (nlo < N)%N) (Hr : hermok N raw).
Hypothesis Hip : inplace -> bch_inplace rm cm dm inplace nlo.
Variables (LL : fm C) (cjL : bool).
Hypothesis HL : BCHDiv_new stA stB isrm iscm isdm rm cm dm inplace upper cj N nlo raw junk = Ok (LL, cjL).
Let A := hermview upper cj (band_of nlo nlo raw).

Lemma facts : bchfacts cjL N nlo A LL.
Proof using HN Hr Hip HL.
  by have := @BCHDiv_newP C stA stB isrm iscm isdm rm cm dm inplace upper cj N nlo raw junk HN Hr Hip; rewrite HL; case.
Qed.

(** m /= A and m %= A: exact, and nothing outside m is written. *)
Theorem C54_left_division K m : exists X, [/\ BCHDiv_LDivEq stA stB isrm iscm isdm cjL N nlo K LL m = Ok X,
  mx N N A *m mx N K X = mx N K m & forall i j, ~~ ((i < N)%N && (j < K)%N) -> X i j = m i j].
Proof using nbP HN Hr Hip HL. exact: (BCHDiv_LDivEqP HN facts _ _ _ _ _ nbP). Qed.
Theorem C54_right_division K m : exists X, [/\ BCHDiv_RDivEq stA stB isrm iscm isdm cjL N nlo K LL m = Ok X,
  mx K N X *m mx N N A = mx K N m & forall i j, ~~ ((i < K)%N && (j < N)%N) -> X i j = m i j].
Proof using nbP HN Hr Hip HL. exact: (BCHDiv_RDivEqP HN facts _ _ _ _ _ nbP). Qed.
(** The inverse. *)
Theorem C54_inverse m : exists X, [/\ BCHDiv_Inverse nb cjL N nlo LL m = Ok X,
  mx N N X *m mx N N A = 1%:M, mx N N A *m mx N N X = 1%:M & forall i j, ~~ ((i < N)%N && (j < N)%N) -> X i j = m i j].
Proof using nbP HN Hr Hip HL. exact: (BCHDiv_InverseP HN facts nbP). Qed.
(** The determinant: its absolute value is returned, with sign 1; so both are right for
    positive definite matrices, and for every matrix when nlo is not 1. *)
Theorem C54_det_partial : [/\ BCHDiv_det N nlo LL = `|\det (mx N N A)|, BCHDiv_sign N LL = 1,
  \det (mx N N A) != 0 & nlo <> 1%N \/ posdef N A -> BCHDiv_det N nlo LL = \det (mx N N A)].
Proof using nbP HN Hr Hip HL.
  have E := BCHDiv_detP HN facts nbP; split=> //; first exact: (BCHDiv_signP HN facts nbP).
  - rewrite (det_H HN facts nbP); have g : \prod_(i < N) LL i i != 0.
      by apply/prodf_neq0 => i _; case: (facts.2 i (ltn_ord i)).
    by case: ifP => // _; rewrite expf_eq0.
  - move=> hp; rewrite E ger0_norm // (det_H HN facts nbP).
    have rp : \prod_(i < N) LL i i \is Num.real by apply: rpred_prod => i _; case: (facts.2 i (ltn_ord i)).
    case: ifP => h; last by rewrite real_exprn_even_ge0.
    have pd : posdef N A.
      case: hp => // h1; have := @BCHDiv_newP C stA stB isrm iscm isdm rm cm dm inplace upper cj N nlo raw junk HN Hr Hip.
      by rewrite HL => - [_ g _]; case: (g h1).
    apply: prodr_ge0 => i _; have := (posdef_getD HN facts).1 pd i (ltn_ord i).
    by rewrite /BCHDiv_getD eqxx h (LLr facts) // => /ltW.
Qed.
(** (A^dagger A)^-1: right for sizes 1 and 2.  Missing: the other sizes, where it is wrong. *)
Theorem C54_ata_partial fuel (ata : fm C) : (N <= 2)%N -> (N <= fuel)%N ->
  exists R, BCHDiv_InverseATA nb fuel cjL N nlo LL ata = Ok R /\
    mx N N R *m (adj (mx N N A) *m mx N N A) = 1%:M.
Proof using nbP HN Hr Hip HL.
  move=> H2 Hf; rewrite /BCHDiv_InverseATA.
  have [V [-> [M [M1 M2 M3]]]] := BCHDiv_InverseLowP HN facts nbP.
  rewrite /bindO; set B := fun i j : nat => _.
  have EB : mx N N (symview true false false B) = M.
    apply/matrixP => i j; rewrite mxE /symview /B /=; case: (leqP j i) => g.
      by rewrite ltn_ord M3.
    by rewrite ltn_ord (ltnW g) /= (M3 j i (ltnW g)) -[in RHS]M2 mxE.
  have Hd : true -> forall i, (i < N)%N -> B i i \is Num.real.
    move=> _ i Hi; rewrite /B Hi leqnn /= (M3 (Ordinal Hi) (Ordinal Hi) (leqnn _)).
    by apply/CrealP; rewrite -[in RHS]M2 mxE.
  have [S [e1 e2]] := @sqlow C true N fuel B ltac:(lia) Hf Hd; exists S; split=> //.
  have hh : adj (mx N N A) = mx N N A := adjH facts.
  by apply: (inv_sq M1 M1 hh); rewrite e2 EB.
Qed.
End Div.
End Claims.

(** ** Findings *)
Section Refuted.
Notation ca := algC.
(** diag(1,-1) stored as a tridiagonal hermitian matrix. *)
Definition dia2 : fm ca := fun i j => if (i == 0%N) && (j == 0%N) then 1 else if (i == 1%N) && (j == 1%N) then -1 else 0.
Lemma Re1 : 'Re (1 : ca) = 1. Proof. by apply/Creal_ReP; exact: real1. Qed.
Lemma ReN1 : 'Re (-1 : ca) = -1. Proof. by apply/Creal_ReP; rewrite rpredN; exact: real1. Qed.
Lemma dia2_ok : hermok 2 dia2.
Proof. by case=> [|[|i]] //= _; rewrite /dia2 /= ?real1 // rpredN real1. Qed.
Lemma dia2_npd : ~ posdef 2 (hermview false false (band_of 1 1 dia2)).
Proof.
  move=> h; have := h (fun i => if i == 1%N then 1 else 0) (ex_intro _ 1%N (conj isT (oner_neq0 _))).
  rewrite /qform !big_nat_recl // big_geq //= /hermview /velt /band_of /dia2 /=.
  rewrite ?rmorph0 ?rmorph1 ?(mul0r, mulr0, mul1r, mulr1, add0r, addr0).
  by rewrite !big_geq // !addr0 oppr_gt0 ltr10.
Qed.
Lemma dia2_det k : (k <= 2)%N -> \det (mx k k (hermview false false (band_of 1 1 dia2))) = \prod_(i < k) dia2 i i.
Proof.
  move=> hk; rewrite det_trig.
    by apply: eq_bigr => i _; rewrite mxE /hermview leqnn /velt /band_of leq_addr.
  apply/is_trig_mxP => i j hij; have [hi hj] := (ltn_ord i, ltn_ord j).
  have [e1 e2] : i = 0%N :> nat /\ j = 1%N :> nat by lia.
  by rewrite mxE e1 e2 /hermview /= /velt /band_of /dia2 /= rmorph0.
Qed.
Lemma dia2_made : exists LL cjL, BCHDiv_new RM RM true false false false true false false false false 2 1 dia2 dia2 = Ok (LL, cjL).
Proof.
  have := @C54_object algCnumClosedField RM RM true false false false true false false false false 2 1 dia2 dia2 isT dia2_ok ltac:(by []).
  case: (BCHDiv_new _ _ _ _ _ _ _ _ _ _ _ _ _ _ _) => [[LL cjL]|e|] //=; first by exists LL, cjL.
  case=> _ _ /(_ erefl) [k [k1 k2]]; rewrite dia2_det // => /eqP h; exfalso; move: h; apply/negP/prodf_neq0 => i _.
  have hi := ltn_ord i; have [->|->] : i = 0%N :> nat \/ i = 1%N :> nat by lia.
    exact: oner_neq0.
  by rewrite /dia2 /= oppr_eq0 oner_neq0.
Qed.

(** A matrix that is not positive definite is accepted when nlo = 1. *)
Theorem C54_posdef_tridiagonal_refuted : exists (raw : fm algC), hermok 2 raw /\
  ~ posdef 2 (hermview false false (band_of 1 1 raw)) /\
  exists Q, BCHDiv_new RM RM true false false false true false false false false 2 1 raw raw = Ok Q.
Proof.
  exists dia2; split; first exact: dia2_ok. split; first exact: dia2_npd.
  by have [LL [c E]] := dia2_made; exists (LL, c).
Qed.
(** Its determinant and its sign are then wrong. *)
Theorem C54_det_refuted : exists (raw : fm algC) LL cjL, hermok 2 raw /\
  BCHDiv_new RM RM true false false false true false false false false 2 1 raw raw = Ok (LL, cjL) /\
  \det (mx 2 2 (hermview false false (band_of 1 1 raw))) = -1 /\ BCHDiv_det 2 1 LL = 1 /\ BCHDiv_sign 2 LL = 1.
Proof.
  have [LL [c E]] := dia2_made; exists dia2, LL, c; split; first exact: dia2_ok. split=> //.
  have D : \det (mx 2 2 (hermview false false (band_of 1 1 dia2))) = -1.
    by rewrite dia2_det // !big_ord_recl big_ord0 /dia2 /= mul1r mulr1.
  split=> //.
  have [h1 h2 _ _] := @C54_det_partial algCnumClosedField 1 RM RM true false false false true false false false false 2 1 dia2 dia2 isT isT dia2_ok ltac:(by []) LL c E.
  by split=> //; rewrite h1 D normrN1.
Qed.

(** LDL_Decompose of a symmetric DiagMajor matrix stops after one column. *)
Definition sym3 : fm algC := fun i j => if (i == j) || (i == 2%N) && (j == 1%N) then 1 else 0.
Theorem C54_ldl_sym_diagmajor_refuted : exists (raw R : fm algC), BLDL_Decompose false true false 3 raw = Ok R /\
  mx 3 3 (lower true (symview false false false (band_of 1 1 R))) *m diagm 3 (symview false false false R) *m
    csadj false (mx 3 3 (lower true (symview false false false (band_of 1 1 R)))) <>
  mx 3 3 (symview false false false (band_of 1 1 raw)).
Proof.
  have E0 : (1 : algC) != 0 by exact: oner_neq0.
  exists sym3; eexists; split.
    rewrite /BLDL_Decompose /BLDL /= /ldlstep /ldllast /hre /= /updm /=.
    rewrite {1}/sym3 /= (negPf E0) /= {1}/sym3 /= {1}/sym3 /= {1}/sym3 /= ?mul0r ?mulr0 ?subr0 (negPf E0) /=.
    reflexivity.
  move/matrixP => /(_ (inord 2) (inord 2)); rewrite !mxE !big_ord_recl big_ord0 !mxE !big_ord_recl !big_ord0 !mxE.
  rewrite !inordK //=.
  rewrite /bump /lower /symview /band_of /sym3 /= ?(mul0r, mulr0, mul1r, mulr1, add0r, addr0).
  by move/eqP; rewrite -subr_eq0 addrK (negPf E0).
Qed.
(** The in-place request is honoured only for some storages, but the constructor tests the
    request itself: otherwise it decomposes whatever its new memory holds. *)
Theorem C54_inplace_refuted : exists (raw junk : fm algC), hermok 2 raw /\
  posdef 2 (hermview false false (band_of 1 1 raw)) /\
  BCHDiv_new RM RM true false false false true false true false false 2 1 raw junk = Throw NonPosDef.
Proof.
  exists (fun i j => (i == j)%:R), (fun _ _ => 0); split.
    by move=> i _; rewrite eqxx; exact: real1.
  split; last first.
    by rewrite /BCHDiv_new /= /BLDL_Decompose /BLDL /= /ldlstep /hre (_ : 'Re (0 : algC) = 0) ?eqxx //; apply/Creal_ReP; exact: real0.
  apply/(@posdef_ldl algCnumClosedField 2 _ (fun i j => (i == j)%:R) (fun i j => (i == j)%:R)).
  - by rewrite (_ : mx 2 2 _ = 1%:M) ?unitmx1 //; apply/matrixP => i j; rewrite !mxE val_eqE.
  - rewrite (_ : mx 2 2 _ = 1%:M); last by apply/matrixP => i j; rewrite !mxE val_eqE.
    rewrite mul1mx (_ : csadj true _ = 1%:M) ?mulmx1; last by apply/matrixP => i j; rewrite !mxE /cs eq_sym rmorph_nat.
    apply/matrixP => i j; rewrite !mxE /hermview /velt /band_of -val_eqE /=.
    case: (ltngtP i j) => h /=; last by rewrite h leq_addr.
      by case: ifP => _; rewrite ?rmorph0.
    by case: ifP.
  - by move=> i _; rewrite eqxx ltr01.
Qed.

(** Size 3: (A^dagger A)^-1 is wrong for the matrix of second differences, unless the memory
    the result is written to held the right value at (1,2). *)
Theorem C54_ata_refuted nb fuel (ata : fm algC) : (0 < nb)%N -> (3 <= fuel)%N -> ata 1%N 2%N != 2%:R ->
  exists LL cjL R,
  [/\ BCHDiv_new RM RM true false false false true false false false false 3 1 tri3 tri3 = Ok (LL, cjL),
      BCHDiv_InverseATA nb fuel cjL 3 1 LL ata = Ok R
    & mx 3 3 R *m (adj (mx 3 3 (hermview false false (band_of 1 1 tri3))) *m
                   mx 3 3 (hermview false false (band_of 1 1 tri3))) <> 1%:M].
Proof.
  move=> Hn Hf Hg.
  have Hr : hermok 3 (@tri3 algCnumClosedField) by move=> i _; exact: tri3_real.
  have V : mx 3 3 (hermview false false (band_of 1 1 tri3)) = mx 3 3 (@tri3 algCnumClosedField).
    rewrite -(tri3_view _ true); apply: mx_ext => i j Hi Hj; rewrite hermview_symview.
    by case: i Hi => [|[|[|i]]] //; case: j Hj => [|[|[|j]]] //.
  have := @C54_object algCnumClosedField RM RM true false false false true false false false false 3 1 tri3 tri3 isT Hr ltac:(by []).
  have := @facts algCnumClosedField RM RM true false false false true false false false false 3 1 tri3 tri3 isT Hr ltac:(by []).
  case: (BCHDiv_new _ _ _ _ _ _ _ _ _ _ _ _ _ _ _) => [[LL cjL]|e|] //=; last first.
    move=> _ [_ []] x Hx; rewrite (_ : qform 3 _ x = qform 3 (hermview false false tri3) x); first exact: (@tri3_posdef _ x Hx).
    apply: eq_big_nat => i Hi; apply: eq_big_nat => j Hj; congr (_ * _ * _).
    by case: i Hi => [|[|[|i]]] //; case: j Hj => [|[|[|j]]] //.
  move=> /(_ LL cjL erefl) HF _; exists LL, cjL.
  rewrite /BCHDiv_InverseATA.
  have [X [-> [M [M1 M2 M3]]]] := BCHDiv_InverseLowP (nlo := 1) (N := 3) isT HF Hn.
  rewrite V in M1 *.
  have HX : M = mx 3 3 inv3.
    have [Y1 Y2] := inv3P algCnumClosedField; by rewrite -[LHS]mulmx1 -Y2 mulmxA M1 mul1mx.
  rewrite /bindO.
  have [i j Hi Hij||S [e1 e2]] := @wrong3 algCnumClosedField true fuel (fun i j => if (i < 3)%N && (j <= i)%N then X i j else realdiag 3 ata i j) Hf.
  - have Hj : (j < 3)%N by lia.
    by rewrite Hi Hij /= (M3 (Ordinal Hi) (Ordinal Hj) Hij) HX mxE.
  - by rewrite /= /realdiag.
  - by exists S; split=> //; apply/eqP.
Qed.

(** The hypotheses are met by a full 3x3 matrix with nlo = 2, and the object is made, in any
    storage order. *)
Definition ex3 : fm algC := fun i j => (minn i j).+1%:R.
Lemma ex3_ok : hermok 3 ex3. Proof. by move=> i _; exact: realn. Qed.
Lemma ex3_pd : posdef 3 (hermview false false (band_of 2 2 ex3)).
Proof.
  apply/(@posdef_ldl algCnumClosedField 3 _ (fun i j => (j <= i)%N%:R) (fun i j => 1)) => [||i _]; last exact: ltr01.
  - rewrite unitmxE det_trig; first by rewrite big1 ?unitr1 // => i _; rewrite mxE leqnn.
    by apply/is_trig_mxP => i j hij; rewrite mxE leqNgt hij.
  - apply/matrixP => i j; rewrite !mxE !big_ord_recl big_ord0 !mxE !big_ord_recl !big_ord0 !mxE /=.
    case: i => [[|[|[|?]]] ?] //; case: j => [[|[|[|?]]] ?] //=; rewrite /hermview /velt /band_of /ex3 /minn /bump /= /cs;
      rewrite ?rmorph1 ?rmorph0 ?rmorph_nat ?(mul0r, mulr0, mul1r, mulr1, add0r, addr0) //;
      by rewrite ?conjC1 ?conjC0 ?rmorph_nat -?[1 + 1]/(2%:R) ?(mulr1, mulr0, addr0) -?natrD.
Qed.
Example C54_example stA stB r c d rm cm dm junk : exists LL cjL,
  BCHDiv_new stA stB r c d rm cm dm false false false 3 2 ex3 junk = Ok (LL, cjL).
Proof.
  have := @C54_object algCnumClosedField stA stB r c d rm cm dm false false false 3 2 ex3 junk isT ex3_ok ltac:(by []).
  case: (BCHDiv_new _ _ _ _ _ _ _ _ _ _ _ _ _ _ _) => [[LL cjL]|e|] //=; first by exists LL, cjL.
  by case=> _ []; exact: ex3_pd.
Qed.
(** A tridiagonal one, in place. *)
Example C54_example2 : bch_inplace false false true true 1 /\ bch_inplace false true false true 2.
Proof. by []. Qed.
End Refuted.

Print Assumptions C54_decompose.
Print Assumptions C54_ldl_partial.
Print Assumptions C54_object.
Print Assumptions C54_left_division.
Print Assumptions C54_right_division.
Print Assumptions C54_inverse.
Print Assumptions C54_det_partial.
Print Assumptions C54_posdef_tridiagonal_refuted.
Print Assumptions C54_det_refuted.
Print Assumptions C54_ldl_sym_diagmajor_refuted.
Print Assumptions C54_inplace_refuted.
Print Assumptions C54_ata_partial.
Print Assumptions C54_ata_refuted.
