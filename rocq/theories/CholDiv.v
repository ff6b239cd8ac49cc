(** Division by a hermitian matrix through its Cholesky decomposition:
    src/TMV_SymCHD.cpp, src/TMV_SymCHDiv.cpp, src/TMV_SymCHInverse.cpp. *)
From Verif Require Import Base FMat TriSolve TriInv Claims_Tri LUDiv Chol.
From mathcomp Require Import all_ssreflect all_fingroup all_algebra zify.
Set Implicit Arguments. Unset Strict Implicit. Unset Printing Implicit Defensive.
Import GRing.Theory Num.Theory Order.Theory.
Local Open Scope ring_scope.

Section Model.
Variable C : numClosedFieldType.
Variables tb tb2 nb nb2 : nat.
Variables stA stB : stor.
Implicit Types (A m raw : fm C).

(** Elements through a view: the stored value, conjugated if the view is. *)
Definition velt (cj : bool) raw : fm C := fun i j => if cj then (raw i j)^* else raw i j.
(** A.lowerTri() and A.upperTri() of a hermitian view, TMV_SymMatrix.h:556-600: the
    stored triangle, or the adjoint of the other one. *)
Definition lowerTri (upper cj : bool) raw : fm C :=
  fun i j => if upper then (velt cj raw j i)^* else velt cj raw i j.
Definition upperTri (upper cj : bool) raw : fm C :=
  fun i j => if upper then velt cj raw i j else (velt cj raw j i)^*.

(** CH_LDivEq and CH_RDivEq, TMV_SymCHDiv.cpp:37-61. *)
Definition CH_LDivEq (upper cj : bool) (N K : nat) LLx m : outcome (fm C) :=
  do m <- TriLDivEqML tb tb2 stA stB false N K (lowerTri upper cj LLx) m;
  TriLDivEqMU tb tb2 stA stB false N K (upperTri upper cj LLx) m.
Definition CH_RDivEq (upper cj : bool) (N K : nat) LLx m : outcome (fm C) :=
  do m <- TriRDivEqM tb tb2 true stA stB false N K (upperTri upper cj LLx) m;
  TriRDivEqM tb tb2 false stA stB false N K (lowerTri upper cj LLx) m.

(** CH_Inverse, TMV_SymCHInverse.cpp:117-149, with NonLapCHInverse, 43-50: the values
    assigned to sinv.  The product L^dagger L is the mathematical one. *)
Definition CH_Inverse (upper cj : bool) (N : nat) LLx : outcome (fm C) :=
  do L <- TriInverseL tb false N (lowerTri upper cj LLx);
  Ok (fun i j => \sum_(0 <= k < N) (lower false L k i)^* * lower false L k j).

(** det(): 142-154, computed there as exp(2 * sum of logs of the diagonal). *)
Definition CH_det (N : nat) LLx : C := (\prod_(0 <= i < N) LLx i i) ^+ 2.

(** isSingular(): 208-212. *)
Definition CH_isSingular (abs2 : C -> C) (eps : C) (N : nat) LLx : bool := isSingular abs2 eps N LLx.
End Model.

Section Proofs.
Variable C : numClosedFieldType.
Implicit Types (A m raw : fm C).

(** The hermitian matrix a view shows. *)
Definition hermview (upper cj : bool) raw : fm C := fun i j =>
  if (if upper then i <= j else j <= i)%N then velt cj raw i j else (velt cj raw j i)^*.
(** The lower triangular matrix it shows: the factor L. *)
Definition lowview (upper cj : bool) raw : fm C := fun i j =>
  if (j <= i)%N then lowerTri upper cj raw i j else 0.

Lemma qform_ext N (H H' : fm C) x : (forall i j, (i < N)%N -> (j < N)%N -> H i j = H' i j) ->
  qform N H x = qform N H' x.
Proof.
  by move=> h; apply: eq_big_nat => i Hi; apply: eq_big_nat => j Hj; rewrite h //; lia.
Qed.
Lemma posdef_ext N (H H' : fm C) : (forall i j, (i < N)%N -> (j < N)%N -> H i j = H' i j) ->
  posdef N H -> posdef N H'.
Proof. by move=> h Hp x Hx; rewrite -(qform_ext x h); exact: Hp. Qed.

Lemma qform_conj N (H : fm C) x : qform N (fun i j => (H i j)^*) x = (qform N H (fun i => (x i)^*))^*.
Proof.
  rewrite /qform rmorph_sum; apply: eq_bigr => i _; rewrite rmorph_sum; apply: eq_bigr => j _.
  by rewrite !rmorphM /= !conjCK.
Qed.
Lemma posdef_conj N (H : fm C) : posdef N H -> posdef N (fun i j => (H i j)^*).
Proof.
  move=> Hp x [i [Hi Hx]]; rewrite qform_conj.
  have h : 0 < qform N H (fun i => (x i)^*) by apply: Hp; exists i; rewrite conjC_eq0.
  by rewrite realcj ?gtr0_real.
Qed.

(** The array CH_Decompose works on: the lower triangle of this matrix, or of its conjugate. *)
Definition core (upper : bool) raw : fm C := if upper then trm raw else raw.

Lemma realcj_velt cj raw i : raw i i \is Num.real -> velt cj raw i i = raw i i.
Proof. by move=> h; rewrite /velt; case: cj => //; rewrite realcj. Qed.

Lemma hermview_core upper cj raw N i j : hermok N raw -> (i < N)%N -> (j < N)%N ->
  hermview upper cj raw i j = if upper (+) cj then (hermlow (core upper raw) i j)^* else hermlow (core upper raw) i j.
Proof.
  move=> Hr Hi Hj; rewrite /hermview /hermlow /core /velt /trm.
  by case: upper; case: cj; case: ltngtP => h //=; rewrite ?conjCK // h realcj //; apply: Hr.
Qed.

Lemma posdef_core upper cj raw N : hermok N raw ->
  posdef N (hermview upper cj raw) <-> posdef N (hermlow (core upper raw)).
Proof.
  move=> Hr; split=> H.
  - case E : (upper (+) cj).
      apply: (@posdef_ext N (fun i j => (hermview upper cj raw i j)^*)); last exact: posdef_conj.
      by move=> i j Hi Hj; rewrite (hermview_core upper cj Hr Hi Hj) E conjCK.
    by apply: posdef_ext H => i j Hi Hj; rewrite (hermview_core upper cj Hr Hi Hj) E.
  - case E : (upper (+) cj).
      apply: (@posdef_ext N (fun i j => (hermlow (core upper raw) i j)^*)); last exact: posdef_conj.
      by move=> i j Hi Hj; rewrite (hermview_core upper cj Hr Hi Hj) E.
    by apply: posdef_ext H => i j Hi Hj; rewrite (hermview_core upper cj Hr Hi Hj) E.
Qed.

(** M^dagger. *)
Definition adj n (M : 'M[C]_n) : 'M[C]_n := \matrix_(i, j) (M j i)^*.

(** What a successful decomposition leaves. *)
Definition chfacts (upper cj : bool) (N : nat) raw R : Prop :=
  [/\ mx N N (lowview upper cj R) *m adj (mx N N (lowview upper cj R)) = mx N N (hermview upper cj raw),
      forall i, (i < N)%N -> 0 < R i i &
      forall i j, ~~ ((if upper then i <= j else j <= i)%N && (i < N)%N && (j < N)%N) -> R i j = raw i j].

Lemma lowview_core upper cj R i j : lowview upper cj R i j =
  if upper (+) cj then (low (core upper R) i j)^* else low (core upper R) i j.
Proof.
  rewrite /lowview /low /lowerTri /velt /core /trm.
  by case: upper; case: cj => /=; case: ifP; rewrite ?conjCK ?rmorph0.
Qed.

Section Blocks.
Variables tb tb2 nb nb2 : nat.
Hypothesis tbP : (0 < tb)%N.
Hypothesis tb2P : (0 < tb2)%N.
Hypothesis nbP : (0 < nb)%N.
Hypothesis nb2P : (0 < nb2)%N.

Lemma chfactsP upper cj N raw V : hermok N raw -> chinv N N (core upper raw) V ->
  chfacts upper cj N raw (core upper V).
Proof.
  move=> Hr H.
  have Hr2 : hermok N (core upper raw) by rewrite /core /trm; case: (upper).
  split.
  - apply/matrixP => i j; rewrite mxE [RHS]mxE (hermview_core upper cj Hr (ltn_ord i) (ltn_ord j)).
    rewrite (hermlowE H Hr2 (ltn_ord i) (ltn_ord j)) leqNgt ltn_ord /= addr0 big_mkord.
    transitivity (\sum_(k < N) lowview upper cj (core upper V) i k * (lowview upper cj (core upper V) j k)^*).
      by apply: eq_bigr => k _; rewrite !mxE.
    have Ec : core upper (core upper V) = V by rewrite /core; case: (upper).
    have -> : \sum_(k < N) lowview upper cj (core upper V) i k * (lowview upper cj (core upper V) j k)^* =
       \sum_(k < N) (if upper (+) cj then (low V i k)^* * low V j k else low V i k * (low V j k)^*).
      by apply: eq_bigr => k _; rewrite !lowview_core Ec; case: ifP; rewrite ?conjCK.
    case: ifP => E; last by [].
    by rewrite rmorph_sum; apply: eq_bigr => k _; rewrite rmorphM /= conjCK.
  - by move=> i Hi; rewrite /core /trm; case: (upper); exact: (ci_pos H).
  - move=> i j Hij; move: (@ci_out _ _ _ _ _ H i j) (@ci_out _ _ _ _ _ H j i); rewrite /core /trm.
    case: (upper) Hij => Hij h1 h2; [rewrite h2 | rewrite h1] => //; lia.
Qed.

Lemma CH_DecomposeP iscm stA stB upper cj N raw : hermok N raw ->
  post (fun R => chfacts upper cj N raw R /\ posdef N (hermview upper cj raw))
       (fun e => e = NonPosDef /\ ~ posdef N (hermview upper cj raw))
       (CH_Decompose tb tb2 nb nb2 iscm stA stB upper cj N raw).
Proof.
  move=> Hr; have Hr2 : hermok N (core upper raw) by rewrite /core /trm; case: (upper).
  have key : chpost N (core upper raw)
      (if (0 < N)%N then RecCH tb tb2 nb nb2 N.+1 iscm stA stB N (core upper raw) else Ok (core upper raw)).
    case: ltnP => h; first by apply: RecCHP.
    by have -> : N = 0%N by lia; apply: chinv0 => i; lia.
  have P1 V : chinv N N (core upper raw) V -> chfacts upper cj N raw (core upper V) /\ posdef N (hermview upper cj raw).
    move=> H; split; first exact: chfactsP.
    by apply/(posdef_core upper cj Hr); exact: chspec_pd H Hr2.
  have P2 e : e = NonPosDef /\ notPD N (core upper raw) -> e = NonPosDef /\ ~ posdef N (hermview upper cj raw).
    by case=> -> h; split=> //; move/(posdef_core upper cj Hr); exact: pd_notPD.
  rewrite /CH_Decompose; case: upper key P1 P2 {Hr2} => key P1 P2.
  - by apply: post_bind; apply: post_imp key.
  - by apply: post_imp key.
Qed.

Lemma adjM n (M K : 'M[C]_n) : adj (M *m K) = adj K *m adj M.
Proof.
  apply/matrixP => i j; rewrite !mxE rmorph_sum; apply: eq_bigr => k _.
  by rewrite !mxE rmorphM mulrC.
Qed.
Lemma det_adj n (M : 'M[C]_n) : \det (adj M) = (\det M)^*.
Proof.
  have -> : adj M = (map_mx (fun x : C => x^*) M)^T by apply/matrixP => i j; rewrite !mxE.
  by rewrite det_tr det_map_mx.
Qed.

Lemma lower_lowview upper cj R N : mx N N (lower false (lowerTri upper cj R)) = mx N N (lowview upper cj R).
Proof.
  apply: mx_ext => i j Hi Hj; rewrite /lower /lowview.
  by case: (ltngtP j i) => // ->; rewrite eqxx.
Qed.
Lemma upper_lowview upper cj R N : mx N N (TriSolve.upper false (upperTri upper cj R)) = adj (mx N N (lowview upper cj R)).
Proof.
  apply/matrixP => i j; rewrite !mxE /TriSolve.upper /lowview /lowerTri /upperTri.
  case: (ltngtP i j) => h; rewrite ?rmorph0 //; first by case: upper; rewrite ?conjCK.
  by case: upper; rewrite ?conjCK h.
Qed.

Section Div.
Variables (upper cj : bool) (N : nat) (raw R : fm C).
Hypothesis H : chfacts upper cj N raw R.

Lemma diag_ne e : ~ zero_diag false N (lowerTri upper cj R) e.
Proof.
  case: H => _ Hp _ [_ [_ [i [Hi /eqP E]]]]; move: E; rewrite /lowerTri /velt.
  by case: (upper); case: (cj); rewrite ?conjC_eq0 gt_eqF ?Hp.
Qed.
Lemma diag_ne2 e : ~ zero_diag false N (upperTri upper cj R) e.
Proof.
  case: H => _ Hp _ [_ [_ [i [Hi /eqP E]]]]; move: E; rewrite /upperTri /velt.
  by case: (upper); case: (cj); rewrite ?conjC_eq0 gt_eqF ?Hp.
Qed.

Lemma CH_LDivEqP stA stB K m :
  exists X, [/\ CH_LDivEq tb tb2 stA stB upper cj N K R m = Ok X,
    mx N N (hermview upper cj raw) *m mx N K X = mx N K m & framed N K X m].
Proof.
  rewrite /CH_LDivEq.
  have := TriLDivEqMLP tbP tb2P stA stB false N K (lowerTri upper cj R) m.
  case: (TriLDivEqML _ _ _ _ _ _ _ _ _) => [Y|e|] //=; last by move/diag_ne.
  case=> h1 f1.
  have := TriLDivEqMUP tbP tb2P stA stB false N K (upperTri upper cj R) Y.
  case: (TriLDivEqMU _ _ _ _ _ _ _ _ _) => [X|e|] //=; last by move/diag_ne2.
  case=> h2 f2; exists X; split=> //; last by move=> r c Hrc; rewrite f2 // f1.
  move/(mx_mulP N N K): h1; rewrite lower_lowview => <-.
  move/(mx_mulP N N K): h2; rewrite upper_lowview => <-.
  by case: H => <- _ _; rewrite mulmxA.
Qed.

Lemma CH_RDivEqP stA stB K m :
  exists X, [/\ CH_RDivEq tb tb2 stA stB upper cj N K R m = Ok X,
    mx K N X *m mx N N (hermview upper cj raw) = mx K N m &
    forall c i, ~~ ((c < K)%N && (i < N)%N) -> X c i = m c i].
Proof.
  rewrite /CH_RDivEq.
  have := C26_matrix_right true stA stB false N K (upperTri upper cj R) m tbP tb2P.
  case: (TriRDivEqM _ _ _ _ _ _ _ _ _ _) => [Y|e|] //=; last by move/diag_ne2.
  case=> h1 f1.
  have := C26_matrix_right false stA stB false N K (lowerTri upper cj R) Y tbP tb2P.
  case: (TriRDivEqM _ _ _ _ _ _ _ _ _ _) => [X|e|] //=; last by move/diag_ne.
  case=> h2 f2; exists X; split=> //; last by move=> r c Hrc; rewrite f2 // f1.
  move/(mx_mulP K N N): h1; rewrite upper_lowview => <-.
  move/(mx_mulP K N N): h2; rewrite lower_lowview => <-.
  by case: H => <- _ _; rewrite mulmxA.
Qed.

Lemma CH_InverseP : exists X, CH_Inverse tb upper cj N R = Ok X /\
  mx N N X *m mx N N (hermview upper cj raw) = 1%:M /\ mx N N (hermview upper cj raw) *m mx N N X = 1%:M.
Proof.
  rewrite /CH_Inverse; have := C26_inverse_lower false N (lowerTri upper cj R) tbP.
  case: (TriInverseL _ _ _ _) => [L|e|] //=; last by move/diag_ne.
  case=> h1 _; pose X : fm C := fun i j => \sum_(0 <= k < N) (lower false L k i)^* * lower false L k j.
  exists X; split; first by [].
  have EX : mx N N X = adj (mx N N (lower false L)) *m mx N N (lower false L).
    by apply/matrixP => i j; rewrite !mxE /X big_mkord; apply: eq_bigr => k _; rewrite !mxE.
  have E1 : mx N N (lower false L) *m mx N N (lowview upper cj R) = 1%:M.
    rewrite -lower_lowview; apply/matrixP => i j; rewrite !mxE.
    case: (h1 i j (ltn_ord i) (ltn_ord j)) => _; rewrite -val_eqE => <-.
    by apply: eq_bigr => k _; rewrite !mxE.
  have E2 := mulmx1C E1.
  have E3 : adj (mx N N (lower false L)) *m adj (mx N N (lowview upper cj R)) = 1%:M.
    by rewrite -adjM E2; apply/matrixP => i j; rewrite !mxE eq_sym rmorph_nat.
  have E : mx N N X *m mx N N (hermview upper cj raw) = 1%:M.
    case: H => <- _ _; rewrite EX -mulmxA (mulmxA (mx N N (lower false L))) E1 mul1mx.
    exact: E3.
  by split=> //; exact: mulmx1C.
Qed.

Lemma CH_detP : CH_det N R = \det (mx N N (hermview upper cj raw)).
Proof.
  case: H => E Hp _; rewrite -E det_mulmx det_adj.
  have -> : \det (mx N N (lowview upper cj R)) = \prod_(0 <= i < N) R i i.
    rewrite det_trig; last first.
      by apply/is_trig_mxP => i j h; rewrite mxE /lowview leqNgt h.
    rewrite big_mkord; apply: eq_bigr => i _; rewrite mxE /lowview leqnn /lowerTri /velt.
    by have h := realcj (gtr0_real (Hp i (ltn_ord i))); case: (upper); case: (cj); rewrite ?h.
  rewrite /CH_det expr2; congr (_ * _); rewrite realcj // gtr0_real // big_mkord prodr_gt0 // => i _.
  exact: Hp.
Qed.
End Div.
End Blocks.
End Proofs.
