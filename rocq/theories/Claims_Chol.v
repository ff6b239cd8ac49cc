(** C30: Cholesky decomposition. *)
From Coq Require Import Ring Field.
From Verif Require Import Base FMat TriSolve TriInv RingTac Cplx Chol LUDiv CholDiv.
From mathcomp Require Import all_ssreflect all_fingroup all_algebra all_field zify.
Set Implicit Arguments. Unset Strict Implicit. Unset Printing Implicit Defensive.
Import GRing.Theory Num.Theory Order.Theory.
Local Open Scope ring_scope.

(** Reading the statements: [raw] is the array of stored values; [hermview up cj raw]
    is the hermitian matrix the view shows (upper or lower triangle stored, conjugated
    view or not); [lowview up cj R] the lower triangular matrix the view shows;
    [hermok] says the stored diagonal is real (isHermOK); [posdef N H] that
    x H x^dagger > 0 for every x with a nonzero entry. *)

(** A successful call leaves L with L L^dagger = A and a positive diagonal, and touches
    nothing but the stored triangle; the only exception is NonPosDef. *)
Theorem C30_decompose (C : numClosedFieldType) (tb tb2 nb nb2 : nat) (iscm : bool) (stA stB : stor)
    (up cj : bool) (N : nat) (raw : fm C) :
  (0 < tb)%N -> (0 < tb2)%N -> (0 < nb)%N -> (0 < nb2)%N -> hermok N raw ->
  match CH_Decompose tb tb2 nb nb2 iscm stA stB up cj N raw with
  | Ok R => mx N N (lowview up cj R) *m adj (mx N N (lowview up cj R)) = mx N N (hermview up cj raw) /\
            (forall i, (i < N)%N -> 0 < lowview up cj R i i) /\
            (forall i j, ~~ ((if up then i <= j else j <= i)%N && (i < N)%N && (j < N)%N) -> R i j = raw i j)
  | Throw e => e = NonPosDef
  | UB => False
  end.
Proof.
  move=> h1 h2 h3 h4 Hr; have := CH_DecomposeP h1 h2 h3 h4 iscm stA stB up cj Hr.
  case: (CH_Decompose _ _ _ _ _ _ _ _ _ _ _) => [R|e|] //=; last by case.
  case=> [[f1 f2 f3] _]; split=> //; split=> // i Hi.
  have h := f2 i Hi; rewrite /lowview leqnn /lowerTri /velt.
  by case: (up); case: (cj); rewrite ?(realcj (gtr0_real h)).
Qed.
Print Assumptions C30_decompose.

(** It succeeds exactly on the positive definite matrices. *)
Theorem C30_posdef (C : numClosedFieldType) (tb tb2 nb nb2 : nat) (iscm : bool) (stA stB : stor)
    (up cj : bool) (N : nat) (raw : fm C) :
  (0 < tb)%N -> (0 < tb2)%N -> (0 < nb)%N -> (0 < nb2)%N -> hermok N raw ->
  (exists R, CH_Decompose tb tb2 nb nb2 iscm stA stB up cj N raw = Ok R) <-> posdef N (hermview up cj raw).
Proof.
  move=> h1 h2 h3 h4 Hr; have := CH_DecomposeP h1 h2 h3 h4 iscm stA stB up cj Hr.
  case: (CH_Decompose _ _ _ _ _ _ _ _ _ _ _) => [R|e|] //=; case=> [H1 H2]; first by split=> // _; exists R.
  by split=> [[R]|/H2].
Qed.
Print Assumptions C30_posdef.

(** Division by a positive definite matrix returns the solution, without throwing. *)
Theorem C30_divide (C : numClosedFieldType) (tb tb2 nb nb2 : nat) (iscm : bool) (stA stB st1 st2 : stor)
    (up cj : bool) (N K : nat) (raw R m : fm C) :
  (0 < tb)%N -> (0 < tb2)%N -> (0 < nb)%N -> (0 < nb2)%N -> hermok N raw ->
  CH_Decompose tb tb2 nb nb2 iscm stA stB up cj N raw = Ok R ->
  (exists X, [/\ CH_LDivEq tb tb2 st1 st2 up cj N K R m = Ok X,
    mx N N (hermview up cj raw) *m mx N K X = mx N K m &
    forall i c, ~~ ((i < N)%N && (c < K)%N) -> X i c = m i c]) /\
  (exists X, [/\ CH_RDivEq tb tb2 st1 st2 up cj N K R m = Ok X,
    mx K N X *m mx N N (hermview up cj raw) = mx K N m &
    forall c i, ~~ ((c < K)%N && (i < N)%N) -> X c i = m c i]).
Proof.
  move=> h1 h2 h3 h4 Hr E; have := CH_DecomposeP h1 h2 h3 h4 iscm stA stB up cj Hr; rewrite E => -[Hf _].
  by split; [exact: CH_LDivEqP | exact: CH_RDivEqP].
Qed.
Print Assumptions C30_divide.

(** The inverse and the determinant obtained from the decomposition. *)
Theorem C30_inverse_det (C : numClosedFieldType) (tb tb2 nb nb2 : nat) (iscm : bool) (stA stB : stor)
    (up cj : bool) (N : nat) (raw R : fm C) :
  (0 < tb)%N -> (0 < tb2)%N -> (0 < nb)%N -> (0 < nb2)%N -> hermok N raw ->
  CH_Decompose tb tb2 nb nb2 iscm stA stB up cj N raw = Ok R ->
  (exists X, CH_Inverse tb up cj N R = Ok X /\
     mx N N X *m mx N N (hermview up cj raw) = 1%:M /\ mx N N (hermview up cj raw) *m mx N N X = 1%:M) /\
  CH_det N R = \det (mx N N (hermview up cj raw)).
Proof.
  move=> h1 h2 h3 h4 Hr E; have := CH_DecomposeP h1 h2 h3 h4 iscm stA stB up cj Hr; rewrite E => -[Hf _].
  by split; [exact: CH_InverseP Hf | exact: CH_detP Hf].
Qed.
Print Assumptions C30_inverse_det.

(** All the algorithms give the same factor: it is unique. *)
Theorem C30_unique (C : numClosedFieldType) (tb tb2 nb nb2 tb' tb2' nb' nb2' : nat) (iscm iscm' : bool)
    (stA stB stA' stB' : stor) (up cj : bool) (N : nat) (raw R R' : fm C) :
  (0 < tb)%N -> (0 < tb2)%N -> (0 < nb)%N -> (0 < nb2)%N ->
  (0 < tb')%N -> (0 < tb2')%N -> (0 < nb')%N -> (0 < nb2')%N -> hermok N raw ->
  CH_Decompose tb tb2 nb nb2 iscm stA stB up cj N raw = Ok R ->
  CH_Decompose tb' tb2' nb' nb2' iscm' stA' stB' up cj N raw = Ok R' ->
  forall i j, R i j = R' i j.
Proof.
  move=> h1 h2 h3 h4 k1 k2 k3 k4 Hr E E'.
  have Hr2 : hermok N (core up raw) by rewrite /core /trm; case: (up).
  have key tb0 tb20 nb0 nb20 ic sA sB V : (0 < tb0)%N -> (0 < tb20)%N -> (0 < nb0)%N -> (0 < nb20)%N ->
    CH_Decompose tb0 tb20 nb0 nb20 ic sA sB up cj N raw = Ok V -> exists2 W, V = core up W & chinv N N (core up raw) W.
    move=> g1 g2 g3 g4; rewrite /CH_Decompose.
    have g : chpost N (core up raw)
      (if (0 < N)%N then RecCH tb0 tb20 nb0 nb20 N.+1 ic sA sB N (core up raw) else Ok (core up raw)).
      case: ltnP => h; first by apply: RecCHP.
      by have -> : N = 0%N by lia; apply: chinv0 => i; lia.
    move: g; rewrite /core; case: (up).
      case: ifP => _; first by case: (RecCH _ _ _ _ _ _ _ _ _ _) => [W|e|] //= H [<-]; exists W.
      by move=> /= H [<-]; exists (trm raw).
    case: ifP => _; first by case: (RecCH _ _ _ _ _ _ _ _ _ _) => [W|e|] //= H [<-]; exists W.
    by move=> /= H [<-]; exists raw.
  have [W -> HW] := key _ _ _ _ _ _ _ _ h1 h2 h3 h4 E.
  have [W' -> HW'] := key _ _ _ _ _ _ _ _ k1 k2 k3 k4 E'.
  suff S : forall i j, W i j = W' i j by move=> i j; rewrite /core /trm; case: (up); apply: S.
  have col : forall j i, (j <= i)%N -> (i < N)%N -> W i j = W' i j.
    elim/ltn_ind => j IH.
    have Ed : (j < N)%N -> W j j = W' j j.
      move=> Hj; have := ci_eq HW (leqnn j) Hj; rewrite (ci_eq HW' (leqnn j) Hj).
      have -> : minn N j.+1 = j.+1 by lia.
      have -> : (N <= j)%N = false by lia. rewrite !addr0 !big_nat_recr //=.
      have -> : \sum_(0 <= t < j) W' j t * (W' j t)^* = \sum_(0 <= t < j) W j t * (W j t)^*.
        by apply: eq_big_nat => t ht; rewrite IH //; lia.
      move/addrI; rewrite -!normCK => /eqP.
      have p1 := ci_pos HW Hj; have p2 := ci_pos HW' Hj.
      by rewrite eqr_expn2 ?normr_ge0 // !gtr0_norm // => /eqP.
    move=> i Hi HN; have Hj : (j < N)%N by lia.
    have := ci_eq HW Hi HN; rewrite (ci_eq HW' Hi HN).
    have -> : minn N j.+1 = j.+1 by lia.
    have -> : (N <= j)%N = false by lia. rewrite !addr0 !big_nat_recr //=.
    have -> : \sum_(0 <= t < j) W' i t * (W' j t)^* = \sum_(0 <= t < j) W i t * (W j t)^*.
      by apply: eq_big_nat => t ht; rewrite !IH //; lia.
    move/addrI; rewrite -(Ed Hj) => /mulIf -> //.
    by rewrite conjC_eq0 gt_eqF // (ci_pos HW).
  move=> i j; case E1 : ((j <= i)%N && (i < N)%N); first by apply: col; lia.
  by rewrite (ci_out HW) ?(ci_out HW') ?E1.
Qed.
Print Assumptions C30_unique.

(** With TMV_BLOCKSIZE defined as 1 the second constant is 0, and the recursion on a
    1x1 matrix calls itself with the same matrix: no depth is enough. *)
Theorem C30_blocksize1_refuted (C : numClosedFieldType) (tb tb2 nb : nat) (iscm : bool) (stA stB : stor) :
  forall fuel (A : fm C), RecCH tb tb2 nb 0 fuel iscm stA stB 1 A = UB.
Proof.
  elim=> [|f IH] A //=; have -> : halve nb 1 = 0%N by [].
  have [->|->] : RecCH tb tb2 nb 0 f iscm stA stB 0 A = UB \/ RecCH tb tb2 nb 0 f iscm stA stB 0 A = Ok A.
    by case: (f) => [|g]; [left | right].
  - by [].
  - by rewrite /= subn0 IH.
Qed.
Print Assumptions C30_blocksize1_refuted.

(** Non-vacuity: [[4, -2i], [2i, 5]], decomposed into [[2, 0], [i, 2]], and
    [[1, 2], [2, 1]], refused. *)
Definition ex_ch : fm algC := fun i j =>
  if (i == 0%N) && (j == 0%N) then 4%:R else if (i == 1%N) && (j == 0%N) then 2%:R * 'i
  else if (i == 1%N) && (j == 1%N) then 5%:R else 0.
Definition ex_ch2 : fm algC := fun i j =>
  if (i == 1%N) && (j == 0%N) then 2%:R else if i == j then 1 else 0.
Example ex_ch_ok : hermok 2 ex_ch /\ hermok 2 ex_ch2.
Proof. by split=> i; case: i => [|[|]] // _; rewrite /ex_ch /ex_ch2 /= ?realn ?real1. Qed.

Lemma sqrt4 : sqrtC 4%:R = 2%:R :> algC.
Proof. by rewrite (_ : 4%:R = 2%:R ^+ 2) ?sqrCK ?ler0n // -natrX. Qed.

Example ex_ch_decomposed : exists2 R, CH_Decompose 64 2 64 2 true CM CM false false 2 ex_ch = Ok R &
  [/\ R 0%N 0%N = 2%:R, R 1%N 0%N = 'i & R 1%N 1%N = 2%:R].
Proof.
  rewrite /CH_Decompose /= /ex_ch /= /updm /=.
  rewrite (realre (realn _ 4)) (realre (realn _ 5)) /chk.
  rewrite (_ : (4%:R <= 0 :> algC) = false); last by rewrite lern0.
  rewrite sqrt4 /= (realre (realn _ 2)).
  have E : 2%:R * 'i / 2%:R = 'i :> algC by rewrite mulrAC mulfV ?mul1r // pnatr_eq0.
  rewrite E tNORM_norm normCi expr1n (_ : 5%:R - 1 = 4%:R :> algC); last by rewrite -(natrB _ (isT : (1 <= 5)%N)).
  rewrite (_ : (4%:R <= 0 :> algC) = false); last by rewrite lern0.
  by rewrite sqrt4 /=; eexists.
Qed.
Example ex_ch_refused : CH_Decompose 64 2 64 2 true CM CM false false 2 ex_ch2 = Throw NonPosDef.
Proof.
  rewrite /CH_Decompose /= /ex_ch2 /= /updm /=.
  rewrite (realre (real1 _)) /chk (_ : (1 <= 0 :> algC) = false); last by rewrite ler10.
  rewrite sqrtC1 /= (realre (real1 _)) divr1 tNORM_norm normr_nat -natrX ifT //.
  by rewrite subr_le0 ler1n.
Qed.
