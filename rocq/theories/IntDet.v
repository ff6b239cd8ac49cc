(** The integer determinant: IntegerDet and Bareiss_1x1_IntegerDet,
    src/TMV_IntegerDet.cpp:89-269.  The code holds integers in long double
    variables; here a field F in which the integers (any subring of F) lie, with
    exact operations.  [absLt x y] is TMV_ABS2(x) < TMV_ABS2(y) and [isUnity] the
    helper of that name (59-60, 81-82); every theorem holds for all choices of these
    two functions.  [isZero] (62-63, 84-85), |x| < 0.1, is x = 0 on integers, and
    [convert] (56-57, 73-78) is the identity on them. *)
From Coq Require Import Ring Field.
From Verif Require Import Base FMat RowPerm RingTac.
From mathcomp Require Import all_ssreflect all_fingroup all_algebra zify.
Set Implicit Arguments. Unset Strict Implicit. Unset Printing Implicit Defensive.
Import GRing.Theory.
Local Open Scope ring_scope.

Section IntDet.
Variable F : fieldType.
Add Field Ff : (mc_ft F).
Ltac mfield := mcnorm F; field.
Variables (absLt : F -> F -> bool) (isUnity : F -> bool).
Implicit Types (A B : fm F).

(** The search for the smallest non-zero element, 187-202.  The inner loop stops at
    a unit; the outer one before its next column. *)
Fixpoint scanCol A (j : nat) (l : seq nat) (p : nat * nat) : nat * nat :=
  match l with
  | [::] => p
  | i :: l' =>
    if absLt (A i j) (A p.1 p.2) && (A i j != 0)
    then (if isUnity (A i j) then (i, j) else scanCol A j l' (i, j))
    else scanCol A j l' p
  end.
Fixpoint scanCols A (rows l : seq nat) (p : nat * nat) : nat * nat :=
  match l with
  | [::] => p
  | j :: l' => if isUnity (A p.1 p.2) then p else scanCols A rows l' (scanCol A j rows p)
  end.

(** SimpleMatrix::swapRows, swapCols: whole rows and columns. *)
Definition xrows (a b : nat) A : fm F := fun i j => A (tsw a b i) j.
Definition xcols (a b : nat) A : fm F := fun i j => A i (tsw a b j).

(** The elimination step, 216-225 (both double loops: no element that is written is
    read for another one). *)
Definition elim1 (k N : nat) A : fm F := fun i j =>
  if (k < i < N)%N && (k < j < N)%N then A k k * A i j - A i k * A k j else A i j.
Definition div1 (k N : nat) A : fm F := fun i j =>
  if (k < i < N)%N && (k < j < N)%N then A i j / A k.-1 k.-1 else A i j.

(** One turn of the loop over k, 182-226: None is "return 0". *)
Definition bstep (N k : nat) (s : fm F * F) : option (fm F * F) :=
  let: (A, det) := s in
  let imin := addn k (find (fun i => A i k != 0) (iota k (N - k))) in
  if imin == N then None
  else
    let rows := iota k (N - k) in
    let: (imin, jmin) := scanCols A rows rows (imin, k) in
    if A imin jmin == 0 then None
    else
      let: (A, det) := if imin != k then (xrows imin k A, - det) else (A, det) in
      let: (A, det) := if jmin != k then (xcols jmin k A, - det) else (A, det) in
      let A := elim1 k N A in
      Some (if (0 < k)%N then div1 k N A else A, det).

(** The state after the first n turns. *)
Fixpoint brun (N n : nat) (s : fm F * F) : option (fm F * F) :=
  match n with
  | 0 => Some s
  | n'.+1 => match brun N n' s with None => None | Some s' => bstep N n' s' end
  end.

Definition Bareiss (N : nat) A0 : F :=
  match brun N N.-1 (A0, 1) with
  | None => 0
  | Some (A, det) => det * A N.-1 N.-1
  end.

(** IntegerDet, 236-254. *)
Definition IntegerDet (N : nat) A : F :=
  match N with
  | 0 => 1
  | 1 => A 0%N 0%N
  | 2 => A 0%N 0%N * A 1%N 1%N - A 0%N 1%N * A 1%N 0%N
  | 3 => A 0%N 0%N * (A 1%N 1%N * A 2%N 2%N - A 1%N 2%N * A 2%N 1%N) -
         A 0%N 1%N * (A 1%N 0%N * A 2%N 2%N - A 1%N 2%N * A 2%N 0%N) +
         A 0%N 2%N * (A 1%N 0%N * A 2%N 1%N - A 1%N 1%N * A 2%N 0%N)
  | _ => Bareiss N A
  end.

(** ** Proofs *)
Notation mxf N A := (\matrix_(i < N, j < N) A (nat_of_ord i) (nat_of_ord j)).

Lemma scanColP A j l p (ok : nat * nat -> Prop) :
  (forall i, i \in l -> A i j != 0 -> ok (i, j)) -> ok p -> ok (scanCol A j l p).
Proof.
  elim: l p => [//|i l IH] p H Hp /=.
  case: ifP => [/andP [_ h]|_]; last by apply: IH => // a Ha; apply: H; rewrite inE Ha orbT.
  have h2 := H i (mem_head _ _) h.
  by case: ifP => _ //; apply: IH => // a Ha; apply: H; rewrite inE Ha orbT.
Qed.
Lemma scanColsP A rows l p (ok : nat * nat -> Prop) :
  (forall i j, i \in rows -> j \in l -> A i j != 0 -> ok (i, j)) -> ok p -> ok (scanCols A rows l p).
Proof.
  elim: l p => [//|j l IH] p H Hp /=; case: ifP => _ //.
  apply: IH => [i c Hi Hc|]; first by apply: H => //; rewrite inE Hc orbT.
  by apply: scanColP => // i Hi; apply: H => //; exact: mem_head.
Qed.

Lemma tsw_ord N (a b : 'I_N) (i : 'I_N) : nat_of_ord (tperm a b i) = tsw a b i.
Proof.
  rewrite /tsw; case: tpermP => [->|->|/eqP h1 /eqP h2]; rewrite ?eqxx //.
  - by case: eqP.
  - have -> : (nat_of_ord i == a) = false by apply: negbTE; rewrite -(inj_eq val_inj) in h1.
    by have -> : (nat_of_ord i == b) = false by apply: negbTE; rewrite -(inj_eq val_inj) in h2.
Qed.

Lemma det_xrows N a b A : (a < N)%N -> (b < N)%N -> a != b -> \det (mxf N (xrows a b A)) = - \det (mxf N A).
Proof.
  move=> Ha Hb Hab.
  have -> : mxf N (xrows a b A) = row_perm (tperm (Ordinal Ha) (Ordinal Hb)) (mxf N A).
    by apply/matrixP => i j; rewrite !mxE tsw_ord.
  by rewrite row_permE det_mulmx det_perm odd_tperm -(inj_eq val_inj) /= Hab mulN1r.
Qed.
Lemma det_xcols N a b A : (a < N)%N -> (b < N)%N -> a != b -> \det (mxf N (xcols a b A)) = - \det (mxf N A).
Proof.
  move=> Ha Hb Hab; rewrite -det_tr.
  have -> : (mxf N (xcols a b A))^T = mxf N (xrows a b (trm A)) by apply/matrixP => i j; rewrite !mxE.
  rewrite det_xrows // -[in RHS]det_tr; congr (- \det _).
  by apply/matrixP => i j; rewrite !mxE.
Qed.

(** Subrings. *)
Section Sub.
Variable S : {pred F}.
Hypothesis HS : subring_closed S.
Let S1 : 1 \in S. Proof. by case: HS. Qed.
Let SB x y : x \in S -> y \in S -> x - y \in S. Proof. by case: HS => _ h _; apply: h. Qed.
Let SM x y : x \in S -> y \in S -> x * y \in S. Proof. by case: HS => _ _ h; apply: h. Qed.
Let S0 : 0 \in S. Proof. by rewrite -(subrr 1); apply: SB. Qed.
Let SN x : x \in S -> - x \in S. Proof. by move=> h; rewrite -sub0r; apply: SB. Qed.
Let SD x y : x \in S -> y \in S -> x + y \in S.
Proof. by move=> hx hy; rewrite -[y]opprK; apply: SB => //; apply: SN. Qed.

Lemma det_sub n (M : 'M[F]_n) : (forall i j, M i j \in S) -> \det M \in S.
Proof.
  move=> H; rewrite /determinant.
  apply: (big_ind (fun x => x \in S)) => // s _; apply: SM.
    by case: (odd_perm s); rewrite ?expr0 ?expr1 //; apply: SN.
  by apply: (big_ind (fun x => x \in S)).
Qed.

(** The previous pivot. *)
Definition prevp (k : nat) A : F := if k is k'.+1 then A k' k' else 1.

(** After k turns: B is A0 with some rows and columns exchanged; A/prevp is its
    Schur complement. *)
Record binv (N : nat) A0 (k : nat) (s : fm F * F) (B L U : fm F) : Prop := BInv {
  bi_sub : forall i j, (i < N)%N -> (j < N)%N -> B i j \in S;
  bi_det : s.2 * \det (mxf N B) = \det (mxf N A0);
  bi_sgn : s.2 \in S;
  bi_unit : s.2 != 0;
  bi_low : forall a m, (a <= m < k)%N -> L a m = (a == m)%:R;
  bi_upp : forall m b, (b < m < k)%N -> U m b = 0;
  bi_piv : forall t, (t <= k)%N -> \prod_(0 <= m < t) U m m = prevp t s.1;
  bi_nz : prevp k s.1 != 0;
  bi_sch : forall a b, (a < N)%N -> (b < N)%N ->
    B a b = \sum_(0 <= m < k) L a m * U m b +
            (if (k <= a)%N && (k <= b)%N then s.1 a b / prevp k s.1 else 0) }.

(** Each element still to be eliminated is a minor of B. *)
Definition bord (k i x : nat) : nat := if (x < k)%N then x else i.
Lemma minorP N A0 k s B L U i j : binv N A0 k s B L U -> (k <= i < N)%N -> (k <= j < N)%N ->
  s.1 i j = \det (\matrix_(a < k.+1, b < k.+1) B (bord k i a) (bord k j b)).
Proof.
  move=> H Hi Hj.
  pose L1 : 'M[F]_k.+1 := \matrix_(a < k.+1, m < k.+1) (if (m < k)%N then L (bord k i a) m else (a == m)%:R).
  pose U1 : 'M[F]_k.+1 := \matrix_(m < k.+1, b < k.+1)
     (if (m < k)%N then U m (bord k j b) else if (b < k)%N then 0 else s.1 i j / prevp k s.1).
  have -> : \matrix_(a < k.+1, b < k.+1) B (bord k i a) (bord k j b) = L1 *m U1.
    apply/matrixP => a b; rewrite !mxE big_ord_recr /= !mxE /= ltnn.
    have ha : (bord k i a < N)%N by rewrite /bord; case: ifP; lia.
    have hb : (bord k j b < N)%N by rewrite /bord; case: ifP; lia.
    rewrite (bi_sch H ha hb) big_mkord; congr (_ + _).
      by apply: eq_bigr => m _; rewrite !mxE /= ltn_ord.
    have -> : (k <= bord k i a)%N = (a == ord_max).
      rewrite /bord -(inj_eq val_inj) /=; have := ltn_ord a; case: ifP => h1 h2; lia.
    have hb2 : (k <= bord k j b)%N = ~~ (b < k)%N by rewrite /bord; case: ifP => h1; lia.
    rewrite hb2; case: (a =P ord_max) => [Ea|Ea] /=; last by rewrite mul0r.
    rewrite mul1r; case: (ltnP b k) => h1 //=.
    have -> : bord k i a = i by rewrite /bord Ea /= ltnn.
    by rewrite /bord ltnNge h1.
  rewrite det_mulmx.
  have -> : \det L1 = 1.
    rewrite det_trig; last first.
      apply/is_trig_mxP => a m Ham; rewrite mxE; case: ifP => Hm.
        rewrite (bi_low H) /bord; last by case: ifP; lia.
        by case: ifP => h; case: eqP => // ?; lia.
      by case: eqP => // Ea; move: Ham; rewrite Ea ltnn.
    apply: big1 => a _; rewrite mxE eqxx; case: ifP => // Ha.
    by rewrite /bord Ha (bi_low H) ?eqxx //; lia.
  rewrite mul1r -det_tr det_trig; last first.
    apply/is_trig_mxP => b m Hbm; rewrite !mxE; case: ifP => Hm.
      have Hb : (b < k)%N by lia.
      by rewrite (bi_upp H) // /bord Hb; lia.
    by case: ifP => // Hb; have := ltn_ord m; lia.
  rewrite big_ord_recr /= !mxE /= ltnn.
  have -> : \prod_(i0 < k) U1^T (widen_ord (leqnSn k) i0) (widen_ord (leqnSn k) i0) = \prod_(0 <= m < k) U m m.
    by rewrite big_mkord; apply: eq_bigr => m _; rewrite !mxE /= ltn_ord /bord ltn_ord.
  by rewrite (bi_piv H) // mulrCA divff ?mulr1 //; exact: bi_nz H.
Qed.

Lemma rest_sub N A0 k s B L U i j : binv N A0 k s B L U -> (k <= i < N)%N -> (k <= j < N)%N -> s.1 i j \in S.
Proof.
  move=> H Hi Hj; rewrite (minorP H Hi Hj); apply: det_sub => a b; rewrite mxE.
  by apply: (bi_sub H); rewrite /bord; case: ifP; lia.
Qed.

Lemma binv0 N A0 : (forall i j, (i < N)%N -> (j < N)%N -> A0 i j \in S) ->
  binv N A0 0 (A0, 1) A0 (fun _ _ => 0) (fun _ _ => 0).
Proof.
  move=> H; split=> //=; rewrite ?mul1r ?oner_neq0 //.
  - by move=> a m; lia.
  - by move=> t; rewrite leqn0 => /eqP ->; rewrite big_geq.
  - by move=> a b _ _; rewrite big_geq // add0r divr1.
Qed.

Lemma tsw_ge_lt k N p i : (k <= p < N)%N -> (k < N)%N -> (tsw p k i < k)%N = (i < k)%N.
Proof. by rewrite /tsw => h1 h2; case: (i =P p) => h3; case: (i =P k) => h4; lia. Qed.
Lemma tsw_small k p i : (k <= p)%N -> (i < k)%N -> tsw p k i = i.
Proof. by rewrite /tsw => h1 h2; case: (i =P p) => h3; case: (i =P k) => h4; lia. Qed.

Lemma prevp_ext k A A' : (forall i, (i < k)%N -> A i i = A' i i) -> prevp k A = prevp k A'.
Proof. by case: k => [//|k] H /=; apply: H. Qed.

Lemma binv_xrows N A0 k A d B L U p : binv N A0 k (A, d) B L U -> (k < p < N)%N ->
  binv N A0 k (xrows p k A, - d) (xrows p k B) (xrows p k L) U.
Proof.
  move=> H Hp.
  have ep t : (t <= k)%N -> prevp t (xrows p k A) = prevp t A.
    by move=> Ht; apply: prevp_ext => i Hi; rewrite /xrows tsw_small //; lia.
  have hp2 : (k <= p < N)%N by lia.
  have hk : (k < N)%N by lia.
  split=> /=.
  - by move=> i j Hi Hj; apply: (bi_sub H) => //; apply: tsw_lt; lia.
  - rewrite det_xrows; [|lia|lia|by case: eqP => //; lia].
    by rewrite mulrNN; exact: (bi_det H).
  - by apply: SN; exact: bi_sgn H.
  - by rewrite oppr_eq0; exact: bi_unit H.
  - move=> a m Ham; rewrite /xrows tsw_small; [exact: (bi_low H)|lia|lia].
  - exact: bi_upp H.
  - by move=> t Ht; rewrite ep //; exact: (bi_piv H).
  - by rewrite ep //; exact: bi_nz H.
  - move=> a b Ha Hb; rewrite /xrows (bi_sch H) //=; last by apply: tsw_lt; lia.
    by rewrite -/(xrows p k A) ep // leqNgt (tsw_ge_lt _ hp2 hk) -leqNgt.
Qed.

Lemma binv_xcols N A0 k A d B L U p : binv N A0 k (A, d) B L U -> (k < p < N)%N ->
  binv N A0 k (xcols p k A, - d) (xcols p k B) L (xcols p k U).
Proof.
  move=> H Hp.
  have ep t : (t <= k)%N -> prevp t (xcols p k A) = prevp t A.
    by move=> Ht; apply: prevp_ext => i Hi; rewrite /xcols tsw_small //; lia.
  have hp2 : (k <= p < N)%N by lia.
  have hk : (k < N)%N by lia.
  split=> /=.
  - by move=> i j Hi Hj; apply: (bi_sub H) => //; apply: tsw_lt; lia.
  - rewrite det_xcols; [|lia|lia|by case: eqP => //; lia].
    by rewrite mulrNN; exact: (bi_det H).
  - by apply: SN; exact: bi_sgn H.
  - by rewrite oppr_eq0; exact: bi_unit H.
  - exact: bi_low H.
  - move=> m b Hmb; rewrite /xcols tsw_small; [exact: (bi_upp H)|lia|lia].
  - move=> t Ht; rewrite ep // -(bi_piv H) //; apply: eq_big_nat => m Hm.
    by rewrite /xcols tsw_small //; lia.
  - by rewrite ep //; exact: bi_nz H.
  - move=> a b Ha Hb; rewrite /xcols (bi_sch H) //=; last by apply: tsw_lt; lia.
    by rewrite -/(xcols p k A) ep // (leqNgt k (tsw _ _ _)) (tsw_ge_lt _ hp2 hk) -leqNgt.
Qed.

(** The elimination step. *)
Definition elimd (k N : nat) A : fm F := if (0 < k)%N then div1 k N (elim1 k N A) else elim1 k N A.

Lemma elimdE k N A i j : elimd k N A i j =
  if (k < i < N)%N && (k < j < N)%N then (A k k * A i j - A i k * A k j) / prevp k A else A i j.
Proof.
  rewrite /elimd /div1 /elim1; case: k => [|k] /=; first by case: ifP => //; rewrite divr1.
  case: ifP => [h|->] //; rewrite h.
  by have -> : (k.+1 < k < N)%N = false by lia.
Qed.

Lemma binv_step N A0 k A d B L U : binv N A0 k (A, d) B L U -> (k < N)%N -> A k k != 0 ->
  binv N A0 k.+1 (elimd k N A, d) B
    (fun a m => if m == k then (if (a < k)%N then 0 else if a == k then 1 else A a k / A k k) else L a m)
    (fun m b => if m == k then (if (b < k)%N then 0 else A k b / prevp k A) else U m b).
Proof.
  move=> H Hk Hp; have Hz := bi_nz H; rewrite /= in Hz.
  have ep t : (t <= k.+1)%N -> prevp t (elimd k N A) = prevp t A.
    by move=> Ht; apply: prevp_ext => i Hi; rewrite elimdE; case: ifP => //; lia.
  have ek : elimd k N A k k = A k k := ep k.+1 (leqnn _).
  split=> /=; first exact: bi_sub H.
  - exact: (bi_det H).
  - exact: (bi_sgn H).
  - exact: (bi_unit H).
  - move=> a m Ham; case: (m =P k) => [->|Hm]; last by apply: (bi_low H); lia.
    case: ltnP => h1; last by (have -> : a = k by lia); rewrite eqxx.
    by case: eqP => // ?; lia.
  - move=> m b Hmb; case: (m =P k) => [Em|Hm]; last by apply: (bi_upp H); lia.
    by case: ltnP => //; lia.
  - move=> t Ht; rewrite ep //; case: (ltnP t k.+1) => Htk.
      rewrite -[RHS](bi_piv H) //; apply: eq_big_nat => m Hm; case: eqP => // ?; lia.
    have -> : t = k.+1 by lia.
    rewrite big_nat_recr //= eqxx ltnn.
    have -> : \prod_(0 <= m < k) (if m == k then if (m < k)%N then 0 else A k m / prevp k A else U m m) = prevp k A.
      rewrite -[RHS](bi_piv H) //; apply: eq_big_nat => m Hm; case: eqP => // ?; lia.
    by rewrite mulrCA divff ?mulr1.
  - by rewrite ek.
  - move=> a b Ha Hb; rewrite ek (bi_sch H) //= big_nat_recr //= eqxx.
    have -> : \sum_(0 <= i < k) (if i == k then if (a < k)%N then 0 else if a == k then 1 else A a k / A k k else L a i) *
        (if i == k then if (b < k)%N then 0 else A k b / prevp k A else U i b) = \sum_(0 <= m < k) L a m * U m b.
      by apply: eq_big_nat => m Hm; case: eqP => // ?; lia.
    rewrite -addrA; congr (_ + _); rewrite elimdE.
    case: (ltnP a k) => ha /=; first by rewrite mul0r add0r; case: ltnP => //; lia.
    case: (ltnP b k) => hb /=.
      rewrite mulr0 add0r; case: (ltnP k b) => //; first by lia.
      by rewrite andbF.
    case: (a =P k) => [->|Hak]; first by rewrite ltnn mul1r addr0.
    have -> : (k < a)%N by lia.
    rewrite Ha Hb /=; case: (ltnP k b) => hkb /=.
      by mfield; split; apply/eqP.
    have -> : b = k by lia.
    by mfield; split; apply/eqP.
Qed.

(** A column of zeros: the determinant is zero. *)
Lemma binv_zero N A0 k s B L U : binv N A0 k s B L U -> (k < N)%N ->
  (forall i, (k <= i < N)%N -> s.1 i k = 0) -> \det (mxf N A0) = 0.
Proof.
  move=> H Hk Hz; rewrite -(bi_det H).
  pose W : 'M[F]_(k.+1, k) := \matrix_(b < k.+1, m < k) U m b.
  have : (0 < \rank (kermx W))%N.
    by rewrite mxrank_ker subn_gt0; apply: leq_ltn_trans (rank_leq_col W) _.
  rewrite lt0n mxrank_eq0 => /rowV0Pn [v /sub_kermxP Hv v0].
  pose x : 'rV[F]_N := \row_j (if (j < k.+1)%N then v 0 (inord j) else 0).
  have HB : x *m (mxf N B)^T = 0.
    apply/rowP => a; rewrite !mxE.
    have h : forall b : 'I_N, x 0 b * (mxf N B)^T b a =
        \sum_(0 <= m < k) L a m * ((if (b < k.+1)%N then v 0 (inord b) else 0) * U m b).
      move=> b; rewrite !mxE; case: ltnP => hb; last by rewrite mul0r big1 // => m _; rewrite mul0r mulr0.
      rewrite (bi_sch H) ?ltn_ord //.
      have -> : (if (k <= a)%N && (k <= b)%N then s.1 a b / prevp k s.1 else 0) = 0.
        case: ifP => // /andP [ha hb2]; have -> : (b : nat) = k by lia.
        by rewrite Hz ?mul0r // ha ltn_ord.
      by rewrite addr0 mulr_sumr; apply: eq_bigr => m _; rewrite mulrCA.
    rewrite (eq_bigr _ (fun b _ => h b)) exchange_big /= big_mkord big1 // => m _.
    rewrite -mulr_sumr.
    have -> : \sum_(i < N) (if (i < k.+1)%N then v 0 (inord i) else 0) * U m i = (v *m W) 0 m.
      rewrite !mxE.
      rewrite (eq_bigr (fun i : 'I_N => if (i < k.+1)%N then v 0 (inord i) * U m i else 0)); last first.
        by move=> i _; case: ifP; rewrite ?mul0r.
      rewrite -big_mkcond /= -(big_ord_widen _ (fun i => v 0 (inord i) * U m i)) //.
      by apply: eq_bigr => b _; rewrite !mxE inord_val.
    by rewrite Hv mxE mulr0.
  have -> : \det (mxf N B) = 0; last by rewrite mulr0.
  rewrite -det_tr; apply/eqP/det0P; exists x => //.
  apply: contra v0 => /eqP Hx; apply/eqP/rowP => b; rewrite mxE.
  have hb : (b < N)%N by have := ltn_ord b; lia.
  have := congr1 (fun M : 'rV[F]_N => M 0 (Ordinal hb)) Hx; rewrite !mxE /= ltn_ord => <-.
  by rewrite inord_val.
Qed.

Lemma bstepP N A0 k s B L U : binv N A0 k s B L U -> (k < N)%N ->
  match bstep N k s with
  | None => \det (mxf N A0) = 0
  | Some s' => exists B' L' U', binv N A0 k.+1 s' B' L' U' /\
      forall i j, (i < N)%N -> (j < N)%N -> (i < k)%N -> (j < k)%N -> s'.1 i j = s.1 i j
  end.
Proof.
  case: s => A d H Hk; rewrite /bstep.
  set f := find _ _; case: eqP => [Ef|Ef].
    apply: (binv_zero H) => // i Hi /=.
    have : ~~ has (fun i => A i k != 0) (iota k (N - k)).
      by rewrite has_find -/f size_iota -leqNgt; lia.
    rewrite -all_predC => /allP /(_ i) h; apply/eqP; move: h; rewrite mem_iota /= negbK; apply; lia.
  have Hf : has (fun i => A i k != 0) (iota k (N - k)).
    have := find_size (fun i => A i k != 0) (iota k (N - k)); rewrite -/f size_iota => h.
    by rewrite has_find -/f size_iota; lia.
  have hfs : (f < N - k)%N by move: Hf; rewrite has_find size_iota.
  have := nth_find 0%N Hf; rewrite nth_iota // => Hnz.
  have := @scanColsP A (iota k (N - k)) (iota k (N - k)) ((k + f)%N, k)
    (fun p => [/\ (k <= p.1 < N)%N, (k <= p.2 < N)%N & A p.1 p.2 != 0]).
  case: (scanCols _ _ _ _) => imin jmin /= h.
  have {h} [Hi Hj Ha] : [/\ (k <= imin < N)%N, (k <= jmin < N)%N & A imin jmin != 0].
    apply: h; last by split=> //; lia.
    by move=> i j; rewrite !mem_iota => h1 h2 h3; split=> //; lia.
  rewrite (negbTE Ha).
  have : exists B1 L1, [/\ binv N A0 k (if imin != k then (xrows imin k A, - d) else (A, d)) B1 L1 U,
      (if imin != k then (xrows imin k A, - d) else (A, d)).1 k jmin != 0 &
      forall i j, (i < k)%N -> (if imin != k then (xrows imin k A, - d) else (A, d)).1 i j = A i j].
    case: eqP => [E|E] /=; first by exists B, L; rewrite -{2}E.
    exists (xrows imin k B), (xrows imin k L); split.
    - by apply: binv_xrows => //; lia.
    - by rewrite /xrows /tsw eqxx; case: (k =P imin) => // Ek; case: E; rewrite Ek.
    - by move=> i j hi; rewrite /xrows tsw_small //; lia.
  case: (if imin != k then _ else _) => A1 d1 [B1 [L1 /= [H1 Ha1 Hk1]]].
  have : exists B2 U2, [/\ binv N A0 k (if jmin != k then (xcols jmin k A1, - d1) else (A1, d1)) B2 L1 U2,
      (if jmin != k then (xcols jmin k A1, - d1) else (A1, d1)).1 k k != 0 &
      forall i j, (j < k)%N -> (if jmin != k then (xcols jmin k A1, - d1) else (A1, d1)).1 i j = A1 i j].
    case: eqP => [E|E] /=; first by exists B1, U; split=> //; rewrite E in Ha1.
    exists (xcols jmin k B1), (xcols jmin k U); split.
    - by apply: binv_xcols => //; lia.
    - by rewrite /xcols /tsw eqxx; case: (k =P jmin) => // Ek; case: E; rewrite Ek.
    - by move=> i j hi; rewrite /xcols tsw_small //; lia.
  case: (if jmin != k then _ else _) => A2 d2 [B2 [U2 /= [H2 Ha2 Hk2]]].
  have H3 := binv_step H2 Hk Ha2; rewrite /elimd in H3.
  do 3 eexists; split; first exact: H3.
  move=> i j hi hj hik hjk; rewrite -/(elimd k N A2) /= elimdE.
  case: ifP => [h|_]; first lia.
  by rewrite Hk2 // Hk1.
Qed.

Lemma brunP N A0 n : (forall i j, (i < N)%N -> (j < N)%N -> A0 i j \in S) -> (n < N)%N ->
  match brun N n (A0, 1) with
  | None => \det (mxf N A0) = 0
  | Some s => exists B L U, binv N A0 n s B L U
  end.
Proof.
  move=> HA; elim: n => [|n IH] Hn /=; first by do 3 eexists; exact: binv0.
  move: IH; case: (brun N n _) => [s|] IH; last by apply: IH; lia.
  have [//|B [L [U H]]] := IH _; first lia.
  have := bstepP H; case: (bstep N n s) => [s'|]; last by apply; lia.
  by case=> [|B' [L' [U' [H' _]]]]; [lia | exists B', L', U'].
Qed.

Lemma BareissP N A0 : (0 < N)%N -> (forall i j, (i < N)%N -> (j < N)%N -> A0 i j \in S) ->
  Bareiss N A0 = \det (mxf N A0).
Proof.
  case: N => [//|n] _ HA; rewrite /Bareiss /=; have := brunP HA (ltnSn n).
  case: (brun _ _ _) => [[A d] [B [L [U H]]]|-> //].
  rewrite -(bi_det H) /=; congr (_ * _).
  have h : (n <= n < n.+1)%N by rewrite leqnn ltnSn.
  rewrite -[LHS]/((A, d).1 n n) (minorP H h h); congr (\det _).
  apply/matrixP => i j; rewrite !mxE /bord.
  have hi : (if (i < n)%N then i : nat else n) = i by have := ltn_ord i; case: ifP; lia.
  have hj : (if (j < n)%N then j : nat else n) = j by have := ltn_ord j; case: ifP; lia.
  by rewrite hi hj.
Qed.

Lemma IntegerDetP N A : (forall i j, (i < N)%N -> (j < N)%N -> A i j \in S) ->
  IntegerDet N A = \det (mxf N A).
Proof.
  case: N => [|[|[|[|N]]]] HA; last exact: BareissP.
  - by rewrite det_mx00.
  - by rewrite det_mx11 mxE.
  - rewrite (expand_det_row _ ord0) !big_ord_recl big_ord0 /cofactor !det_mx11 !mxE /= /bump /= ?add0n ?addn0 ?addn1 ?add1n.
    by mcnorm F; ring.
  - rewrite (expand_det_row _ ord0) !big_ord_recl big_ord0 /cofactor.
    rewrite !(expand_det_row _ ord0) !big_ord_recl !big_ord0 /cofactor !det_mx11 !mxE /= /bump /= ?add0n ?addn0 ?addn1 ?add1n.
    by mcnorm F; ring.
Qed.

(** Every element of every state lies in the subring. *)
Definition allS N (s : fm F * F) : Prop := forall i j, (i < N)%N -> (j < N)%N -> s.1 i j \in S.

Lemma allS_step N k s : allS N s -> (k < N)%N ->
  (forall s', bstep N k s = Some s' -> forall i j, (k < i < N)%N -> (k < j < N)%N -> s'.1 i j \in S) ->
  forall s', bstep N k s = Some s' -> allS N s'.
Proof.
  case: s => A d HA Hk Hr s' E i j Hi Hj; have := Hr _ E; move: E; rewrite /bstep.
  set f := find _ _; case: eqP => // Ef.
  have hfs : (f <= N - k)%N.
    by have := find_size (fun i => A i k != 0) (iota k (N - k)); rewrite -/f size_iota.
  have := @scanColsP A (iota k (N - k)) (iota k (N - k)) (addn k f, k)
    (fun p => (k <= p.1 < N)%N && (k <= p.2 < N)%N).
  case: (scanCols _ _ _ _) => imin jmin /= h.
  have {h} /andP [Hi1 Hj1] : (k <= imin < N)%N && (k <= jmin < N)%N.
    apply: h; last by lia.
    by move=> a b; rewrite !mem_iota => h1 h2 h3; lia.
  case: ifP => // _.
  have : allS N (if imin != k then (xrows imin k A, - d) else (A, d)).
    case: ifP => _ //= a b Ha Hb; apply: HA => //; apply: tsw_lt; lia.
  case: (if imin != k then _ else _) => A1 d1 H1.
  have : allS N (if jmin != k then (xcols jmin k A1, - d1) else (A1, d1)).
    case: ifP => _ //= a b Ha Hb; apply: H1 => //; apply: tsw_lt; lia.
  case: (if jmin != k then _ else _) => A2 d2 H2 [<-] /=.
  rewrite -/(elimd k N A2) => /(_ i j) h.
  case: (boolP ((k < i < N)%N && (k < j < N)%N)) => [/andP [h1 h2]|hn]; first exact: h.
  by rewrite elimdE (negbTE hn); apply: H2.
Qed.

Lemma brun_sub N A0 n s : (forall i j, (i < N)%N -> (j < N)%N -> A0 i j \in S) -> (n < N)%N ->
  brun N n (A0, 1) = Some s -> allS N s.
Proof.
  move=> HA; elim: n s => [|n IH] s Hn; first by case=> <-.
  have := brunP HA Hn; rewrite /=; case E: (brun N n _) => [s1|] // H1 E2.
  apply: (@allS_step N n s1 _ _ _ s E2); [by apply: IH => //; lia | lia |].
  move=> s' E3 i j Hi Hj; rewrite E3 in H1; case: H1 => B [L [U H1]].
  by apply: (rest_sub H1).
Qed.
End Sub.

Lemma brun_sign N n A0 d0 A d : brun N n (A0, d0) = Some (A, d) -> d0 = 1 \/ d0 = -1 -> d = 1 \/ d = -1.
Proof.
  elim: n A d => [|n IH] A d /=; first by case=> _ ->.
  case: (brun N n _) IH => [[A1 d1]|] // IH E Hd.
  have {IH} := IH A1 d1 erefl Hd; move: E; rewrite /bstep.
  case: eqP => // _; case: (scanCols _ _ _ _) => i j; case: ifP => // _ E H.
  by case: H E => ->; case: ifP => _; case: ifP => _ [_ <-]; rewrite ?opprK; auto.
Qed.
End IntDet.
