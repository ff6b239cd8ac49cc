(** C48: QR_Update and QR_Downdate. *)
From Coq Require Import Ring Field.
From Verif Require Import Base FMat TriSolve RingTac Cplx Chol Givens QR QRProofs QRUpdate QRUpdateProofs QRDownProofs.
From mathcomp Require Import all_ssreflect all_fingroup all_algebra all_field zify.
Set Implicit Arguments. Unset Strict Implicit. Unset Printing Implicit Defensive.
Import GRing.Theory Num.Theory Order.Theory.
Local Open Scope ring_scope.

(** * Specification *)
Section Spec.
Variable C : numClosedFieldType.
(** The matrix an upper triangular R denotes. *)
Definition tri (R : fm C) (k c : nat) : C := if (k <= c)%N then R k c else 0.
(** Elements of R^dagger R and A^dagger A. *)
Definition gramR (N : nat) (R : fm C) (c d : nat) : C := \sum_(k < N) (tri R k c)^* * tri R k d.
Definition gramA (M : nat) (A : fm C) (c d : nat) : C := \sum_(i < M) (A i c)^* * A i d.
(** |R x|^2 and |A x|^2. *)
Definition normR (N : nat) (R : fm C) (x : fv C) : C := \sum_(k < N) `|\sum_(c < N) tri R k c * x c| ^+ 2.
Definition normA (M N : nat) (A : fm C) (x : fv C) : C := \sum_(i < M) `|\sum_(c < N) A i c * x c| ^+ 2.
Definition nonzero (N : nat) (x : fv C) : Prop := exists2 c, (c < N)%N & x c != 0.
(** R^dagger R - A^dagger A is positive definite. *)
Definition posdef (M N : nat) (R A : fm C) : Prop := forall x, nonzero N x -> normA M N A x < normR N R x.
End Spec.

Section Meaning.
Variable C : numClosedFieldType.
Add Field Cfm : (mc_ft C).
Ltac mfield := mcnorm C; field.
Ltac mring := mcnorm C; ring.
Variables M N : nat.
Implicit Types (A R Ra Rb Aa Ab : fm C) (z : fv C).
Notation L := (N + M)%N.

Lemma unit_dot (U : 'M[C]_L) (x y : 'cV[C]_L) : unit_mx U -> ctr (U *m x) *m (U *m y) = ctr x *m y.
Proof. by move=> h; rewrite ctrM mulmxA -(mulmxA (ctr x)) h mulmx1. Qed.
Lemma dotE (S T : fm C) c d : (ctr (colv L S c) *m colv L T d) 0 0
  = \sum_(0 <= i < N) (S i c)^* * T i d + \sum_(0 <= i < M) (S (N + i)%N c)^* * T (N + i)%N d.
Proof.
  rewrite mxE -(sumL M N (fun i => (S i c)^* * T i d)); apply: eq_bigr => i _; by rewrite !mxE.
Qed.
Lemma se_top R A i c : (i < N)%N -> se N R A i c = tri R i c.
Proof. by rewrite /se /tri => ->. Qed.
Lemma se_bot R A i c : se N R A (N + i)%N c = A i c.
Proof. by rewrite /se ltnNge leq_addr /= addKn. Qed.

Lemma upd_gram Ra Aa Rb Ab z c d : upd M N 0 N N Ra Aa Rb Ab z -> (c < N)%N -> (d < N)%N ->
  gramR N Rb c d = gramR N Ra c d + gramA M Aa c d.
Proof.
  move=> U hc hd; have V := Pr_unit (u_unit U).
  have e1 := u_done U (c := c) ltac:(lia); have e2 := u_done U (c := d) ltac:(lia).
  have := unit_dot (colv L (se N Rb (zfm C)) c) (colv L (se N Rb (zfm C)) d) V; rewrite e1 e2.
  move=> /(congr1 (fun X : 'M[C]_1 => X 0 0)); rewrite !dotE => h; rewrite /gramR /gramA.
  have eT R (A : fm C) (e f : nat) : \sum_(0 <= i < N) (se N R A i e)^* * se N R A i f = \sum_(k < N) (tri R k e)^* * tri R k f.
    by rewrite big_mkord; apply: eq_bigr => k _; rewrite !se_top.
  have eB R (A : fm C) (e f : nat) : \sum_(0 <= i < M) (se N R A (N + i)%N e)^* * se N R A (N + i)%N f = \sum_(i < M) (A i e)^* * A i f.
    by rewrite big_mkord; apply: eq_bigr => k _; rewrite !se_bot.
  move: h; rewrite !eT !eB => ->; rewrite [X in _ + X]big1 ?addr0 // => i _; by rewrite /zfm conjC0 mul0r.
Qed.

(** A linear combination of stacked columns. *)
Definition lin (S : fm C) (x : fv C) (n : nat) : 'cV[C]_L := \sum_(c < n) x c *: colv L S c.
Lemma nsq_lin (S : fm C) x n : nsq (lin S x n) = \sum_(0 <= i < N) `|\sum_(c < n) S i c * x c| ^+ 2
  + \sum_(0 <= i < M) `|\sum_(c < n) S (N + i)%N c * x c| ^+ 2.
Proof.
  rewrite -(sumL M N (fun i => `|\sum_(c < n) S i c * x c| ^+ 2)); apply: eq_bigr => i _.
  rewrite -normCK; congr (`|_| ^+ 2); rewrite /lin summxE; apply: eq_bigr => c _; by rewrite !mxE mulrC.
Qed.
Lemma nsq_unit (U : 'M[C]_L) (x : 'cV[C]_L) : unit_mx U -> nsq (U *m x) = nsq x.
Proof.
  move=> h; have := unit_dot x x h; rewrite !nsqE => /matrixP /(_ 0 0).
  by rewrite !mxE eqxx !mulr1n.
Qed.

Lemma upd_norm Ra Aa Rb Ab z x : upd M N 0 N N Ra Aa Rb Ab z -> normR N Rb x = normR N Ra x + normA M N Aa x.
Proof.
  move=> U; have V := Pr_unit (u_unit U).
  have e : Pr L (sA N Ab) z 0 N *m lin (se N Rb (zfm C)) x N = lin (se N Ra Aa) x N.
    rewrite /lin mulmx_sumr; apply: eq_bigr => c _; rewrite -scalemxAr; congr (_ *: _).
    by rewrite (u_done U (c := c)) // add0n ltn_ord.
  have := nsq_unit (lin (se N Rb (zfm C)) x N) V; rewrite e !nsq_lin /normR /normA => h.
  have eT R (A : fm C) : \sum_(0 <= i < N) `|\sum_(c < N) se N R A i c * x c| ^+ 2 = \sum_(k < N) `|\sum_(c < N) tri R k c * x c| ^+ 2.
    by rewrite big_mkord; apply: eq_bigr => k _; congr (`|_| ^+ 2); apply: eq_bigr => c _; rewrite se_top.
  have eB R (A : fm C) : \sum_(0 <= i < M) `|\sum_(c < N) se N R A (N + i)%N c * x c| ^+ 2 = \sum_(i < M) `|\sum_(c < N) A i c * x c| ^+ 2.
    by rewrite big_mkord; apply: eq_bigr => k _; congr (`|_| ^+ 2); apply: eq_bigr => c _; rewrite se_bot.
  move: h; rewrite !eT !eB => ->; rewrite [X in _ + X]big1 ?addr0 // => i _.
  by rewrite big1 ?normr0 ?expr0n // => c _; rewrite /zfm mul0r.
Qed.

(** A wide matrix has a kernel. *)
Lemma kernel m (B : nat -> nat -> C) : exists2 x : fv C, nonzero m.+1 x &
  forall i, (i < m)%N -> \sum_(c < m.+1) B i c * x c = 0.
Proof.
  pose K : 'M[C]_(m.+1, m) := \matrix_(c, i) B i c.
  have : kermx K != 0.
    rewrite -mxrank_eq0 mxrank_ker -lt0n subn_gt0; exact: leq_ltn_trans (rank_leq_col K) _.
  case/rowV0Pn => v /sub_kermxP hv hn.
  exists (fun c => v 0 (inord c)).
    case/rV0Pn: hn => c hc; exists (c : nat) => //; by rewrite inord_val.
  move=> i hi; move/matrixP: hv => /(_ 0 (Ordinal hi)); rewrite !mxE => h; rewrite -[RHS]h.
  by apply: eq_bigr => c _; rewrite !mxE inord_val mulrC.
Qed.

Lemma cert_meaning R A : (forall c, (c < N)%N -> R c c \is Num.real) -> cert M N 0 N R A ->
  exists2 x, nonzero N x & normR N R x <= normA M N A x.
Proof.
  move=> hr [m [e [Ra [Aa [z [hm he U hle]]]]]]; rewrite add0n in he hle.
  have [x0 [c0 hc0 nz0] hk] := kernel m (fun i c => tri Ra i c).
  set x : fv C := fun c => if (c <= m)%N then x0 c else 0.
  have xE c : (c < m.+1)%N -> x c = x0 c by move=> h; rewrite /x (_ : (c <= m)%N).
  exists x; first by exists c0; [lia|rewrite xE].
  have V := Pr_unit (u_unit U).
  set S : fm C := fun i c => if (c < m)%N then se N R (zfm C) i c else se N R Aa i c.
  have eL : Pr L (sA N Aa) z 0 m *m lin S x m.+1 = lin (se N Ra A) x m.+1.
    rewrite /lin mulmx_sumr; apply: eq_bigr => c _; rewrite -scalemxAr; congr (_ *: _).
    have hc := ltn_ord c; case: (ltnP c m) => h.
      rewrite -(u_done U (c := c)) ?add0n //; congr (_ *m _); apply: colv_ext => i _; by rewrite /S h.
    rewrite -(u_trail U (c := c)) ?add0n; last lia.
    by congr (_ *m _); apply: colv_ext => i _; rewrite /S ltnNge h.
  have := nsq_unit (lin S x m.+1) V; rewrite eL !nsq_lin.
  (* sums over the first m+1 columns are sums over all *)
  have ext (f : nat -> C) : \sum_(c < N) f c * x c = \sum_(c < m.+1) f c * x c.
    rewrite -(big_mkord xpredT (fun c => f c * x c)) -(big_mkord xpredT (fun c => f c * x c)).
    rewrite (big_cat_nat _ (n := m.+1)) //= [X in _ + X]big_nat [X in _ + X]big1 ?addr0 // => c hc.
    by rewrite /x leqNgt (_ : (m < c)%N) ?mulr0 //; lia.
  have -> : \sum_(0 <= i < M) `|\sum_(c < m.+1) se N Ra A (N + i)%N c * x c| ^+ 2 = normA M N A x.
    rewrite /normA big_mkord; apply: eq_bigr => i _; congr (`|_| ^+ 2); rewrite ext; apply: eq_bigr => c _.
    by rewrite se_bot.
  have -> : \sum_(0 <= i < N) `|\sum_(c < m.+1) S i c * x c| ^+ 2 = normR N R x.
    rewrite /normR big_mkord; apply: eq_bigr => i _; congr (`|_| ^+ 2); rewrite ext; apply: eq_bigr => c _.
    by rewrite /S !se_top //; case: ifP.
  have -> : \sum_(0 <= i < M) `|\sum_(c < m.+1) S (N + i)%N c * x c| ^+ 2 = `|x m| ^+ 2 * \sum_(0 <= i < M) tNORM (Aa i m).
    rewrite mulr_sumr; apply: eq_big_nat => i hi; rewrite big_ord_recr /= big1 ?add0r; last first.
      by move=> c _; rewrite /S ltn_ord se_bot /zfm mul0r.
    by rewrite /S ltnn se_bot normrM exprMn tNORM_norm mulrC.
  have -> : \sum_(0 <= i < N) `|\sum_(c < m.+1) se N Ra A i c * x c| ^+ 2 = `|x m| ^+ 2 * (R m m * R m m).
    rewrite (@sumN1 _ N _ m) //; last first.
      move=> i hi him; case: (ltnP i m) => h.
        rewrite (_ : \sum_(c < m.+1) _ = 0) ?normr0 ?expr0n // -[RHS](hk i h).
        by apply: eq_bigr => c _; rewrite se_top // xE.
      rewrite big1 ?normr0 ?expr0n // => c _; rewrite se_top // /tri leqNgt (_ : (c < i)%N) ?mul0r //.
      by have := ltn_ord c; move: him; lia.
    rewrite big_ord_recr /= big1 ?add0r; last first.
      by move=> c _; rewrite se_top // /tri leqNgt ltn_ord /= mul0r.
    rewrite se_top // /tri leqnn -(u_frR U); last lia.
    by rewrite normrM exprMn mulrC (normCK (R m m)) (realcj (hr _ hm)).
  move=> h; have hp : `|x m| ^+ 2 * (R m m * R m m) <= `|x m| ^+ 2 * \sum_(0 <= i < M) tNORM (Aa i m).
    by apply: ler_wpmul2l => //; rewrite exprn_ge0.
  by rewrite -(ler_add2r (`|x m| ^+ 2 * \sum_(0 <= i < M) tNORM (Aa i m))) -h addrC ler_add2l.
Qed.

Lemma normR_pos R x : (forall c, (c < N)%N -> R c c != 0) -> nonzero N x -> 0 < normR N R x.
Proof.
  move=> hd [c0 hc0 nz0].
  have ex : exists c, (c < N)%N && (x c != 0) by exists c0; rewrite hc0.
  have ub c : (c < N)%N && (x c != 0) -> (c <= N)%N by case/andP => /ltnW.
  case: (ex_maxnP ex ub) => c /andP [hc nz] mx.
  rewrite /normR (bigD1 (Ordinal hc)) //=; apply: ltr_paddr; first by apply: sumr_ge0 => i _; rewrite exprn_ge0.
  rewrite exprn_gt0 // normr_gt0 (bigD1 (Ordinal hc)) //= /tri leqnn big1 ?addr0 ?mulf_neq0 ?hd // => d hdc.
  case: ifP => h; last by rewrite mul0r.
  case: (eqVneq (x d) 0) => [->|hx]; first by rewrite mulr0.
  have hd2 := mx d; rewrite ltn_ord hx in hd2; have := hd2 isT => hle.
  by exfalso; move: hdc; rewrite -val_eqE /=; lia.
Qed.
End Meaning.

Lemma ctr_map (C : numClosedFieldType) m n (X : 'M[C]_(m, n)) : ctr X = (map_mx (@conjC C) X)^T.
Proof. by apply/matrixP => i j; rewrite !mxE. Qed.

Section Claims.
Variable C : numClosedFieldType.
Variables (nb tb tb2 : nat) (under : C -> bool) (stR : stor).
Hypotheses (nbP : (0 < nb)%N) (tbP : (0 < tb)%N) (tb2P : (0 < tb2)%N).
Implicit Types (A R Z : fm C).

(** QR_Update(R,A): R1^dagger R1 = R^dagger R + A^dagger A, with a real diagonal; the
    array outside the triangle keeps its contents.  For every size and block size. *)
Theorem C48_update (M N : nat) R A Z0 : exists R1 A1,
  QR_Update nb under M N R A Z0 = Ok (R1, A1) /\
  [/\ forall c d, (c < N)%N -> (d < N)%N -> gramR N R1 c d = gramR N R c d + gramA M A c d,
      forall c, (c < N)%N -> R1 c c \is Num.real,
      forall i c, ~~ (i <= c < N)%N -> R1 i c = R i c
    & forall i c, ~~ ((i < M) && (c < N))%N -> A1 i c = A i c].
Proof.
  have [[R1 A1] [-> [[z U] r fR fA]]] := QR_UpdateP M N under R A Z0 nbP.
  exists R1, A1; split=> //; split=> // c d hc hd; exact: upd_gram U hc hd.
Qed.

(** The new R is the R of a QR decomposition of the old matrix with the rows of A
    added: if A0 = Q0 R then [A0; A] = Q1 R1 with Q1 of orthonormal columns. *)
Theorem C48_update_rows (K M N : nat) (Q0 : 'M[C]_(K, N)) R A Z0 : ctr Q0 *m Q0 = 1%:M ->
  exists R1 A1 (Q1 : 'M[C]_(K + M, N)),
  [/\ QR_Update nb under M N R A Z0 = Ok (R1, A1), ctr Q1 *m Q1 = 1%:M
    & col_mx (Q0 *m (\matrix_(k < N, c < N) tri R k c)) (\matrix_(i < M, c < N) A i c)
      = Q1 *m (\matrix_(k < N, c < N) tri R1 k c)].
Proof.
  move=> h0; have [[R1 A1] [-> [[z U] r fR fA]]] := QR_UpdateP M N under R A Z0 nbP.
  set P := Pr (N + M) (sA N A1) z 0 N.
  have V : unit_mx P by exact: Pr_unit (u_unit U).
  set B : 'M[C]_(K + M, N + M) := block_mx Q0 0 0 1%:M.
  have ctrB4 : ctr B = block_mx (ctr Q0) 0 0 1%:M.
    by rewrite !ctr_map map_block_mx tr_block_mx !map_mx0 !trmx0 -!ctr_map ctr1.
  have hB : ctr B *m B = 1%:M.
    by rewrite ctrB4 mulmx_block h0 !mulmx0 !mul0mx !addr0 !add0r mulmx1 -scalar_mx_block.
  set Ql := lsubmx P.
  have ePQ : Ql = P *m col_mx 1%:M 0.
    by rewrite -[in RHS](hsubmxK P) mul_row_col mulmx1 mulmx0 addr0.
  have ec : ctr (col_mx 1%:M 0 : 'M[C]_(N + M, N)) = row_mx 1%:M 0.
    by rewrite !ctr_map map_col_mx tr_col_mx map_mx0 trmx0 -ctr_map ctr1.
  exists R1, A1, (B *m Ql); split=> //.
    rewrite ePQ !ctrM ec -!mulmxA (mulmxA (ctr B)) hB mul1mx (mulmxA (ctr P)) V mul1mx.
    by rewrite mul_row_col mulmx1 mulmx0 addr0.
  have e1 : col_mx (\matrix_(k < N, c < N) tri R k c) (\matrix_(i < M, c < N) A i c)
          = P *m col_mx (\matrix_(k < N, c < N) tri R1 k c) 0.
    apply/matrixP => i c.
    have := u_done U (c := c) ltac:(have := ltn_ord c; lia).
    move=> /matrixP /(_ i 0); rewrite -/P; rewrite [X in _ = X]mxE => h.
    have -> : (col_mx (\matrix_(k < N, c < N) tri R k c) (\matrix_(i < M, c < N) A i c)) i c = se N R A i c.
      by rewrite mxE; case: splitP => i' ei; rewrite mxE ei; [rewrite se_top|rewrite se_bot].
    rewrite -h !mxE; apply: eq_bigr => j _; congr (_ * _); rewrite !mxE; case: splitP => j' ej; rewrite mxE ej; [by rewrite se_top|by rewrite se_bot].
  have -> : col_mx (Q0 *m (\matrix_(k < N, c < N) tri R k c)) (\matrix_(i < M, c < N) A i c)
          = B *m col_mx (\matrix_(k < N, c < N) tri R k c) (\matrix_(i < M, c < N) A i c).
    by rewrite mul_block_col !mul0mx addr0 add0r mul1mx.
  rewrite e1 !mulmxA -(mulmxA B) ePQ -!mulmxA; congr (_ *m (_ *m _)).
  by rewrite mul_col_mx mul1mx mul0mx.
Qed.

(** QR_Downdate(R,A), R with a real diagonal as QR_Decompose and QR_Update leave it:
    whenever it returns, R1^dagger R1 = R^dagger R - A^dagger A. *)
Theorem C48_downdate (M N : nat) R A Z0 R1 A1 : (forall c, (c < N)%N -> R c c \is Num.real) ->
  QR_Downdate nb tb tb2 stR M N R A Z0 = Ok (R1, A1) ->
  [/\ forall c d, (c < N)%N -> (d < N)%N -> gramR N R1 c d = gramR N R c d - gramA M A c d,
      forall c, (c < N)%N -> R1 c c \is Num.real,
      forall i c, ~~ (i <= c < N)%N -> R1 i c = R i c
    & forall i c, ~~ ((i < M) && (c < N))%N -> A1 i c = A i c].
Proof.
  move=> hr E; have := QR_DowndateP M stR tbP tb2P A Z0 nbP hr; rewrite E => -[[z U] r fR fA].
  by split=> // c d hc hd; rewrite (upd_gram U hc hd) addrK.
Qed.

(** It returns whenever R^dagger R - A^dagger A is positive definite ... *)
Theorem C48_downdate_total (M N : nat) R A Z0 : (forall c, (c < N)%N -> R c c \is Num.real) ->
  posdef M N R A -> exists R1 A1, QR_Downdate nb tb tb2 stR M N R A Z0 = Ok (R1, A1).
Proof.
  move=> hr pd; have := QR_DowndateP M stR tbP tb2P A Z0 nbP hr.
  have nc : cert M N 0 N R A -> False.
    case/(cert_meaning hr) => x nz hle; have := le_lt_trans hle (pd x nz); by rewrite ltxx.
  by case: QR_Downdate => [[R1 A1] _|e /nc //|/nc //]; exists R1, A1.
Qed.

(** ... so an exception (NonPosDef or another) means that it is not. *)
Theorem C48_downdate_throw (M N : nat) R A Z0 e : (forall c, (c < N)%N -> R c c \is Num.real) ->
  QR_Downdate nb tb tb2 stR M N R A Z0 = Throw e ->
  exists2 x, nonzero N x & normR N R x <= normA M N A x.
Proof.
  move=> hr E; have := QR_DowndateP M stR tbP tb2P A Z0 nbP hr; rewrite E; exact: cert_meaning.
Qed.

(** Rows just added can be removed again. *)
Theorem C48_roundtrip (M N : nat) R A Z0 Z1 : (forall c, (c < N)%N -> R c c != 0) ->
  exists R1 A1 R2 A2,
  [/\ QR_Update nb under M N R A Z0 = Ok (R1, A1), QR_Downdate nb tb tb2 stR M N R1 A Z1 = Ok (R2, A2)
    & forall c d, (c < N)%N -> (d < N)%N -> gramR N R2 c d = gramR N R c d].
Proof.
  move=> hd; have [[R1 A1] [E1 [[z U] r fR fA]]] := QR_UpdateP M N under R A Z0 nbP.
  have pd : posdef M N R1 A.
    move=> x nz; rewrite (upd_norm x U) -subr_gt0 addrK; exact: normR_pos.
  have [R2 [A2 E2]] := C48_downdate_total Z1 r pd.
  have [h _ _ _] := C48_downdate r E2.
  by exists R1, A1, R2, A2; split=> // c d hc hd2; rewrite h // (upd_gram U hc hd2) addrK.
Qed.
End Claims.
Print Assumptions C48_update.
Print Assumptions C48_update_rows.
Print Assumptions C48_downdate.
Print Assumptions C48_downdate_total.
Print Assumptions C48_downdate_throw.
Print Assumptions C48_roundtrip.

(** A downdate to a singular R, which exists, is not found and not reported: with
    R = 1 and A its first row the answer is diag(0,1), but the scalar 1 - beta the code
    divides by is 0 (TMVAssert(beta != 1) is empty without TMV_DEBUG). *)
Theorem C48_downdate_singular_refuted (C : numClosedFieldType) (tb tb2 : nat) (stR : stor) (Z0 : fm C) :
  exists R A R1 : fm C,
  [/\ forall c, (c < 2)%N -> R c c \is Num.real,
      forall c d, (c < 2)%N -> (d < 2)%N -> gramR 2 R1 c d = gramR 2 R c d - gramA 1 A c d
    & QR_Downdate 64 tb tb2 stR 1 2 R A Z0 = UB].
Proof.
  exists (fun i j => (i == j)%:R), (fun i j => (j == 0%N)%:R), (fun i j => ((i == j) && (i == 1%N))%:R); split.
  - by move=> c _; rewrite eqxx real1.
  - move=> [|[|c]] [|[|d]] //= _ _; rewrite /gramR /gramA /tri !big_ord_recl !big_ord0 /= ?(conjC0, conjC1) ?(mul0r, mulr0, mul1r, addr0, add0r, subrr, subr0, oppr0) //.
  rewrite /QR_Downdate /= /hunrefl.
  rewrite big_nat1.
  have re1 : 'Re (1 : C) = 1 by apply: realre; exact: real1.
  have n1 : tNORM (1 : C) = 1 by rewrite tNORM_norm normr1 expr1n.
  rewrite n1 oner_eq0 re1 expr1n subrr ltxx ltr01 sqrtC0 oppr0 sub0r mulr0 subr0 /sdiv oner_eq0 oppr_eq0 oner_eq0 /=.
  by rewrite tNORM_norm normrN1 expr1n divr1 oner_eq0 /= subrr eqxx.
Qed.
Print Assumptions C48_downdate_singular_refuted.

(** Non-vacuity: R = diag(5,1) and A = (4 0) are as C48_downdate_total wants, and the
    result has R1(0,0)^2 = 9. *)
Example C48_downdate_example : let R : fm algC := fun i j => (if i == j then (if i == 0%N then 5%:R else 1) else 0) in
  let A : fm algC := fun i j => if j == 0%N then 4%:R else 0 in
  posdef 1 2 R A /\ exists R1 A1, QR_Downdate 64 64 8 CM 1 2 R A R = Ok (R1, A1) /\ gramR 2 R1 0 0 = 9%:R.
Proof.
  move=> R A; have hr c : (c < 2)%N -> R c c \is Num.real.
    by move=> _; rewrite /R eqxx; case: ifP => _; rewrite ?realn ?real1.
  have pd : posdef 1 2 R A.
    move=> x [c hc nz]; rewrite /normA /normR !big_ord_recl !big_ord0 /= /tri /R /A /bump /= !mul0r !addr0 !add0r mul1r.
    rewrite !normrM !exprMn !normr_nat -subr_gt0.
    have -> : 5%:R ^+ 2 * `|x 0%N| ^+ 2 + `|x 1%N| ^+ 2 - 4%:R ^+ 2 * `|x 0%N| ^+ 2
            = 9%:R * `|x 0%N| ^+ 2 + `|x 1%N| ^+ 2.
      by rewrite addrAC -mulrBl -!natrX -natrB.
    case: c hc nz => [|[|c]] // _ nz.
      by apply: ltr_paddr; rewrite ?exprn_ge0 // mulr_gt0 ?ltr0n // exprn_gt0 // normr_gt0.
    by apply: ltr_paddl; rewrite ?mulr_ge0 ?ler0n ?exprn_ge0 // exprn_gt0 // normr_gt0.
  split=> //; have [R1 [A1 E]] := @C48_downdate_total _ 64 64 8 CM isT isT isT 1 2 R A R hr pd.
  exists R1, A1; split=> //; have [h _ _ _] := @C48_downdate _ 64 64 8 CM isT isT isT 1 2 _ _ _ _ _ hr E.
  rewrite h // /gramR /gramA !big_ord_recl !big_ord0 /= /tri /R /A /= !addr0 mulr0 addr0 !conjC_nat -!natrM -natrB //.
Qed.
