(** C50: division with the QRP decomposition. *)
From Coq Require Import Ring Field.
From Verif Require Import Base FMat TriSolve TriInv RowPerm RingTac Cplx Chol Claims_Tri LUDiv QR QRProofs QRDiv QRDivProofs QRP QRPProofs QRPLoop QRPStrict QRPPerm QRPLoose QRPFinal QRPBad QRPBad2 QRPDiv QRPDivProofs Claims_QR Claims_QRP.
From mathcomp Require Import all_ssreflect all_fingroup all_algebra all_field zify.
Set Implicit Arguments. Unset Strict Implicit. Unset Printing Implicit Defensive.
Import GRing.Theory Num.Theory Order.Theory.
Local Open Scope ring_scope.

(** Specification, with prodm, resid2, norm2, fullrank of Claims_QR and frob2 of Claims_QRP. *)
Section Spec.
Variable C : numClosedFieldType.
Implicit Types (A X m : fm C).
(** Every column of A' is within sqrt(N) eps |A| of that of A. *)
Definition nearcols (eps : C) (M N : nat) A A' : Prop :=
  forall c, (c < N)%N -> \sum_(i < M) `|A' i c - A i c| ^+ 2 <= N%:R * eps ^+ 2 * frob2 M N A.
Definition near (eps : C) (Mr Nr : nat) A A' : Prop :=
  if (Mr < Nr)%N then nearcols eps Nr Mr (trm A) (trm A') else nearcols eps Mr Nr A A'.
(** The columns of X are least squares solutions of A x = m. *)
Definition lsq_sol (Mr Nr K : nat) A m X : Prop :=
  forall (y : fv C) c, (c < K)%N ->
    resid2 Mr Nr A (fun k => X k c) (fun i => m i c) <= resid2 Mr Nr A y (fun i => m i c).
(** Where A x = m has a solution, the column of X is the shortest one. *)
Definition short_sol (Mr Nr K : nat) A m X : Prop :=
  forall (y : fv C) c, (c < K)%N -> (forall i, (i < Mr)%N -> \sum_(k < Nr) A i k * y k = m i c) ->
    (forall i, (i < Mr)%N -> prodm Nr A X i c = m i c) /\ norm2 Nr (fun k => X k c) <= norm2 Nr y.
End Spec.

Lemma stripzP (C : numClosedFieldType) (d : nat -> C) n r : (r <= n)%N -> (forall a, (a < r)%N -> d a != 0) ->
  (forall i, (r <= i < n)%N -> d i = 0) -> stripz d n = r.
Proof.
  elim: n => [|n IH] h hd hz /=; first lia.
  case: eqP => [e|ne].
    case: (eqVneq r n.+1) => [e2|n2]; first by have := hd n ltac:(lia); rewrite e eqxx.
    by apply: IH => // [|i hi]; [lia | apply: hz; lia].
  case: (eqVneq r n.+1) => [-> //|n2]; by case: ne; apply: hz; lia.
Qed.

Section Core.
Variable C : numClosedFieldType.
Implicit Types (A X : fm C).
Lemma pcols_indep M N P A : (forall k, (k < N)%N -> (k <= P k < N)%N) -> indep M N A -> indep M N (pcols M P N A).
Proof.
  move=> HP H x hx k hk; have [s [e1 _ _]] := pcols_perm M A HP.
  pose y : fv C := fun c => if insub c is Some c' then x ((s^-1)%g c' : 'I_N) else 0.
  have ey (j : 'I_N) : y (s j) = x j by rewrite /y valK permK.
  rewrite -(ey (Ordinal hk)); apply: H (ltn_ord _) => i hi.
  rewrite -[RHS](hx i hi) (reindex_inj (@perm_inj _ s)) /=; apply: eq_bigr => j _.
  by rewrite ey /pcols hi e1.
Qed.

Lemma coreP M N A b0 P0 (d0 tol : C) st rk r X Ax b P d : (N <= M)%N -> 0 <= tol ->
  qrpres M N A b0 P0 d0 tol st rk r X Ax b P d -> rk \/ indep M N A ->
  [/\ stripz (fun k => Ax k k) N = r, forall a, (a < r)%N -> Ax a a != 0 &
    exists A', [/\ forall i c, (i < M)%N -> (c < N)%N -> X i c = A' i (psig P 0 N c),
      forall c, (c < N)%N -> \sum_(i < M) `|A' i c - A i c| ^+ 2 <= tol,
      forall i c, (i < M)%N -> (c < r)%N -> A' i (psig P 0 N c) = A i (psig P 0 N c) &
      r = N -> forall i c, (i < M)%N -> (c < N)%N -> A' i c = A i c]].
Proof.
  move=> NM tol0 [hr Q HP hd hz he hcl _ _ _ _] H.
  have I := qinv_isqr NM Q.
  have hd' a : (a < r)%N -> Ax a a != 0.
    case: H => [h|h]; first exact: hd.
    move=> ha; apply/negP => /eqP e0.
    have d1 : \det (Rm r Ax) = 0.
      by rewrite det_Rm big_mkord; apply/eqP/prodf_eq0; exists (Ordinal ha) => //=; rewrite e0.
    move: d1; rewrite -det_tr => /eqP/matrix.det0P [v v0 hv].
    have hv2 : Rm r Ax *m v^T = 0 by rewrite -[Rm r Ax]trmxK -trmx_mul hv trmx0.
    pose x : fv C := fun k => if insub k is Some k' then v 0 (k' : 'I_r) else 0.
    have ex : vec N x = Em C N r *m v^T.
      rewrite -[v^T](_ : vec r x = _); last by apply/matrixP => i j; rewrite !mxE /x valK ord1.
      have e2 n : vec n x = mx n 1 (fun i _ => x i) by apply/matrixP => i j; rewrite !mxE.
      rewrite !e2 Em_up // => i j hi _; rewrite /x insubN //; lia.
    have hx : mx M N X *m vec N x = 0.
      by rewrite (iq_fact I) -mulmxA ex (mulmxA (Rm N Ax)) RE // -(mulmxA (Em C N r)) hv2 !mulmx0.
    case/eqP: v0; apply/matrixP => i k; rewrite ord1 mxE.
    suff : x k = 0 by rewrite /x valK.
    apply: (@pcols_indep M N P A HP h x); last by have := ltn_ord k; lia.
    move=> i' hi'; have /matrixP/(_ (Ordinal hi') 0) := hx; rewrite mxE [X in _ = X -> _]mxE; apply: etrans.
    apply: eq_bigr => j _; rewrite !mxE /=; case: (ltnP j r) => hj; first by rewrite he.
    by rewrite -/(x j) /x insubN ?mulr0 //; lia.
  have hs : stripz (fun k => Ax k k) N = r by apply: stripzP => // i hi; apply: hz; lia.
  split=> //.
  have [s [e1 _ _]] := pcols_perm M A HP.
  pose A' : fm C := fun i c => if insub c is Some c' then X i ((s^-1)%g c' : 'I_N) else A i c.
  have eA i (c : 'I_N) : A' i (s c) = X i c by rewrite /A' valK permK.
  exists A'; split.
  - by move=> i c hi hc; rewrite (e1 (Ordinal hc)) eA.
  - move=> c hc; pose c0 := ((s^-1)%g (Ordinal hc)).
    have ec : c = s c0 by rewrite /c0 permKV.
    rewrite ec (eq_bigr (fun i : 'I_M => `|pcols M P N A i c0 - X i c0| ^+ 2)); last first.
      by move=> i _; rewrite eA distrC /pcols ltn_ord e1.
    case: (ltnP c0 r) => h0; last by apply: hcl; rewrite h0 ltn_ord.
    by rewrite big1 // => i _; rewrite he // subrr normr0 expr0n.
  - move=> i c hi hc; have hcN : (c < N)%N by lia.
    by rewrite (e1 (Ordinal hcN)) eA /= he // /pcols hi (e1 (Ordinal hcN)).
  - move=> er i c hi hc; pose c0 := ((s^-1)%g (Ordinal hc)).
    have ec : c = s c0 by rewrite /c0 permKV.
    by rewrite ec eA he ?er // /pcols hi e1.
Qed.
End Core.

Lemma prodmA (C : numClosedFieldType) p q (D F G : fm C) i j : prodm p (prodm q D F) G i j = prodm q D (prodm p F G) i j.
Proof.
  rewrite /prodm; under eq_bigr do rewrite mulr_suml.
  rewrite exchange_big /=; apply: eq_bigr => k _; rewrite mulr_sumr; apply: eq_bigr => l _; by rewrite mulrA.
Qed.

Section Algebra.
Variable C : numClosedFieldType.
Variables (M N r : nat) (A A' X Q : fm C) (Qu : 'M[C]_(M, N)) (P : nat -> nat).
Hypothesis QQ : ctr Qu *m Qu = 1%:M.
Hypothesis fact : mx M N X = Qu *m Rm N Q.
Hypothesis hr : (r <= N)%N.
Hypothesis hz : forall i c, (r <= i)%N -> (i <= c < N)%N -> Q i c = 0.
Hypothesis hd : forall a, (a < r)%N -> Q a a != 0.
Hypothesis HP : forall k, (k < N)%N -> (k <= P k < N)%N.
Hypothesis eA : forall i c, (i < M)%N -> (c < N)%N -> X i c = A' i (psig P 0 N c).
Hypothesis eA2 : forall i c, (i < M)%N -> (c < r)%N -> A' i (psig P 0 N c) = A i (psig P 0 N c).
Notation E := (Em C N r).
Notation R := (Rm N Q).
Notation R1 := (Rm r Q).

Lemma permS : exists s : 'S_N, [/\ forall i : 'I_N, psig P 0 N i = s i :> nat,
  mx M N A' = Qu *m R *m perm_mx s, perm_mx (s^-1)%g *m perm_mx s = 1%:M :> 'M[C]_N,
  perm_mx s *m perm_mx (s^-1)%g = 1%:M :> 'M[C]_N &
  forall K (x : fm C), mx N K (permrows K P 0 N x) = perm_mx s *m mx N K x].
Proof using fact HP eA.
  have [s [e1 _ _]] := pcols_perm M A' HP; exists s; split=> //.
  - rewrite -fact; have -> : mx M N X = col_perm s (mx M N A').
      by apply/matrixP => i j; rewrite !mxE eA // e1.
    by rewrite col_permE -mulmxA -perm_mxM mulVg perm_mx1 mulmx1.
  - by rewrite -perm_mxM mulVg perm_mx1.
  - by rewrite -perm_mxM mulgV perm_mx1.
  - by move=> K x; rewrite -row_permE; apply/matrixP => i j; rewrite !mxE permrowsE ltn_ord e1.
Qed.

(** What is zero outside the columns used. *)
Lemma suppP K (x : fm C) x1 : mx N K (permrows K P 0 N x) = E *m x1 ->
  forall i c, (i < M)%N -> (c < K)%N -> prodm N A' x i c = prodm N A x i c.
Proof using HP hr eA2.
  move=> e i c hi hc; have [s [e1 _ _]] := pcols_perm M A' HP.
  rewrite /prodm [LHS](reindex_inj (@perm_inj _ s)) [RHS](reindex_inj (@perm_inj _ s)) /=; apply: eq_bigr => j _.
  case: (ltnP j r) => hj; first by rewrite -e1 eA2.
  suff -> : x (s j) c = 0 by rewrite !mulr0.
  move/matrixP/(_ j (Ordinal hc)): e; rewrite !mxE permrowsE hc e1 => ->; apply: big1 => k _; rewrite !mxE.
  case: eqP => [e|_]; last by rewrite mul0r.
  by exfalso; have := ltn_ord k; lia.
Qed.

Lemma lsqP K (x m : fm C) x1 : mx N K (permrows K P 0 N x) = E *m x1 ->
  R1 *m x1 = ctr E *m (ctr Qu *m mx M K m) -> lsq_sol M N K A' m x.
Proof using fact QQ HP hr hz eA.
  move=> h1 h2 y c hc; have [s [e1 e2 _ _ e5]] := permS.
  have eAx : mx M N A' *m mx N K x = Qu *m (E *m (ctr E *m (ctr Qu *m mx M K m))).
    by rewrite e2 -mulmxA -e5 h1 -mulmxA (mulmxA R) RE // -(mulmxA E) h2.
  have nrm : ctr (mx M N A') *m (mx M N A' *m mx N K x - mx M K m) = 0.
    rewrite eAx e2 (ctrM (Qu *m R)) (ctrM Qu R) -!mulmxA (mulmxBr (ctr Qu)) (mulmxA (ctr Qu) Qu) QQ mul1mx.
    by rewrite (mulmxBr (ctr R)) (mulmxA (ctr R) E) (mulmxA (ctr R *m E)) REE // subrr mulmx0.
  rewrite !resid2E; apply: lsq; move/(congr1 (col (Ordinal hc))): nrm; rewrite colM.
  have -> : col (Ordinal hc) (0 : 'M[C]_(N, K)) = 0 by apply/matrixP => i j; rewrite !mxE.
  have -> : col (Ordinal hc) (mx M N A' *m mx N K x - mx M K m)
            = mx M N A' *m vec N (fun k => x k c) - vec M (fun i => m i c); last by [].
  by apply/matrixP => i j; rewrite !mxE //; congr (_ - _); apply: eq_bigr => k _; rewrite !mxE.
Qed.

Lemma shortP K (x m : fm C) x1 : mx K M x = x1 *m ctr E *m ctr Qu ->
  x1 *m R1 = mx K N (trm (permrows K P 0 N (trm m))) *m E -> short_sol N M K (trm A') (trm m) (trm x).
Proof using fact QQ HP hr hz hd eA.
  move=> h1 h2 y c hc hy; have [s [e1 e2 e3 e4 e5]] := permS.
  pose yr : 'rV[C]_M := \row_k y k; pose xr : 'rV[C]_M := \row_k x c k; pose mr : 'rV[C]_N := \row_k m c k.
  have hyA : yr *m mx M N A' = mr.
    apply/matrixP => i j; rewrite !mxE; have := hy j (ltn_ord j); rewrite /trm => <-.
    by apply: eq_bigr => k _; rewrite !mxE mulrC.
  pose v := row (Ordinal hc) x1.
  have ex : xr = v *m ctr E *m ctr Qu.
    have -> : xr = row (Ordinal hc) (mx K M x) by apply/matrixP => i j; rewrite !mxE.
    by rewrite h1 !row_mul.
  have ev : v *m R1 = mr *m perm_mx (s^-1)%g *m E.
    rewrite -row_mul h2 row_mul; congr (_ *m _); rewrite -col_permE.
    by apply/matrixP => i j; rewrite !mxE /trm permrowsE hc e1.
  have ev2 : v = yr *m Qu *m E.
    apply: (can_inj (mulmxK (R1u hd))); rewrite ev -hyA e2 -!mulmxA; congr (_ *m _).
    by rewrite (mulmxA (perm_mx s)) e4 mul1mx RE.
  have hxA : xr *m mx M N A' = mr.
    rewrite -hyA ex ev2 e2 -!mulmxA (mulmxA (ctr Qu)) QQ mul1mx; congr (_ *m (_ *m _)).
    by rewrite (mulmxA (ctr E)) mulmxA EER.
  split.
    move=> i hi; move/matrixP/(_ 0 (Ordinal hi)): hxA; rewrite !mxE /=; apply: etrans.
    by apply: eq_bigr => k _; rewrite !mxE mulrC.
  have cv (z : fv C) : norm2 M z = nsq (ctr (\row_k z k : 'rV_M)).
    by apply: eq_bigr => i _; rewrite !mxE conjCK mulrC normCK.
  rewrite !cv; apply: minnorm; rewrite -/yr -[\row_k _]/xr.
  rewrite {2}ex (ctrM (v *m ctr E)) (ctrM v) !ctrK !mulmxA.
  suff -> : (yr - xr) *m Qu *m E = 0 by rewrite mul0mx.
  rewrite !mulmxBl -ev2 ex -!mulmxA (mulmxA (ctr Qu)) QQ mul1mx EE // mulmx1 subrr //.
Qed.

Lemma pinvP (x : fm C) Ri : R1 *m Ri = 1%:M -> mx N M (permrows M P 0 N x) = E *m Ri *m ctr E *m ctr Qu ->
  [/\ hermitian M (prodm N A' x),
    forall i j, (i < M)%N -> (j < N)%N -> prodm M (prodm N A' x) A' i j = A' i j &
    forall i j, (i < N)%N -> (j < M)%N -> prodm N (prodm M x A') x i j = x i j].
Proof using fact QQ HP hr hz eA.
  move=> h1; have [s [e1 e2 e3 e4 e5]] := permS; rewrite e5 => h2.
  have AX : mx M N A' *m mx N M x = Qu *m (E *m (ctr E *m ctr Qu)).
    rewrite e2 -mulmxA h2 -!mulmxA; congr (_ *m _).
    by rewrite (mulmxA R) RE // -mulmxA (mulmxA R1) h1 mul1mx.
  have eP n p q (B D : fm C) : mx n q (prodm p B D) = mx n p B *m mx p q D.
    by apply/matrixP => i j; rewrite !mxE; apply: eq_bigr => k _; rewrite !mxE.
  have el n q (B D : fm C) : mx n q B = mx n q D -> forall i j, (i < n)%N -> (j < q)%N -> B i j = D i j.
    by move=> e i j hi hj; move/matrixP/(_ (Ordinal hi) (Ordinal hj)): e; rewrite !mxE.
  split.
  - move=> i j hi hj; have hW : mx M M (prodm N A' x) = ctr (mx M M (prodm N A' x)).
      by rewrite eP AX (ctrM Qu) (ctrM E) (ctrM (ctr E)) !ctrK !mulmxA.
    by move/matrixP/(_ (Ordinal hj) (Ordinal hi)): hW; rewrite !mxE.
  - apply: (el M N); rewrite (eP M M N) (eP M N M) AX {1}e2 -!mulmxA (mulmxA (ctr Qu)) QQ mul1mx.
    by rewrite (mulmxA (ctr E)) (mulmxA E) EER // e2 !mulmxA.
  - apply: (el N M); rewrite (eP N N M) (eP N M N) -mulmxA AX.
    have -> : mx N M x = perm_mx (s^-1)%g *m (E *m Ri *m ctr E *m ctr Qu) by rewrite -h2 mulmxA e3 mul1mx.
    rewrite -!mulmxA (mulmxA (ctr Qu)) QQ mul1mx (mulmxA (ctr E) E) EE // mul1mx //.
Qed.
End Algebra.

(** Everything about one decomposition: the matrix A' whose exact QRP decomposition it is. *)
Section New.
Variable C : numClosedFieldType.
Variables (nb : nat) (under : C -> bool) (eps : C) (strict : bool) (Mr Nr : nat) (A : fm C).
Hypotheses (h1 : (0 < nb)%N) (e0 : 0 < eps) (e1 : 16%:R * eps <= 1).
Hypothesis hc : [|| strict, (minn Mr Nr <= nb)%N | (minn Mr Nr)%:R * sqrtC eps <= 1].
Notation M := (maxn Mr Nr).
Notation N := (minn Mr Nr).
Notation B := (QRDiv_QRx Mr Nr A).

Lemma fullrankB : fullrank Mr Nr A <-> indep M N B.
Proof using. clear -C; rewrite /fullrank /QRDiv_QRx /istrans; by case: ltnP. Qed.

Lemma newP beta0 P0 cn0 Z0 : exists s r X, QRPDiv_new nb under eps strict Mr Nr A beta0 P0 cn0 Z0
    = Ok (s, stripz (fun k => qA s k k) N) /\
  qrpres M N B beta0 P0 1 (qtol eps M N B) strict (strict || (N <= nb)%N) r X (qA s) (qb s) (qP s) (qd s).
Proof using h1 e0 e1 hc.
  have h : (N <= M)%N by lia.
  have [s [E [r [X R]]]] := QRP_DecomposeP under h1 e0 e1 B beta0 P0 1 cn0 Z0 h hc.
  by exists s, r, X; split=> //; rewrite /QRPDiv_new E.
Qed.
Lemma qtolE M' N' (A0 : fm C) : qtol eps M' N' A0 = N'%:R * eps ^+ 2 * frob2 M' N' A0.
Proof using.
  clear; rewrite /qtol -expr2 big_mkord; congr (_ * _); apply: eq_bigr => k _.
  by rewrite /cnq big_mkord; apply: eq_bigr => i _; rewrite tNORM_norm.
Qed.
Lemma qtol_ge0 M' N' (A0 : fm C) : 0 <= qtol eps M' N' A0.
Proof using e0.
  clear -e0; rewrite qtolE; apply: mulr_ge0; last by apply: sumr_ge0 => k _; apply: sumr_ge0 => i _; exact: exprn_ge0.
  by apply: mulr_ge0; [exact: ler0n | rewrite exprn_ge0 // ltW].
Qed.

Lemma newP2 beta0 P0 cn0 Z0 : strict || (N <= nb)%N \/ fullrank Mr Nr A ->
  exists s r A', QRPDiv_new nb under eps strict Mr Nr A beta0 P0 cn0 Z0 = Ok (s, r) /\
  exists X, [/\ isqr M N X (qA s) (qb s), (r <= N)%N,
     (forall i c, (r <= i)%N -> (i <= c < N)%N -> qA s i c = 0) /\ (forall a, (a < r)%N -> qA s a a != 0),
     forall k, (k < N)%N -> (k <= qP s k < N)%N &
    [/\ forall i c, (i < M)%N -> (c < N)%N -> X i c = A' i (psig (qP s) 0 N c),
      nearcols eps M N B A',
      forall i c, (i < M)%N -> (c < r)%N -> A' i (psig (qP s) 0 N c) = B i (psig (qP s) 0 N c) &
      r = N -> forall i c, (i < M)%N -> (c < N)%N -> A' i c = B i c]].
Proof using h1 e0 e1 hc.
  move=> H; have h : (N <= M)%N by lia.
  have [s [r [X [E R]]]] := newP beta0 P0 cn0 Z0.
  have [E2 hd [A' [g1 g2 g3 g4]]] := coreP h (qtol_ge0 M N B) R ltac:(by case: H => H; [left | right; apply/fullrankB]).
  exists s, r, A'; split; first by rewrite E E2.
  exists X; split; [exact: (qinv_isqr h (qp_q R)) | exact: (qp_r R) | split=> //; exact: (qp_zero R) | exact: (qp_P R) |].
  by split=> // c hcN; rewrite -qtolE; apply: g2.
Qed.
End New.

(** Division by any matrix through QRP, with strict pivoting, or with at most one block of
    columns, or at full rank.  It never throws, and there is a matrix A' - A itself if no
    column was dropped, otherwise A with changes of the order of eps - such that: m/A is a
    least squares solution for A' when A is tall or square, the shortest solution (if there
    is one) when A is wide; m%A the same on rows; and the inverse is a pseudo-inverse of A'
    but for the fourth equation (the third one if A is wide).
    The default for more columns than a block, below full rank, is missing: see below. *)
Theorem C50_division_partial (C : numClosedFieldType) (nb nb2 tb tb2 : nat) (under : C -> bool) (stA stB : stor)
    (eps : C) (strict : bool) (Mr Nr : nat) (A Z0 : fm C) (beta0 : fv C) (P0 : nat -> nat) (cn0 : nat -> option C) :
  (0 < nb)%N -> (0 < nb2)%N -> (0 < tb)%N -> (0 < tb2)%N -> 0 < eps -> 16%:R * eps <= 1 ->
  [|| strict, (minn Mr Nr <= nb)%N | (minn Mr Nr)%:R * sqrtC eps <= 1] ->
  strict || (minn Mr Nr <= nb)%N \/ fullrank Mr Nr A ->
  match QRPDiv_new nb under eps strict Mr Nr A beta0 P0 cn0 Z0 with
  | Ok (s, N1) => exists A',
    near eps Mr Nr A A' /\
    (N1 = minn Mr Nr -> forall i j, (i < Mr)%N -> (j < Nr)%N -> A' i j = A i j) /\
    (forall K Z1 m, match QRPDiv_LDiv nb2 tb tb2 stA stB Mr Nr K (qA s) (qb s) (qP s) N1 Z1 m with
      | Ok X => if (Mr < Nr)%N then short_sol Mr Nr K A' m X
                else lsq_sol Mr Nr K A' m X /\
                     forall i c, (i < Mr)%N -> (c < K)%N -> prodm Nr A' X i c = prodm Nr A X i c
      | _ => False
      end) /\
    (forall K Z1 m, match QRPDiv_RDiv nb2 tb tb2 stA stB Mr Nr K (qA s) (qb s) (qP s) N1 Z1 m with
      | Ok X => if (Mr < Nr)%N then lsq_sol Nr Mr K (trm A') (trm m) (trm X) /\
                     forall c j, (c < K)%N -> (j < Nr)%N -> prodm Mr X A' c j = prodm Mr X A c j
                else short_sol Nr Mr K (trm A') (trm m) (trm X)
      | _ => False
      end) /\
    (forall Z1, match QRPDiv_Inverse nb2 tb Mr Nr (qA s) (qb s) (qP s) N1 Z1 with
      | Ok X =>
        (forall i j, (i < Mr)%N -> (j < Nr)%N -> prodm Mr (prodm Nr A' X) A' i j = A' i j) /\
        (forall i j, (i < Nr)%N -> (j < Mr)%N -> prodm Nr (prodm Mr X A') X i j = X i j) /\
        (if (Mr < Nr)%N then hermitian Nr (prodm Mr X A') else hermitian Mr (prodm Nr A' X))
      | _ => False
      end)
  | _ => False
  end.
Proof.
  move=> h1 h2 h3 h4 e0 e1 hc H.
  have [s [r [A' [-> [X [I hr [hz hd] HP [g1 g2 g3 g4]]]]]]] := newP2 under h1 e0 e1 hc beta0 P0 cn0 Z0 H.
  rewrite /near /QRPDiv_LDiv /QRPDiv_RDiv /QRPDiv_Inverse /istrans.
  have QQ := Qh_unit I; have fact := iq_fact I.
  move: I hr hz HP g1 g2 g3 g4 QQ fact; rewrite /QRDiv_QRx /istrans; case: ltnP => h.
    move=> I hr hz HP g1 g2 g3 g4 QQ fact; exists (trm A'); split; first exact: g2.
    split; first by move=> er i j hi hj; rewrite /trm g4.
    split; [|split].
    - move=> K Z1 m.
      have [x [-> [x1 [f1 f2]]]] := QRP_RDivP hr hz hd I HP stA stB h2 h3 h4 K Z1 (trm m).
      exact: (shortP QQ fact hr hz hd HP g1 f1 f2).
    - move=> K Z1 m.
      have [x [-> [[x1 [f1 f2]] _]]] := QRP_LDivP hr hz hd I HP stA stB h2 h3 h4 K Z1 (trm m).
      split; first exact: (lsqP QQ fact hr hz HP g1 f1 f2).
      move=> c j hcK hj; have := suppP hr HP g3 f1 hj hcK.
      by rewrite /prodm /trm => E; under eq_bigr do rewrite mulrC; rewrite E; apply: eq_bigr => k _; rewrite mulrC.
    - move=> Z1; have [x [-> [Ri f1 f2]]] := QRP_InverseP hr hz hd I HP stA stB h2 h3 h4 Z1.
      have [k1 k2 k3] := pinvP QQ fact hr hz HP g1 f1 f2.
      have tp n (D F : fm C) i j : prodm n (trm D) (trm F) i j = prodm n F D j i.
        by rewrite /prodm; apply: eq_bigr => k _; rewrite /trm mulrC.
      split; [|split].
      + move=> i j hi hj; rewrite prodmA /trm -[RHS](k2 j i) // {1 3}/prodm.
        by apply: eq_bigr => k _; rewrite -/(trm A') -/(trm x) tp mulrC.
      + move=> i j hi hj; rewrite prodmA /trm -[RHS](k3 j i) // {1 3}/prodm.
        by apply: eq_bigr => k _; rewrite -/(trm A') -/(trm x) tp mulrC.
      + by move=> i j hi hj; rewrite (tp Mr x A' j i) (tp Mr x A' i j); apply: k1.
  move=> I hr hz HP g1 g2 g3 g4 QQ fact; exists A'; split; first exact: g2.
  split; first by move=> er i j hi hj; rewrite g4.
  split; [|split].
  - move=> K Z1 m.
    have [x [-> [[x1 [f1 f2]] _]]] := QRP_LDivP hr hz hd I HP stA stB h2 h3 h4 K Z1 m.
    split; first exact: (lsqP QQ fact hr hz HP g1 f1 f2).
    exact: (suppP hr HP g3 f1).
  - move=> K Z1 m.
    have [x [-> [x1 [f1 f2]]]] := QRP_RDivP hr hz hd I HP stA stB h2 h3 h4 K Z1 m.
    exact: (shortP QQ fact hr hz hd HP g1 f1 f2).
  - move=> Z1; have [x [-> [Ri f1 f2]]] := QRP_InverseP hr hz hd I HP stA stB h2 h3 h4 Z1.
    by have [k1 k2 k3] := pinvP QQ fact hr hz HP g1 f1 f2.
Qed.
Print Assumptions C50_division_partial.

(** A decomposition that drops nothing and leaves no zero on the diagonal. *)
Lemma no_drop (C : numClosedFieldType) M N (A : fm C) b0 P0 (d0 tol : C) st rk r X Ax b P d :
  qrpres M N A b0 P0 d0 tol st rk r X Ax b P d -> stripz (fun k => Ax k k) N = N -> r = N.
Proof.
  move=> R e; have := qp_r R; case: (eqVneq r N) => // ne hr; have hN : (0 < N)%N by lia.
  have z : Ax N.-1 N.-1 = 0 by apply: (qp_zero R); lia.
  move: e; rewrite -{1 2}(ltn_predK hN) /= z eqxx.
  have : (stripz (fun k => Ax k k) N.-1 <= N.-1)%N by elim: N.-1 => //= n IH; case: ifP => // _; lia.
  lia.
Qed.

(** makeInverseATA, any algorithm: (A^dagger A)^-1, with A transposed when it is wide; it
    throws Singular only if columns were dropped or A is not of full rank. *)
Theorem C50_inverse_ATA (C : numClosedFieldType) (nb tb : nat) (under : C -> bool) (eps : C) (strict : bool)
    (Mr Nr : nat) (A Z0 : fm C) (beta0 : fv C) (P0 : nat -> nat) (cn0 : nat -> option C) :
  (0 < nb)%N -> (0 < tb)%N -> 0 < eps -> 16%:R * eps <= 1 ->
  [|| strict, (minn Mr Nr <= nb)%N | (minn Mr Nr)%:R * sqrtC eps <= 1] ->
  match QRPDiv_new nb under eps strict Mr Nr A beta0 P0 cn0 Z0 with
  | Ok (s, N1) =>
    match QRP_InverseATA tb (minn Mr Nr) (qA s) (qP s) with
    | Ok X =>
      let ata := if (Mr < Nr)%N then (fun i j => \sum_(k < Nr) (A i k)^* * A j k)
                 else (fun i j => \sum_(k < Mr) (A k i)^* * A k j) in
      forall i j, (i < minn Mr Nr)%N -> (j < minn Mr Nr)%N ->
        prodm (minn Mr Nr) ata X i j = (i == j)%:R /\ prodm (minn Mr Nr) X ata i j = (i == j)%:R
    | Throw e => e = Singular /\ ((N1 < minn Mr Nr)%N \/ ~ fullrank Mr Nr A)
    | UB => False
    end
  | _ => False
  end.
Proof.
  move=> h1 h2 e0 e1 hc; have h : (minn Mr Nr <= maxn Mr Nr)%N by lia.
  have [s [r [X0 [-> R]]]] := newP under A h1 e0 e1 hc beta0 P0 cn0 Z0.
  have I := qinv_isqr h (qp_q R); have HP := qp_P R.
  set n := minn Mr Nr in I HP R *; set N1 := stripz _ _.
  have N1n : (N1 <= n)%N by rewrite /N1; elim: n {I HP R N1} => //= k IH; case: ifP => // _; lia.
  have FR := @fullrankB C Mr Nr A.
  have exact : r = n -> forall i c, (i < maxn Mr Nr)%N -> (c < n)%N -> X0 i c = QRDiv_QRx Mr Nr A i (psig (qP s) 0 n c).
    by move=> er i c hi hcn; rewrite (qp_exact R) ?er // /pcols hi.
  have := @QR_InverseATAP C n tb (qA s) h2; rewrite /QRP_InverseATA.
  case: (QR_InverseATA _ _ _) => [Y|e|] //=; last first.
    case/zero_diag_det => -> d0; split=> //; case: (ltngtP N1 n) N1n => // [hn _|en _]; [by left|right].
    move=> /FR hi; have er := no_drop R en.
    have := pcols_indep HP hi; have := indepP I; rewrite d0 eqxx => -[h3 _] h4; apply: (Bool.diff_false_true); apply: h3.
    move=> x hx; apply: h4 => i hi'; rewrite -[RHS](hx i hi'); apply: eq_bigr => k _.
    by rewrite exact // /pcols hi'.
  case=> Ri f1 f2; have f1' := mulmx1C f1; have QQ := Qh_unit I.
  have er : r = n.
    apply: (no_drop R); have hd a : (a < n)%N -> qA s a a != 0.
      move=> ha; apply/negP => /eqP za; have : \det (Rm n (qA s)) = 0.
        by rewrite det_Rm big_mkord; apply/eqP/prodf_eq0; exists (Ordinal ha) => //=; rewrite za.
      by move/(congr1 (fun z => z * \det Ri)); rewrite -det_mulmx f1 det1 mul0r => /eqP; rewrite oner_eq0.
    by apply: stripzP => // i hi; lia.
  have [S [g1 g2 g3 g4 g5]] := permS (iq_fact I) HP (exact er).
  set ata := if _ then _ else _; set Xr := trm _.
  have eX : mx n n Xr = perm_mx (S^-1)%g *m (Ri *m ctr Ri) *m perm_mx S.
    have k1 (D : fm C) : mx n n (revpermrows n (qP s) 0 n D) = perm_mx (S^-1)%g *m mx n n D.
      have -> : mx n n D = perm_mx S *m mx n n (revpermrows n (qP s) 0 n D).
        by rewrite -g5; apply: mx_ext => i j hi hj; rewrite revpermrowsK.
      by rewrite mulmxA g3 mul1mx.
    have k2 (D : fm C) : mx n n (trm D) = (mx n n D)^T by apply/matrixP => i j; rewrite !mxE.
    by rewrite /Xr k2 k1 k2 k1 f2 trmx_mul trmxK tr_perm_mx invgK.
  have cS : ctr (perm_mx S : 'M[C]_n) = perm_mx (S^-1)%g.
    rewrite -tr_perm_mx; apply/matrixP => i j; rewrite !mxE; by case: eqP => _; rewrite ?conjC1 ?conjC0.
  have eA : mx n n ata = perm_mx (S^-1)%g *m (ctr (Rm n (qA s)) *m Rm n (qA s)) *m perm_mx S.
    have -> : mx n n ata = ctr (mx (maxn Mr Nr) n (QRDiv_QRx Mr Nr A)) *m mx (maxn Mr Nr) n (QRDiv_QRx Mr Nr A).
      apply/matrixP => i j; rewrite !mxE /ata /QRDiv_QRx /istrans; by case: ltnP => h'; apply: eq_bigr => k _; rewrite !mxE.
    move: (Qh _ _ _ _) QQ g2 => q QQ ->; rewrite !ctrM cS -!mulmxA; do 2 congr (_ *m _).
    by rewrite (mulmxA (ctr q)) QQ mul1mx.
  have p1 : mx n n ata *m mx n n Xr = 1%:M.
    rewrite eA eX -!mulmxA (mulmxA (perm_mx S)) g4 mul1mx (mulmxA (Rm n (qA s))) f1 mul1mx.
    by rewrite (mulmxA (ctr _) (ctr _)) -ctrM f1' ctr1 mul1mx.
  have p2 := mulmx1C p1.
  move=> i j hi hj; have /matrixP/(_ (Ordinal hi) (Ordinal hj)) := p1.
  have /matrixP/(_ (Ordinal hi) (Ordinal hj)) := p2.
  by rewrite !mx_mulE /prodm => -> ->; rewrite mxE -val_eqE.
Qed.
Print Assumptions C50_inverse_ATA.

(** det() of a square matrix: the determinant, or zero if columns were dropped. *)
Theorem C50_det (C : numClosedFieldType) (nb : nat) (under : C -> bool) (eps : C) (strict : bool)
    (N : nat) (A Z0 : fm C) (beta0 : fv C) (P0 : nat -> nat) (cn0 : nat -> option C) :
  (0 < nb)%N -> 0 < eps -> 16%:R * eps <= 1 -> [|| strict, (N <= nb)%N | N%:R * sqrtC eps <= 1] ->
  match QRPDiv_new nb under eps strict N N A beta0 P0 cn0 Z0 with
  | Ok (s, N1) => QR_det N (qA s) (qd s) = if N1 == N then \det (\matrix_(i < N, j < N) A i j) else 0
  | _ => False
  end.
Proof.
  move=> h1 e0 e1 hc; have hc' : [|| strict, (minn N N <= nb)%N | (minn N N)%:R * sqrtC eps <= 1] by rewrite minnn.
  have [s [r [X0 [-> R]]]] := newP under A h1 e0 e1 hc' beta0 P0 cn0 Z0.
  move: R; rewrite /QRDiv_QRx /istrans ltnn maxnn minnn => R; rewrite /QR_det (qrp_det R) mul1r.
  case: (eqVneq (stripz _ _) N) => [en|ne]; first by rewrite (no_drop R en) eqxx.
  case: (eqVneq r N) => // er.
  have := qrp_det R; rewrite er eqxx mul1r => <-.
  suff [i hi z] : exists2 i, (i < N)%N & qA s i i = 0.
    by apply/eqP; rewrite mulf_eq0; apply/orP; right; rewrite big_mkord; apply/prodf_eq0; exists (Ordinal hi) => //=; rewrite z.
  move: ne {R hc hc' er Z0 X0}; elim: N => //= n IH; case: (qA s n n =P 0) => [z _|_]; first by exists n.
  by rewrite eqxx.
Qed.
Print Assumptions C50_det.

(** A rank deficient matrix is reported as singular, whatever the algorithm. *)
Theorem C50_singular (C : numClosedFieldType) (nb : nat) (under : C -> bool) (eps : C) (strict : bool)
    (Mr Nr : nat) (A Z0 : fm C) (beta0 : fv C) (P0 : nat -> nat) (cn0 : nat -> option C) (abs2 : C -> C) :
  (0 < nb)%N -> 0 < eps -> 16%:R * eps <= 1 ->
  [|| strict, (minn Mr Nr <= nb)%N | (minn Mr Nr)%:R * sqrtC eps <= 1] ->
  (forall x, 0 <= abs2 x) -> abs2 0 = 0 -> ~ fullrank Mr Nr A ->
  match QRPDiv_new nb under eps strict Mr Nr A beta0 P0 cn0 Z0 with
  | Ok (s, _) => isSingular abs2 eps (minn Mr Nr) (qA s) = true
  | _ => False
  end.
Proof.
  move=> h1 e0 e1 hc ha1 ha2 nf; have h : (minn Mr Nr <= maxn Mr Nr)%N by lia.
  have [s [r [X0 [-> R]]]] := newP under A h1 e0 e1 hc beta0 P0 cn0 Z0.
  have I := qinv_isqr h (qp_q R); have HP := qp_P R.
  apply: isSingularP => //; first exact: ltW.
  case: (ltngtP r (minn Mr Nr)) (qp_r R) => // [hr _|er _].
    by exists r; split=> //; apply: (qp_zero R); lia.
  case: (eqVneq (\det (Rm (minn Mr Nr) (qA s))) 0) => [/eqP|dn].
    by rewrite det_Rm big_mkord => /prodf_eq0 [i _ /eqP E]; exists (val i); split; [exact: ltn_ord | exact: E].
  case: nf; apply/fullrankB; apply: (colswaps_indep HP); have := indepP I; case=> _ /(_ dn) H x hx; apply: H => i hi.
  rewrite -[RHS](hx i hi); apply: eq_bigr => k _; rewrite (qp_exact R) ?er //.
  by rewrite (colswapsE _ _ _ _ hi).
Qed.
Print Assumptions C50_singular.

(** The hypotheses of C50_division_partial and C50_singular: a block of 64, double. *)
Example ex_qrpdiv (C : numClosedFieldType) : let eps : C := (2%:R ^+ 52)^-1 in
  [/\ (0 < 64)%N, 0 < eps, 16%:R * eps <= 1, [|| false, (minn 70 65 <= 64)%N | (minn 70 65)%:R * sqrtC eps <= 1] &
    fullrank 70 65 (fun i j => (i == j)%:R : C) /\ ~ fullrank 70 65 (fun i j => (i == 0%N)%:R : C)].
Proof.
  have [h1 h2 h3] := ex_qrp C; split=> //; rewrite /fullrank /=; split.
    move=> x hx k hk; have := hx k ltac:(lia); rewrite (bigD1 (Ordinal hk)) //= eqxx mul1r big1 ?addr0 // => i ne.
    by have -> : (k == val i) = false by [apply/negbTE; move: ne; rewrite -val_eqE /= eq_sym]; rewrite mul0r.
  pose v : fv C := fun k => if k == 0%N then 1 else if k == 1%N then -1 else 0.
  move=> H; suff h0 : forall i, (i < 70)%N -> \sum_(k < 65) (i == 0%N)%:R * v k = 0.
    by have /eqP := H v h0 0%N isT; rewrite oner_eq0.
  move=> i hi; rewrite /v.
  rewrite big_ord_recl big_ord_recl big1 /= ?addr0 => [|k _]; last by rewrite /bump /= mulr0.
  by rewrite mulr1 mulrN1 subrr.
Qed.

(** The default algorithm on more columns than a block, below full rank.  With the columns
    e0, ..., e0, e1 (one more than a block) the last one is lost without any sign of it:
    e1/A is zero, though A x = e1 has a solution.  (In LooseBlockQRPDecompose the column
    put in place of a low one is not examined, so that it may be zero itself.) *)
Lemma revperm0 (F : fieldType) K P lo n (A : fm F) c : (forall i, A i c = 0) -> forall i, revpermrows K P lo n A i c = 0.
Proof.
  rewrite /revpermrows; elim: (rev _) A => //= k l IH A h i; apply: IH => i'.
  by rewrite /swaprows; case: ifP => _; rewrite h.
Qed.
Theorem C50_loose_least_squares_refuted (C : numClosedFieldType) (nb nb2 tb tb2 : nat) (under : C -> bool) (stA stB : stor)
    (eps : C) (Z0 Z1 : fm C) (beta0 : fv C) (P0 : nat -> nat) (cn0 : nat -> option C) :
  (3 <= nb)%N -> (0 < nb2)%N -> (0 < tb)%N -> (0 < tb2)%N -> 0 < eps -> nb.+1%:R * sqrtC eps <= 1 ->
  let N := nb.+1 in
  let A : fm C := fun i c => if c == nb then (i == 1%N)%:R else (i == 0%N)%:R in
  let m : fm C := fun i c => (i == 1%N)%:R in
  match QRPDiv_new nb under eps false N N A beta0 P0 cn0 Z0 with
  | Ok (s, N1) =>
    match QRPDiv_LDiv nb2 tb tb2 stA stB N N 1 (qA s) (qb s) (qP s) N1 Z1 m with
    | Ok X => (forall k, (k < N)%N -> X k 0%N = 0) /\ resid2 N N A (fun k => X k 0%N) (fun i => m i 0%N) = 1 /\
              exists y, resid2 N N A y (fun i => m i 0%N) = 0
    | _ => False
    end
  | _ => False
  end.
Proof.
  move=> h1 h2 h3 h4 e0 e1 N A m.
  have [s [E hA hb]] := loose_bad under h1 e0 e1 beta0 P0 1 cn0 Z0.
  rewrite /QRPDiv_new /QRDiv_QRx /istrans ltnn maxnn minnn E [bindO (Ok _) _]/=.
  have d0 : qA s 0%N 0%N = 1 by rewrite hA /W; case: eqP => // e; rewrite -e in h1.
  have -> : (if qA s nb nb == 0 then stripz (fun k => qA s k k) nb else nb.+1) = 1%N.
    change (stripz (fun k => qA s k k) nb.+1 = 1%N); apply: stripzP => // [a|i].
      by case: a => // _; rewrite d0 oner_eq0.
    case/andP=> hi hi2; rewrite hA /W; case: (eqVneq i nb) => e.
      by rewrite e; case: eqP => // e'; rewrite e' in h1.
    by case: eqP => // e'; rewrite e' in hi.
  rewrite /QRPDiv_LDiv /istrans ltnn /QRP_LDiv.
  have -> : Q_LDivEq nb2 N N 1 (qA s) (qb s) Z1 m = Ok m.
    rewrite /Q_LDivEq; have -> : (nb2 < 1)%N = false by lia.
    rewrite andbF; congr Ok; rewrite /NBQLDivEq.
    have : forall i, i \in iota 0 N -> (i < N)%N by move=> i; rewrite mem_iota add0n.
    elim: (iota 0 N) => //= i l IH hl; rewrite hb ?eqxx /=; last by apply: hl; rewrite inE eqxx.
    by apply: IH => k hk; apply: hl; rewrite inE hk orbT.
  rewrite [bindO (Ok _) _]/=; set x0 : fm C := fun i j => _.
  have x00 i : x0 i 0%N = 0.
    rewrite /x0 /m /=; case: ifP => // /negbT h; case: eqP => // e; move: h; rewrite e andbT; lia.
  have := TriLDivEqMUP h3 h4 stA stB false 1 1 (qA s) x0.
  case: (TriLDivEqMU _ _ _ _ _ _ _ _ _) => [x|e|] //=; last first.
    by case=> _ [_ [i [hi]]]; case: i hi => // _; rewrite d0 => /eqP; rewrite oner_eq0.
  move=> [g1 g2]; have xz i : x i 0%N = 0.
    case: i => [|i]; last by rewrite g2 // x00.
    by have := g1 0%N 0%N isT isT; rewrite x00 big_ord1 /upper /= d0 mul1r.
  have z := @revperm0 C 1 (qP s) 0 N x 0%N xz.
  split; first by move=> k _; exact: z.
  split.
    rewrite /resid2 (bigD1 (Ordinal (ltac:(rewrite /N; lia) : (1 < N)%N))) //= big1 => [|k _]; last by rewrite z mulr0.
    rewrite /m eqxx sub0r normrN normr1 expr1n big1 ?addr0 // => i ne; rewrite big1 => [|k _]; last by rewrite z mulr0.
    have -> : (val i == 1%N) = false by apply/negbTE; move: ne; rewrite -val_eqE.
    by rewrite subr0 normr0 expr0n.
  exists (fun k => (k == nb)%:R); apply: big1 => i _.
  rewrite (bigD1 (Ordinal (ltnSn nb))) //= /A eqxx mulr1 big1 => [|k ne]; last first.
    have -> : (val k == nb) = false by apply/negbTE; move: ne; rewrite -val_eqE.
    by rewrite mulr0.
  by rewrite addr0 subrr normr0 expr0n.
Qed.
Print Assumptions C50_loose_least_squares_refuted.

(** "For actually singular matrices, this should produce essentially the same result as
    the SVD solution" (doc/Matrix.tex:1781): not the same.  The SVD solution is the
    shortest one; with the matrix of ones and (1,1) QRP gives one twice as long. *)
Theorem C50_svd_solution_refuted (C : numClosedFieldType) (nb nb2 tb tb2 : nat) (under : C -> bool) (stA stB : stor)
    (eps : C) (strict : bool) (Z0 Z1 : fm C) (beta0 : fv C) (P0 : nat -> nat) (cn0 : nat -> option C) :
  (2 <= nb)%N -> (0 < nb2)%N -> (0 < tb)%N -> (0 < tb2)%N -> 0 < eps -> 16%:R * eps <= 1 ->
  let A : fm C := fun i c => 1 in let m : fm C := fun i c => 1 in
  match QRPDiv_new nb under eps strict 2 2 A beta0 P0 cn0 Z0 with
  | Ok (s, N1) =>
    match QRPDiv_LDiv nb2 tb tb2 stA stB 2 2 1 (qA s) (qb s) (qP s) N1 Z1 m with
    | Ok X => resid2 2 2 A (fun k => X k 0%N) (fun i => m i 0%N) = 0 /\
              exists y, resid2 2 2 A y (fun i => m i 0%N) = 0 /\ norm2 2 (fun k => X k 0%N) = 2%:R * norm2 2 y
    | _ => False
    end
  | _ => False
  end.
Proof.
  move=> h1 h2 h3 h4 e0 e1 A m; have h1' : (0 < nb)%N by lia.
  have hc : [|| strict, (minn 2 2 <= nb)%N | (minn 2 2)%:R * sqrtC eps <= 1] by rewrite minnn h1 orbT.
  have hs : strict || (minn 2 2 <= nb)%N \/ fullrank 2 2 A by left; rewrite minnn h1 orbT.
  have [s [r [A' [-> [X H]]]]] := newP2 under h1' e0 e1 hc beta0 P0 cn0 Z0 hs.
  change (minn 2 2) with 2%N in H; change (maxn 2 2) with 2%N in H; change (QRDiv_QRx 2 2 A) with A in H.
  move: H => [I hr [hz hd] HP [g1 g2 g3 g4]].
  rewrite /QRPDiv_LDiv /istrans ltnn.
  have QQ := Qh_unit I; have fact := iq_fact I.
  have [x [-> [[x1 [f1 f2]] _]]] := QRP_LDivP hr hz hd I HP stA stB h2 h3 h4 1 Z1 m.
  have P1 : qP s 1%N = 1%N by have := HP 1%N isT; lia.
  have [a [ha hb ab]] : exists a, [/\ psig (qP s) 0 2 0 = a, psig (qP s) 0 2 1 = (1 - a)%N & (a < 2)%N].
    by exists (qP s 0%N); rewrite /psig /= P1 /tsw /=; have := HP 0%N isT; case: (qP s 0%N) => [|[|]].
  have r0 : r != 0%N.
    apply/eqP => er; have R0 : Rm 2 (qA s) = 0.
      apply/matrixP => i j; rewrite !mxE /upper; case: eqP => [e|ne]; first by apply: hz; rewrite ?er //; have := ltn_ord j; lia.
      by case: ltnP => // h; apply: hz; rewrite ?er //; have := ltn_ord j; lia.
    have A0 i : (i < 2)%N -> A' i a = 0.
      move=> hi; rewrite -ha -g1 //; move: fact; rewrite R0 mulmx0 => /matrixP /(_ (Ordinal hi) ord0); by rewrite !mxE.
    have := g2 a ab; rewrite /frob2 !big_ord_recl !big_ord0 /= !A0 // /A !sub0r !normrN !normr1 !expr1n !addr0 => h.
    have e16 : eps <= 16%:R * eps by rewrite -{1}[eps]mul1r ler_pmul2r // ler1n.
    have q1 : eps ^+ 2 <= eps by rewrite expr2 -[X in _ <= X]mul1r ler_pmul2r //; apply: le_trans e1.
    have q8 : 8%:R * eps ^+ 2 <= 1.
      by apply: le_trans e1; apply: ler_pmul => //; rewrite ?ler0n ?ler_nat // exprn_ge0 // ltW.
    have : (1 + 1 : C) <= 1.
      apply: le_trans q8; move: h; rewrite -!mulr2n -mulrnA mulrAC -natrM; exact.
    by rewrite -mulr2n lern1.
  have r2 : r != 2%N.
    apply/eqP => er; have [_ H] := indepP I.
    have dn : \det (Rm 2 (qA s)) != 0.
      by rewrite det_Rm big_mkord; apply/prodf_neq0 => i _; apply: hd; rewrite er.
    suff h0 : forall i, (i < 2)%N -> \sum_(k < 2) X i k * (if val k == 0%N then 1 else -1) = 0.
      by have /eqP := H dn (fun k => if k == 0%N then 1 else -1) h0 0%N isT; rewrite oner_eq0.
    move=> i hi; rewrite !big_ord_recl big_ord0 /= !g1 // ha hb !g4 //; last lia.
    by rewrite /A mulr1 mul1r addr0 subrr.
  have er : r = 1%N by lia.
  clear r0 r2 g4; subst r.
  have xb : x (1 - a)%N 0%N = 0.
    move/matrixP/(_ (Ordinal (isT : (1 < 2)%N)) ord0): f1; rewrite !mxE permrowsE /= hb => ->; rewrite big_ord1 !mxE /=; by rewrite mul0r.
  have Aa i : (i < 2)%N -> A' i a = 1 by move=> hi; rewrite -ha g3.
  have sp := suppP hr HP g3 f1; have ls := lsqP QQ fact hr hz HP g1 f1 f2.
  have two (f : nat -> C) : \sum_(k < 2) f k = f a + f (1 - a)%N.
    by rewrite !big_ord_recl big_ord0 /=; case: a {ha hb xb Aa} ab => [|[|]] // _; rewrite addr0 // addrC.
  have x1' : x a 0%N = 1.
    have := ls (fun k => (k == a)%:R) 0%N isT; rewrite /resid2.
    have -> : \sum_(i < 2) `|\sum_(k < 2) A' i k * (val k == a)%:R - m i 0%N| ^+ 2 = 0.
      apply: big1 => i _; rewrite (two (fun k => A' i k * (k == a)%:R)) eqxx Aa // mulr1.
      have -> : ((1 - a)%N == a) = false by lia.
      by rewrite mulr0 addr0 /m subrr normr0 expr0n.
    rewrite -[X in X <= 0](_ : \sum_(i < 2) `|x a 0%N - 1| ^+ 2 = _); last first.
      apply: eq_bigr => i _; have := sp i 0%N (ltn_ord i) isT; rewrite /prodm => ->.
      by rewrite (two (fun k => A i k * x k 0%N)) xb mulr0 addr0 /A mul1r.
    rewrite sumr_const card_ord => h; have : `|x a 0%N - 1| ^+ 2 *+ 2 == 0 by rewrite eq_le h mulrn_wge0 ?exprn_ge0.
    by rewrite mulrn_eq0 /= expf_eq0 /= normr_eq0 subr_eq0 => /eqP.
  split.
    by apply: big1 => i _; rewrite (two (fun k => A i k * x k 0%N)) xb x1' mulr0 addr0 mulr1 /A /m subrr normr0 expr0n.
  have hh : 2%:R^-1 + 2%:R^-1 = 1 :> C by rewrite -[2%:R^-1]mul1r -mulrDl -mulr2n divff // pnatr_eq0.
  exists (fun _ => 2%:R^-1); split.
    by apply: big1 => i _; rewrite (two (fun k => A i k * 2%:R^-1)) /A !mul1r hh subrr normr0 expr0n.
  rewrite /norm2 (two (fun k => `|x k 0%N| ^+ 2)) (two (fun k => `|2%:R^-1| ^+ 2)) xb x1' normr1 expr1n normr0 expr0n addr0.
  rewrite ger0_norm ?invr_ge0 ?ler0n // expr2 -mulrDr hh mulr1; by rewrite divff // pnatr_eq0.
Qed.
Print Assumptions C50_svd_solution_refuted.
