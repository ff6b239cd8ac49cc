(** C31, C42: QR decomposition, and division with it. *)
From Coq Require Import Ring Field.
From Verif Require Import Base FMat TriSolve TriInv Claims_Tri LUDiv RingTac Cplx Chol Givens QR QRProofs QRDiv QRDivProofs.
From mathcomp Require Import all_ssreflect all_fingroup all_algebra all_field zify.
Set Implicit Arguments. Unset Strict Implicit. Unset Printing Implicit Defensive.
Import GRing.Theory Num.Theory Order.Theory.
Local Open Scope ring_scope.

(** Specification. *)
Section Spec.
Variable C : numClosedFieldType.
Implicit Types (A X : fm C) (x b : fv C).
(** The columns of the M x N matrix Q are orthonormal. *)
Definition orthonormal (M N : nat) (Q : fm C) : Prop :=
  forall c c', (c < N)%N -> (c' < N)%N -> \sum_(i < M) (Q i c)^* * Q i c' = (c == c')%:R.
(** |A x - b|^2 and |x|^2. *)
Definition resid2 (M N : nat) A x b : C := \sum_(i < M) `|\sum_(k < N) A i k * x k - b i| ^+ 2.
Definition norm2 (N : nat) x : C := \sum_(k < N) `|x k| ^+ 2.
(** The columns of the M x N matrix A are linearly independent. *)
Definition indep (M N : nat) A : Prop :=
  forall x, (forall i, (i < M)%N -> \sum_(k < N) A i k * x k = 0) -> forall k, (k < N)%N -> x k = 0.
(** An Mr x Nr matrix of full rank: its columns, or its rows when these are fewer. *)
Definition fullrank (Mr Nr : nat) A : Prop :=
  if (Mr < Nr)%N then indep Nr Mr (trm A) else indep Mr Nr A.
(** The element (i,j) of the n-term product A B. *)
Definition prodm (n : nat) A X : fm C := fun i j => \sum_(k < n) A i k * X k j.
Definition hermitian (n : nat) A : Prop := forall i j, (i < n)%N -> (j < n)%N -> A j i = (A i j)^*.
End Spec.

Section Bridge.
Variable C : numClosedFieldType.
Implicit Types (A X Q m : fm C) (x b beta : fv C).
Definition vec n x : 'cV[C]_n := \col_i x i.
Lemma norm2E n x : norm2 n x = nsq (vec n x).
Proof. by apply: eq_bigr => i _; rewrite mxE normCK. Qed.
Lemma resid2E M N A x b : resid2 M N A x b = nsq (mx M N A *m vec N x - vec M b).
Proof.
  apply: eq_bigr => i _; rewrite normCK !mxE.
  have -> : \sum_j mx M N A i j * vec N x j 0 = \sum_(k < N) A i k * x k by apply: eq_bigr => j _; rewrite !mxE.
  by [].
Qed.
Lemma vec_mx N K X c : (c < K)%N -> forall (hc : (c < K)%N), vec N (fun i => X i c) = col (Ordinal hc) (mx N K X).
Proof. by move=> _ hc; apply/matrixP => i j; rewrite !mxE. Qed.
Lemma colM n p q (X : 'M[C]_(n, p)) (Y : 'M[C]_(p, q)) j : col j (X *m Y) = X *m col j Y.
Proof. by apply/matrixP => i k; rewrite !mxE; apply: eq_bigr => l _; rewrite !mxE. Qed.
Lemma Qh_sq M N A Q beta : isqr M N A Q beta -> M = N -> Qh M N Q beta *m ctr (Qh M N Q beta) = 1%:M.
Proof. by move=> I e; subst N; apply: mulmx1C; apply: (Qh_unit I). Qed.
Lemma indepP M N A Q beta : isqr M N A Q beta -> indep M N A <-> \det (Rm N Q) != 0.
Proof.
  move=> I; have QQ := Qh_unit I; case: (I) => _ _ Fa _ _; split=> [H|H x hx k hk].
    rewrite -det_tr; apply/negP => /matrix.det0P [v v0 hv].
    have hv2 : Rm N Q *m v^T = 0 by rewrite -[Rm N Q]trmxK -trmx_mul hv trmx0.
    suff : v = 0 by apply/eqP.
    pose x : fv C := fun k => if insub k is Some k' then v 0 k' else 0.
    have hx : forall i, (i < M)%N -> \sum_(k < N) A i k * x k = 0.
      move=> i hi; have /matrixP/(_ (Ordinal hi) 0) : mx M N A *m v^T = 0 by rewrite Fa -mulmxA hv2 mulmx0.
      by rewrite mxE [in X in _ = X -> _]mxE => e; rewrite -[RHS]e; apply: eq_bigr => k _; rewrite !mxE /x valK.
    apply/matrixP => i k; rewrite !mxE ord1; have := H x hx k (ltn_ord k).
    by rewrite /x valK.
  have RU : Rm N Q \in unitmx by rewrite unitmxE unitfE.
  have e : mx M N A *m vec N x = 0.
    apply/matrixP => i j; rewrite !mxE; rewrite -[RHS](hx i (ltn_ord i)).
    by apply: eq_bigr => l _; rewrite !mxE.
  have : invmx (Rm N Q) *m (ctr (Qh M N Q beta) *m (mx M N A *m vec N x)) = 0 by rewrite e !mulmx0.
  rewrite Fa -mulmxA (mulmxA (ctr _)) QQ mul1mx mulKmx // => /matrixP/(_ (Ordinal hk) 0).
  by rewrite !mxE.
Qed.

Lemma newP nb under Mr Nr A beta0 Z0 : (0 < nb)%N ->
  exists Q beta d, [/\ QRDiv_new nb under Mr Nr A beta0 Z0 = Ok (Q, beta, d),
    isqr (maxn Mr Nr) (minn Mr Nr) (QRDiv_QRx Mr Nr A) Q beta &
    d = \det (Pr (maxn Mr Nr) Q (zb beta) 0 (minn Mr Nr))].
Proof.
  move=> nbP; have h : (minn Mr Nr <= maxn Mr Nr)%N by lia.
  have [Q [beta [d [E [H _]]]]] := QR_DecomposeP under nbP (QRDiv_QRx Mr Nr A) beta0 1 Z0 h.
  exists Q, beta, d; split=> //; first exact: (qinv_isqr h H).
  by rewrite (qi_det H) mul1r.
Qed.

Section Div.
Variables (tb tb2 nb : nat) (stA stB : stor).
Hypotheses (h1 : (0 < nb)%N) (h2 : (0 < tb)%N) (h3 : (0 < tb2)%N).
Variables (M N : nat) (A Q : fm C) (beta : fv C).
Hypothesis I : isqr M N A Q beta.

Lemma ldiv_normal K X m : Rm N Q *m mx N K X = ctr (Qh M N Q beta) *m mx M K m ->
  ctr (mx M N A) *m (mx M N A *m mx N K X - mx M K m) = 0.
Proof using I.
  move=> e; have QQ := Qh_unit I; rewrite (iq_fact I) ctrM -mulmxA mulmxBr.
  by rewrite -(mulmxA (Qh M N Q beta)) e (mulmxA (ctr (Qh _ _ _ _)) (Qh _ _ _ _)) QQ mul1mx subrr mulmx0.
Qed.
Lemma ldivP K Z0 m : post (fun X =>
    (forall y c, (c < K)%N -> resid2 M N A (fun k => X k c) (fun i => m i c) <= resid2 M N A y (fun i => m i c)) /\
    (M = N -> forall i c, (i < M)%N -> (c < K)%N -> prodm N A X i c = m i c))
  (fun e => e = Singular /\ ~ indep M N A) (QR_LDiv nb tb tb2 stA stB M N K Q beta Z0 m).
Proof using h1 h2 h3 I.
  apply: post_imp (QR_LDivP stA stB Z0 K m h1 h2 h3 I) => [X [e _]|e /zero_diag_det [-> d0]]; last first.
    by split=> // /(indepP I); rewrite d0 eqxx.
  have nrm := ldiv_normal e; split.
    move=> y c hc; rewrite !resid2E; apply: lsq.
    move/(congr1 (col (Ordinal hc))): nrm; rewrite colM.
    have -> : col (Ordinal hc) (0 : 'M[C]_(N, K)) = 0 by apply/matrixP => i j; rewrite !mxE.
    have -> : col (Ordinal hc) (mx M N A *m mx N K X - mx M K m)
              = mx M N A *m vec N (fun k => X k c) - vec M (fun i => m i c); last by [].
    by apply/matrixP => i j; rewrite !mxE //; congr (_ - _); apply: eq_bigr => k _; rewrite !mxE.
  move=> EMN; have QU := Qh_sq I EMN.
  have eq : mx M N A *m mx N K X = mx M K m by rewrite (iq_fact I) -mulmxA e mulmxA QU mul1mx.
  by move=> i c hi hc; move/(mx_mulP M N K): eq => H; rewrite /prodm H.
Qed.
Lemma rdivP K Z0 m : post (fun X =>
    (forall r c, (r < K)%N -> (c < N)%N -> prodm M X A r c = m r c) /\
    (indep M N A -> forall (y : fv C) r, (r < K)%N -> (forall c, (c < N)%N -> \sum_(k < M) y k * A k c = m r c) ->
       norm2 M (fun k => X r k) <= norm2 M y))
  (fun e => e = Singular /\ ~ indep M N A) (QR_RDiv nb tb tb2 stA stB M N K Q beta Z0 m).
Proof using h1 h2 h3 I.
  apply: post_imp (QR_RDivP stA stB Z0 K m h1 h2 h3 I) => [X [[X1 [e1 e2]] _]|e /zero_diag_det [-> d0]]; last first.
    by split=> // /(indepP I); rewrite d0 eqxx.
  have QQ := Qh_unit I.
  have eq : mx K M X *m mx M N A = mx K N m.
    by rewrite e1 (iq_fact I) mulmxA -(mulmxA X1) QQ mulmx1.
  split; first by move=> r c hr hc; move/(mx_mulP K M N): eq => H; rewrite /prodm H.
  move=> /(indepP I) d0 y r hr hy; have RU : Rm N Q \in unitmx by rewrite unitmxE unitfE.
  have cv (z : fv C) : norm2 M z = nsq (ctr (\row_k z k : 'rV_M)).
    by apply: eq_bigr => i _; rewrite !mxE conjCK mulrC normCK.
  rewrite !cv; apply: minnorm; set xr := \row_k X r k; set yr := \row_k _.
  have ex : xr = row (Ordinal hr) X1 *m ctr (Qh M N Q beta).
    rewrite -row_mul -e1; by apply/matrixP => i j; rewrite !mxE.
  have hA : (yr - xr) *m mx M N A = 0.
    apply/matrixP => i c; rewrite mulmxBl !mxE.
    have := hy c (ltn_ord c); rewrite (eq_bigr (fun j : 'I_M => yr i j * mx M N A j c)); last by move=> k _; rewrite !mxE.
    move=> ->; have /matrixP/(_ (Ordinal hr) c) := eq; rewrite !mxE => <-; rewrite -sumrB big1 // => k _.
    by rewrite !mxE subrr.
  have hq : (yr - xr) *m Qh M N Q beta = 0.
    have := hA; rewrite (iq_fact I) mulmxA => /(congr1 (fun Z => Z *m invmx (Rm N Q))).
    by rewrite mulmxK // mul0mx.
  by rewrite {2}ex ctrM ctrK mulmxA hq mul0mx.
Qed.
Lemma invP Z0 : post (fun X =>
    (forall i j, (i < N)%N -> (j < N)%N -> prodm M X A i j = (i == j)%:R) /\
    hermitian M (prodm N A X) /\ (M = N -> forall i j, (i < M)%N -> (j < M)%N -> prodm N A X i j = (i == j)%:R))
  (fun e => e = Singular /\ ~ indep M N A) (QR_Inverse nb tb M N Q beta Z0).
Proof using h1 h2 I.
  apply: post_imp (QR_InverseP Z0 h1 h2 I) => [X [Ri e1 e2]|e /zero_diag_det [-> d0]]; last first.
    by split=> // /(indepP I); rewrite d0 eqxx.
  have QQ := Qh_unit I; have e1' := mulmx1C e1.
  have XA : mx N M X *m mx M N A = 1%:M by rewrite e2 (iq_fact I) mulmxA -(mulmxA Ri) QQ mulmx1.
  have AX : mx M N A *m mx N M X = Qh M N Q beta *m ctr (Qh M N Q beta).
    by rewrite e2 (iq_fact I) mulmxA -(mulmxA (Qh M N Q beta)) e1 mulmx1.
  have el i j (hi : (i < M)%N) (hj : (j < M)%N) :
    prodm N A X i j = (Qh M N Q beta *m ctr (Qh M N Q beta)) (Ordinal hi) (Ordinal hj).
    by rewrite -AX mx_mulE.
  split; [|split].
  - move=> i j hi hj; have /matrixP/(_ (Ordinal hi) (Ordinal hj)) := XA.
    by rewrite mx_mulE /prodm => ->; rewrite mxE -val_eqE.
  - move=> i j hi hj; rewrite !el.
    have hW : Qh M N Q beta *m ctr (Qh M N Q beta) = ctr (Qh M N Q beta *m ctr (Qh M N Q beta)) by rewrite ctrM ctrK.
    by rewrite {1}hW mxE.
  - by move=> EMN i j hi hj; rewrite el (Qh_sq I EMN) mxE -val_eqE.
Qed.
End Div.
End Bridge.

(** Reading the statements: [QR_Decompose nb under M N A beta0 d Z0] works on the M x N
    array A; beta0 and Z0 are the uninitialised beta vector and work space, d the sign
    determinant so far, nb the block size, under the underflow test of the reflections.
    [upper false QRx] is QRx.upperTri(). *)

(** The decomposition always returns; unpacking Q and reading R off the upper triangle
    gives orthonormal columns and Q R = A, with a real diagonal of R, whatever the rank
    of A; nothing outside the M x N array changes. *)
Theorem C31_decompose (C : numClosedFieldType) (nb nb2 : nat) (under : C -> bool) (M N : nat)
    (A Z0 Z1 : fm C) (beta0 : fv C) (d : C) :
  (0 < nb)%N -> (0 < nb2)%N -> (N <= M)%N ->
  match QR_Decompose nb under M N A beta0 d Z0 with
  | Ok (QRx, beta, _) =>
    (forall k, (k < N)%N -> QRx k k \is Num.real) /\
    match GetQFromQR nb2 M N QRx beta Z1 with
    | Ok Q => orthonormal M N Q /\
              (forall i j, (i < M)%N -> (j < N)%N -> \sum_(k < N) Q i k * upper false QRx k j = A i j) /\
              (forall i j, ~~ ((i < M) && (j < N))%N -> Q i j = A i j)
    | _ => False
    end
  | _ => False
  end.
Proof.
  move=> h1 h2 hM; have [Q [beta [d' [-> [H _]]]]] := QR_DecomposeP under h1 A beta0 d Z0 hM.
  have I := qinv_isqr hM H; split; first exact: (iq_real I).
  have [Q' [-> e f]] := GetQ_Qh Z1 h2 I; split; [|split].
  - move=> c c' hc hc'; have /matrixP/(_ (Ordinal hc) (Ordinal hc')) := Qh_unit I.
    rewrite -e !mxE -val_eqE /= => <-; by apply: eq_bigr => i _; rewrite !mxE.
  - move=> i j hi hj; have := iq_fact I; rewrite -e /Rm => /esym/(mx_mulP M N N); exact.
  - by move=> i j hij; rewrite f // (qi_frame H).
Qed.
Print Assumptions C31_decompose.

(** The packed Q acts as the matrix that is unpacked: m/Q is Q^dagger m (the first N
    rows of the result), m%Q is m Q^dagger, and column norms are kept. *)
Theorem C31_packed (C : numClosedFieldType) (nb nb2 nb3 : nat) (under : C -> bool) (M N K : nat)
    (A Z0 Z1 Z2 m : fm C) (beta0 : fv C) (d : C) :
  (0 < nb)%N -> (0 < nb2)%N -> (0 < nb3)%N -> (N <= M)%N ->
  match QR_Decompose nb under M N A beta0 d Z0 with
  | Ok (QRx, beta, _) =>
    match GetQFromQR nb2 M N QRx beta Z1, Q_LDivEq nb3 M N K QRx beta Z2 m,
          Q_RDivEq nb3 M N K QRx beta Z2 (fun i j => if (j < N)%N then m i j else 0) with
    | Ok Q, Ok x, Ok y =>
      (forall j c, (j < N)%N -> (c < K)%N -> x j c = \sum_(i < M) (Q i j)^* * m i c) /\
      (forall c, (c < K)%N -> norm2 M (fun i => x i c) = norm2 M (fun i => m i c)) /\
      (forall r i, (r < K)%N -> (i < M)%N -> y r i = \sum_(j < N) m r j * (Q i j)^*)
    | _, _, _ => False
    end
  | _ => False
  end.
Proof.
  move=> h1 h2 h3 hM; have [Q [beta [d' [-> [H _]]]]] := QR_DecomposeP under h1 A beta0 d Z0 hM.
  have I := qinv_isqr hM H; have [Q' [-> e _]] := GetQ_Qh Z1 h2 I.
  have [x [-> ex _]] := Q_LDivEqP K Q beta Z2 m h3 hM; set m0 := fun i j => _.
  have [y [-> ey _]] := Q_RDivEqP K Q beta Z2 m0 h3 hM; split; [|split].
  - move=> j c hj hc; have : mx N K x = ctr (mx M N Q') *m mx M K m.
      by rewrite e /Qh ctrM -mulmxA -ex Em_rows.
    move/matrixP/(_ (Ordinal hj) (Ordinal hc)); rewrite !mxE => ->.
    by apply: eq_bigr => i _; rewrite !mxE.
  - move=> c hc; rewrite !norm2E; set u := vec _ _; set v := vec _ _.
    have euv : u = ctr (Pr M Q (zb beta) 0 N) *m v.
      move/(congr1 (col (Ordinal hc))): ex; rewrite colM => ex.
      have -> : u = col (Ordinal hc) (mx M K x) by apply/matrixP => i j; rewrite !mxE.
      by rewrite ex; congr (_ *m _); apply/matrixP => i j; rewrite !mxE.
    have := nsqE v; have := nsqE u.
    rewrite {1 2}euv ctrM ctrK mulmxA -(mulmxA (ctr v)) unit_mxC ?mulmx1; last exact: (iq_unit I).
    by move=> -> /matrixP/(_ 0 0); rewrite !mxE eqxx !mulr1n.
  - move=> r i hr hi; have : mx K M y = mx K N m *m ctr (mx M N Q').
      have -> : mx K N m = mx K N m0 by apply/matrixP => a b; rewrite !mxE /m0 ltn_ord.
      rewrite e ey /Qh ctrM mulmxA -Em_cols // => a b ha hb; rewrite /m0.
      by have -> : (b < N)%N = false by lia.
    move/matrixP/(_ (Ordinal hr) (Ordinal hi)); rewrite !mxE => ->.
    by apply: eq_bigr => j _; rewrite !mxE.
Qed.
Print Assumptions C31_packed.

(** det() of a square matrix. *)
Theorem C31_det (C : numClosedFieldType) (nb : nat) (under : C -> bool) (N : nat) (A Z0 : fm C) (beta0 : fv C) :
  (0 < nb)%N ->
  match QRDiv_new nb under N N A beta0 Z0 with
  | Ok (QRx, _, signdet) => QR_det N QRx signdet = \det (\matrix_(i < N, j < N) A i j)
  | _ => False
  end.
Proof.
  move=> h1; have [Q [beta [d [-> I ->]]]] := newP under N N A beta0 Z0 h1.
  rewrite maxnn minnn in I *; rewrite /QR_det -det_Rm.
  have -> : \matrix_(i < N, j < N) A i j = mx N N A by [].
  have := iq_fact I; rewrite /QRDiv_QRx /istrans ltnn => ->; rewrite /Qh.
  have -> : Em C N N = 1%:M by apply/matrixP => i j; rewrite !mxE -val_eqE; case: eqP.
  by rewrite mulmx1 det_mulmx.
Qed.
Print Assumptions C31_det.

(** x = b / A (A x = b) for any shape.  It throws only Singular and only when A is not
    of full rank.  For Mr >= Nr every column of the result is a least squares solution;
    for Mr <= Nr it solves the system exactly and, at full rank, is the shortest solution. *)
Theorem C42_left_division (C : numClosedFieldType) (nb nb2 tb tb2 : nat) (under : C -> bool) (stA stB : stor)
    (Mr Nr K : nat) (A Z0 Z1 m : fm C) (beta0 : fv C) :
  (0 < nb)%N -> (0 < nb2)%N -> (0 < tb)%N -> (0 < tb2)%N ->
  match QRDiv_new nb under Mr Nr A beta0 Z0 with
  | Ok (QRx, beta, _) =>
    match QRDiv_LDiv nb2 tb tb2 stA stB Mr Nr K QRx beta Z1 m with
    | Ok X =>
      ((Nr <= Mr)%N -> forall (y : fv C) c, (c < K)%N ->
         resid2 Mr Nr A (fun k => X k c) (fun i => m i c) <= resid2 Mr Nr A y (fun i => m i c)) /\
      ((Mr <= Nr)%N -> forall i c, (i < Mr)%N -> (c < K)%N -> prodm Nr A X i c = m i c) /\
      ((Mr < Nr)%N -> fullrank Mr Nr A -> forall (y : fv C) c, (c < K)%N ->
         (forall i, (i < Mr)%N -> \sum_(k < Nr) A i k * y k = m i c) ->
         norm2 Nr (fun k => X k c) <= norm2 Nr y)
    | Throw e => e = Singular /\ ~ fullrank Mr Nr A
    | UB => False
    end
  | _ => False
  end.
Proof.
  move=> h1 h2 h3 h4; have [Q [beta [d [-> I _]]]] := newP under Mr Nr A beta0 Z0 h1.
  rewrite /QRDiv_LDiv /fullrank /istrans; move: I; rewrite /QRDiv_QRx /istrans; case: ltnP => h I.
    have e1 : maxn Mr Nr = Nr by lia.
    have e2 : minn Mr Nr = Mr by lia.
    rewrite ?e1 ?e2 in I; have := rdivP stA stB h2 h3 h4 I K Z1 (trm m).
    case: (QR_RDiv _ _ _ _ _ _ _ _ _ _ _ _) => [X|e|] //= [g1 g2]; split; first by move=> *; exfalso; lia.
    split=> [_ i c hi hc|_ R y c hc hy].
      by rewrite -[RHS](g1 c i) // /prodm; apply: eq_bigr => k _; rewrite /trm mulrC.
    by apply: g2 => // i hi; rewrite /trm -hy //; apply: eq_bigr => k _; rewrite mulrC.
  have e1 : maxn Mr Nr = Mr by lia.
  have e2 : minn Mr Nr = Nr by lia.
  rewrite ?e1 ?e2 in I; have := ldivP stA stB h2 h3 h4 I K Z1 m.
  case: (QR_LDiv _ _ _ _ _ _ _ _ _ _ _ _) => [X|e|] //= [g1 g2]; split=> [_|]; first exact: g1.
  split=> [h' i c hi hc|h']; last by exfalso; lia.
  by apply: g2 => //; lia.
Qed.
Print Assumptions C42_left_division.

(** x = b % A (x A = b), the same on rows. *)
Theorem C42_right_division (C : numClosedFieldType) (nb nb2 tb tb2 : nat) (under : C -> bool) (stA stB : stor)
    (Mr Nr K : nat) (A Z0 Z1 m : fm C) (beta0 : fv C) :
  (0 < nb)%N -> (0 < nb2)%N -> (0 < tb)%N -> (0 < tb2)%N ->
  match QRDiv_new nb under Mr Nr A beta0 Z0 with
  | Ok (QRx, beta, _) =>
    match QRDiv_RDiv nb2 tb tb2 stA stB Mr Nr K QRx beta Z1 m with
    | Ok X =>
      ((Mr <= Nr)%N -> forall (y : fv C) r, (r < K)%N ->
         resid2 Nr Mr (trm A) (fun k => X r k) (fun j => m r j) <= resid2 Nr Mr (trm A) y (fun j => m r j)) /\
      ((Nr <= Mr)%N -> forall r j, (r < K)%N -> (j < Nr)%N -> prodm Mr X A r j = m r j) /\
      ((Nr <= Mr)%N -> fullrank Mr Nr A -> forall (y : fv C) r, (r < K)%N ->
         (forall j, (j < Nr)%N -> \sum_(k < Mr) y k * A k j = m r j) ->
         norm2 Mr (fun k => X r k) <= norm2 Mr y)
    | Throw e => e = Singular /\ ~ fullrank Mr Nr A
    | UB => False
    end
  | _ => False
  end.
Proof.
  move=> h1 h2 h3 h4; have [Q [beta [d [-> I _]]]] := newP under Mr Nr A beta0 Z0 h1.
  rewrite /QRDiv_RDiv /fullrank /istrans; move: I; rewrite /QRDiv_QRx /istrans; case: ltnP => h I.
    have e1 : maxn Mr Nr = Nr by lia.
    have e2 : minn Mr Nr = Mr by lia.
    rewrite ?e1 ?e2 in I; have := ldivP stA stB h2 h3 h4 I K Z1 (trm m).
    case: (QR_LDiv _ _ _ _ _ _ _ _ _ _ _ _) => [X|e|] //= [g1 g2]; split; first by move=> _ y r hr; apply: g1.
    by split=> *; exfalso; lia.
  have e1 : maxn Mr Nr = Mr by lia.
  have e2 : minn Mr Nr = Nr by lia.
  rewrite ?e1 ?e2 in I; have := rdivP stA stB h2 h3 h4 I K Z1 m.
  have := ldiv_normal I; move=> nrm.
  have P := QR_RDivP stA stB Z1 K m h2 h3 h4 I.
  case E : (QR_RDiv _ _ _ _ _ _ _ _ _ _ _ _) P => [X|e|] //= [[X1 [f1 f2]] _] [g1 g2].
  split; last by split=> // _; exact: g2.
  move=> h' y r hr; have z : resid2 Nr Mr (trm A) (fun k => X r k) (fun j => m r j) = 0.
    rewrite /resid2 big1 // => j _; have <- := g1 r j hr (ltn_ord j); rewrite /prodm.
    rewrite (eq_bigr (fun k : 'I_Mr => X r k * A k j)) ?subrr ?normr0 ?expr0n // => k _.
    by rewrite /trm mulrC.
  by rewrite z resid2E nsq_ge0.
Qed.
Print Assumptions C42_right_division.

(** inverse(): the Moore-Penrose inverse, for any shape of full rank. *)
Theorem C42_inverse (C : numClosedFieldType) (nb nb2 tb : nat) (under : C -> bool)
    (Mr Nr : nat) (A Z0 Z1 : fm C) (beta0 : fv C) :
  (0 < nb)%N -> (0 < nb2)%N -> (0 < tb)%N ->
  match QRDiv_new nb under Mr Nr A beta0 Z0 with
  | Ok (QRx, beta, _) =>
    match QRDiv_Inverse nb2 tb Mr Nr QRx beta Z1 with
    | Ok X =>
      ((Nr <= Mr)%N -> forall i j, (i < Nr)%N -> (j < Nr)%N -> prodm Mr X A i j = (i == j)%:R) /\
      ((Mr <= Nr)%N -> forall i j, (i < Mr)%N -> (j < Mr)%N -> prodm Nr A X i j = (i == j)%:R) /\
      hermitian Mr (prodm Nr A X) /\ hermitian Nr (prodm Mr X A)
    | Throw e => e = Singular /\ ~ fullrank Mr Nr A
    | UB => False
    end
  | _ => False
  end.
Proof.
  move=> h1 h2 h3; have [Q [beta [d [-> I _]]]] := newP under Mr Nr A beta0 Z0 h1.
  have herm1 n (B : fm C) : (forall i j, (i < n)%N -> (j < n)%N -> B i j = (i == j)%:R) -> hermitian n B.
    by move=> h i j hi hj; rewrite !h // eq_sym; case: eqP => _; rewrite ?conjC1 ?conjC0.
  rewrite /QRDiv_Inverse /fullrank /istrans; move: I; rewrite /QRDiv_QRx /istrans; case: ltnP => h I.
    have e1 : maxn Mr Nr = Nr by lia.
    have e2 : minn Mr Nr = Mr by lia.
    rewrite ?e1 ?e2 in I; have := invP h2 h3 I Z1.
    case: (QR_Inverse _ _ _ _ _ _ _) => [X|e|] //= [g1 [g2 g3]].
    have e3 i j : prodm Nr A (trm X) i j = prodm Nr X (trm A) j i.
      by rewrite /prodm; apply: eq_bigr => k _; rewrite /trm mulrC.
    have e4 i j : prodm Mr (trm X) A i j = prodm Mr (trm A) X j i.
      by rewrite /prodm; apply: eq_bigr => k _; rewrite /trm mulrC.
    have g1' i j : (i < Mr)%N -> (j < Mr)%N -> prodm Nr A (trm X) i j = (i == j)%:R.
      by move=> hi hj; rewrite e3 g1 // eq_sym.
    split; first by move=> *; exfalso; lia.
    split; first by [].
    split; first exact: herm1.
    by move=> i j hi hj; rewrite !e4; apply: g2.
  have e1 : maxn Mr Nr = Mr by lia.
  have e2 : minn Mr Nr = Nr by lia.
  rewrite ?e1 ?e2 in I; have := invP h2 h3 I Z1.
  case: (QR_Inverse _ _ _ _ _ _ _) => [X|e|] //= [g1 [g2 g3]].
  split; first by [].
  split; first by move=> h'; apply: g3; lia.
  by split=> //; apply: herm1.
Qed.
Print Assumptions C42_inverse.

(** makeInverseATA on an Mr x Nr matrix, Mr >= Nr, is the inverse of A^dagger A; when
    Mr < Nr (where the manual says nothing) it is the inverse of conj(A) A^T, the complex
    conjugate of what the SVD divider computes, (A A^dagger)^-1. *)
Theorem C42_inverse_ATA (C : numClosedFieldType) (nb tb : nat) (under : C -> bool)
    (Mr Nr : nat) (A Z0 : fm C) (beta0 : fv C) :
  (0 < nb)%N -> (0 < tb)%N ->
  match QRDiv_new nb under Mr Nr A beta0 Z0 with
  | Ok (QRx, beta, _) =>
    match QR_InverseATA tb (minn Mr Nr) QRx with
    | Ok X =>
      let ata := if (Mr < Nr)%N then (fun i j => \sum_(k < Nr) (A i k)^* * A j k)
                 else (fun i j => \sum_(k < Mr) (A k i)^* * A k j) in
      forall i j, (i < minn Mr Nr)%N -> (j < minn Mr Nr)%N ->
        prodm (minn Mr Nr) ata X i j = (i == j)%:R /\ prodm (minn Mr Nr) X ata i j = (i == j)%:R
    | Throw e => e = Singular /\ ~ fullrank Mr Nr A
    | UB => False
    end
  | _ => False
  end.
Proof.
  move=> h1 h2; have [Q [beta [d [-> I _]]]] := newP under Mr Nr A beta0 Z0 h1.
  have FR : fullrank Mr Nr A <-> indep (maxn Mr Nr) (minn Mr Nr) (QRDiv_QRx Mr Nr A).
    rewrite /fullrank /QRDiv_QRx /istrans; by case: ltnP.
  have := @QR_InverseATAP C (minn Mr Nr) tb Q h2.
  case: (QR_InverseATA _ _ _) => [X|e|] //=; last first.
    by case/zero_diag_det => -> d0; split=> // /FR /(indepP I); rewrite d0 eqxx.
  case=> Ri e1 e2; have e1' := mulmx1C e1; have QQ := Qh_unit I.
  set ata := if _ then _ else _; set n := minn Mr Nr in I e1 e2 e1' QQ *.
  have eA : mx n n ata = ctr (Rm n Q) *m Rm n Q.
    have -> : ctr (Rm n Q) *m Rm n Q = ctr (mx (maxn Mr Nr) n (QRDiv_QRx Mr Nr A)) *m mx (maxn Mr Nr) n (QRDiv_QRx Mr Nr A).
      by rewrite (iq_fact I) ctrM mulmxA -(mulmxA (ctr (Rm n Q))) QQ mulmx1.
    apply/matrixP => i j; rewrite !mxE /ata /QRDiv_QRx /istrans; by case: ltnP => h; apply: eq_bigr => k _; rewrite !mxE.
  have p1 : mx n n ata *m mx n n X = 1%:M.
    by rewrite eA e2 mulmxA -(mulmxA (ctr (Rm n Q))) e1 mulmx1 -ctrM e1' ctr1.
  have p2 := mulmx1C p1.
  move=> i j hi hj; have /matrixP/(_ (Ordinal hi) (Ordinal hj)) := p1.
  have /matrixP/(_ (Ordinal hi) (Ordinal hj)) := p2.
  by rewrite !mx_mulE /prodm => -> ->; rewrite mxE -val_eqE.
Qed.
Print Assumptions C42_inverse_ATA.

(** A rank deficient matrix is reported as singular. *)
Theorem C42_singular (C : numClosedFieldType) (nb : nat) (under : C -> bool)
    (Mr Nr : nat) (A Z0 : fm C) (beta0 : fv C) (abs2 : C -> C) (eps : C) :
  (0 < nb)%N -> (forall x, 0 <= abs2 x) -> abs2 0 = 0 -> 0 <= eps -> ~ fullrank Mr Nr A ->
  match QRDiv_new nb under Mr Nr A beta0 Z0 with
  | Ok (QRx, _, _) => isSingular abs2 eps (minn Mr Nr) QRx = true
  | _ => False
  end.
Proof.
  move=> h1 ha1 ha2 he nf; have [Q [beta [d [-> I _]]]] := newP under Mr Nr A beta0 Z0 h1.
  case: (eqVneq (\det (Rm (minn Mr Nr) Q)) 0) => [/eqP|dn]; last first.
    case: nf; rewrite /fullrank; have := indepP I; rewrite /QRDiv_QRx /istrans; by case: ltnP dn => h dn [_ /(_ dn)].
  rewrite det_Rm big_mkord => /prodf_eq0 [i _ /eqP E].
  by apply: isSingularP => //; exists (val i); split; [exact: ltn_ord | exact: E].
Qed.
Print Assumptions C42_singular.

(** Non-vacuity: the column (3,4) is of full rank, its transpose too; a repeated column
    is not. *)
Definition ex_qr : fm algC := fun i j => if i == 0%N then 3%:R else 4%:R.
Example ex_qr_full : fullrank 2 1 ex_qr /\ fullrank 1 2 (trm ex_qr).
Proof.
  suff h : indep 2 1 ex_qr by [].
  move=> x hx k; rewrite ltnS leqn0 => /eqP ->; have := hx 0%N isT.
  rewrite big_ord1 /ex_qr /= => /eqP; rewrite mulf_eq0 pnatr_eq0 /= => /eqP; exact.
Qed.
Example ex_qr_deficient : ~ fullrank 2 2 ex_qr.
Proof.
  move=> h; have := h (fun k => if k == 0%N then 1 else -1).
  have hx : forall i, (i < 2)%N -> \sum_(k < 2) ex_qr i k * (if k == 0%N :> nat then 1 else -1) = 0.
    by move=> i hi; rewrite !big_ord_recl big_ord0 /= /ex_qr; case: ifP => _; rewrite mulr1 mulrN1 addr0 subrr.
  by move=> /(_ hx 0%N isT) /eqP; rewrite /= oner_eq0.
Qed.
