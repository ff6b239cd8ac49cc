(** C53: QR decomposition of a band matrix, and division with it.
    The specification (orthonormal, resid2, norm2, fullrank, prodm, hermitian) is the one of
    Claims_QR.v.  [bandm nlo nhi A] is the matrix that is A inside the band and zero
    outside. *)
From Coq Require Import Ring Field.
From Verif Require Import Base FMat TriSolve TriInv Claims_Tri LUDiv BandTri BandLU BandLUDiv RingTac Cplx Chol Givens QR QRProofs QRDiv QRDivProofs Claims_QR BandQR BandQRProofs.
From mathcomp Require Import all_ssreflect all_fingroup all_algebra all_field zify.
Set Implicit Arguments. Unset Strict Implicit. Unset Printing Implicit Defensive.
Import GRing.Theory Num.Theory Order.Theory.
Local Open Scope ring_scope.

Section Core.
Variable C : numClosedFieldType.
Implicit Types (A X m : fm C) (x b : fv C).

Lemma sqG M N (G : 'M[C]_(M, N)) : ctr G *m G = 1%:M -> M = N -> G *m ctr G = 1%:M.
Proof. by move=> h e; subst N; apply: mulmx1C. Qed.
(** Consequences of a factorization A = G R with orthonormal columns of G. *)
Section GR.
Variables (M N : nat) (A : fm C) (G : 'M[C]_(M, N)) (R : 'M[C]_N).
Hypotheses (GG : ctr G *m G = 1%:M) (F : mx M N A = G *m R).
Lemma gr_indep : indep M N A <-> \det R != 0.
Proof using GG F.
  split=> [H|H x hx k hk].
    rewrite -det_tr; apply/negP => /matrix.det0P [v v0 hv].
    have hv2 : R *m v^T = 0 by rewrite -[R]trmxK -trmx_mul hv trmx0.
    suff : v = 0 by apply/eqP.
    pose x : fv C := fun k => if insub k is Some k' then v 0 k' else 0.
    have hx : forall i, (i < M)%N -> \sum_(k < N) A i k * x k = 0.
      move=> i hi; have /matrixP/(_ (Ordinal hi) 0) : mx M N A *m v^T = 0 by rewrite F -mulmxA hv2 mulmx0.
      by rewrite mxE [in X in _ = X -> _]mxE => e; rewrite -[RHS]e; apply: eq_bigr => k _; rewrite !mxE /x valK.
    apply/matrixP => i k; rewrite !mxE ord1; have := H x hx k (ltn_ord k).
    by rewrite /x valK.
  have RU : R \in unitmx by rewrite unitmxE unitfE.
  have e : mx M N A *m vec N x = 0.
    apply/matrixP => i j; rewrite !mxE; rewrite -[RHS](hx i (ltn_ord i)).
    by apply: eq_bigr => l _; rewrite !mxE.
  have : invmx R *m (ctr G *m (mx M N A *m vec N x)) = 0 by rewrite e !mulmx0.
  rewrite F -mulmxA (mulmxA (ctr _)) GG mul1mx mulKmx // => /matrixP/(_ (Ordinal hk) 0).
  by rewrite !mxE.
Qed.
Lemma gr_exact K X m : M = N -> R *m mx N K X = ctr G *m mx M K m ->
  forall i c, (i < M)%N -> (c < K)%N -> prodm N A X i c = m i c.
Proof using GG F.
  move=> EMN e i c hi hc.
  have eq : mx M N A *m mx N K X = mx M K m by rewrite F -mulmxA e mulmxA (sqG GG) // mul1mx.
  by move/(mx_mulP M N K): eq => H; rewrite /prodm H.
Qed.
Lemma gr_lsq K X m : R *m mx N K X = ctr G *m mx M K m -> forall (y : fv C) c, (c < K)%N ->
  resid2 M N A (fun k => X k c) (fun i => m i c) <= resid2 M N A y (fun i => m i c).
Proof using GG F.
  move=> e y c hc; have nrm : ctr (mx M N A) *m (mx M N A *m mx N K X - mx M K m) = 0.
    by rewrite F ctrM -mulmxA mulmxBr -(mulmxA G) e (mulmxA (ctr G) G) GG mul1mx subrr mulmx0.
  rewrite !resid2E; apply: lsq.
  move/(congr1 (col (Ordinal hc))): nrm; rewrite colM.
  have -> : col (Ordinal hc) (0 : 'M[C]_(N, K)) = 0 by apply/matrixP => i j; rewrite !mxE.
  have -> : col (Ordinal hc) (mx M N A *m mx N K X - mx M K m)
            = mx M N A *m vec N (fun k => X k c) - vec M (fun i => m i c); last by [].
  by apply/matrixP => i j; rewrite !mxE //; congr (_ - _); apply: eq_bigr => k _; rewrite !mxE.
Qed.
Lemma gr_right K X m (Y : 'M[C]_(K, N)) : mx K M X = Y *m ctr G -> Y *m R = mx K N m ->
  (forall r c, (r < K)%N -> (c < N)%N -> prodm M X A r c = m r c) /\
  (indep M N A -> forall (y : fv C) r, (r < K)%N -> (forall c, (c < N)%N -> \sum_(k < M) y k * A k c = m r c) ->
     norm2 M (fun k => X r k) <= norm2 M y).
Proof using GG F.
  move=> e1 e2; have eq : mx K M X *m mx M N A = mx K N m.
    by rewrite e1 F mulmxA -(mulmxA Y) GG mulmx1.
  split; first by move=> r c hr hc; move/(mx_mulP K M N): eq => H; rewrite /prodm H.
  move=> /gr_indep d0 y r hr hy; have RU : R \in unitmx by rewrite unitmxE unitfE.
  have cv (z : fv C) : norm2 M z = nsq (ctr (\row_k z k : 'rV_M)).
    by apply: eq_bigr => i _; rewrite !mxE conjCK mulrC normCK.
  rewrite !cv; apply: minnorm; set xr := \row_k X r k; set yr := \row_k _.
  have ex : xr = row (Ordinal hr) Y *m ctr G.
    rewrite -row_mul -e1; by apply/matrixP => i j; rewrite !mxE.
  have hA : (yr - xr) *m mx M N A = 0.
    apply/matrixP => i c; rewrite mulmxBl !mxE.
    have := hy c (ltn_ord c); rewrite (eq_bigr (fun j : 'I_M => yr i j * mx M N A j c)); last by move=> k _; rewrite !mxE.
    move=> ->; have /matrixP/(_ (Ordinal hr) c) := eq; rewrite !mxE => <-; rewrite -sumrB big1 // => k _.
    by rewrite !mxE subrr.
  have hq : (yr - xr) *m G = 0.
    have := hA; rewrite F mulmxA => /(congr1 (fun Z => Z *m invmx R)).
    by rewrite mulmxK // mul0mx.
  by rewrite {2}ex ctrM ctrK mulmxA hq mul0mx.
Qed.
Lemma gr_inv X Ri : R *m Ri = 1%:M -> mx N M X = Ri *m ctr G ->
  (forall i j, (i < N)%N -> (j < N)%N -> prodm M X A i j = (i == j)%:R) /\
  hermitian M (prodm N A X) /\ (M = N -> forall i j, (i < M)%N -> (j < M)%N -> prodm N A X i j = (i == j)%:R).
Proof using GG F.
  move=> e1 e2; have e1' := mulmx1C e1.
  have XA : mx N M X *m mx M N A = 1%:M by rewrite e2 F mulmxA -(mulmxA Ri) GG mulmx1.
  have AX : mx M N A *m mx N M X = G *m ctr G.
    by rewrite e2 F mulmxA -(mulmxA G) e1 mulmx1.
  have el i j (hi : (i < M)%N) (hj : (j < M)%N) : prodm N A X i j = (G *m ctr G) (Ordinal hi) (Ordinal hj).
    by rewrite -AX mx_mulE.
  split; [|split].
  - move=> i j hi hj; have /matrixP/(_ (Ordinal hi) (Ordinal hj)) := XA.
    by rewrite mx_mulE /prodm => ->; rewrite mxE -val_eqE.
  - move=> i j hi hj; rewrite !el.
    have hW : G *m ctr G = ctr (G *m ctr G) by rewrite ctrM ctrK.
    by rewrite {1}hW mxE.
  - by move=> EMN i j hi hj; rewrite el (sqG GG EMN) mxE -val_eqE.
Qed.
End GR.

Lemma indep_det n A : indep n n A <-> \det (mx n n A) != 0.
Proof. by apply: (@gr_indep n n A 1%:M (mx n n A)); rewrite ?ctr1 mul1mx. Qed.
Lemma indep_tr n A : indep n n (trm A) <-> indep n n A.
Proof. by rewrite !indep_det trm_mx det_tr. Qed.
Lemma indep_ext M N A X : (forall i j, (i < M)%N -> (j < N)%N -> A i j = X i j) -> indep M N A -> indep M N X.
Proof.
  move=> e H x hx; apply: H => i hi; rewrite -[RHS](hx i hi).
  by apply: eq_bigr => k _; rewrite e.
Qed.
Lemma bandm_tr lo hi A i j : bandm lo hi (trm A) i j = trm (bandm hi lo A) i j.
Proof. by rewrite /trm /bandm andbC. Qed.

(** An upper triangular R with real non-zero diagonal is real when R^dagger R is. *)
Lemma real_R n (R : fm C) : (forall i j, (j < i)%N -> R i j = 0) ->
  (forall k, (k < n)%N -> R k k != 0 /\ R k k \is Num.real) ->
  (forall i j, (i < n)%N -> (j < n)%N -> \sum_(k < n) (R k i)^* * R k j \is Num.real) ->
  forall i j, (i < n)%N -> (j < n)%N -> R i j \is Num.real.
Proof.
  move=> up dg W i; elim/ltn_ind: i => i IH j hi hj.
  have [d0 dr] := dg i hi; have := W i j hi hj; rewrite (bigD1 (Ordinal hi)) //=.
  set s := \sum_(k < n | _) _; have hs : s \is Num.real.
    apply: rpred_sum => k hk; have hk' : (k != i :> nat) by move: hk; rewrite -val_eqE.
    case: (ltnP k i) => h; last by rewrite up ?conjC0 ?mul0r ?rpred0 //; lia.
    by rewrite rpredM // ?IH // (CrealP _) // IH.
  move=> h; have : (R i i)^* * R i j \is Num.real by rewrite -[_ * _](addrK s) rpredB.
  by rewrite (CrealP dr) => h'; rewrite -[R i j](mulKf d0) rpredM // rpredV.
Qed.
End Core.

Lemma det_fact (C : numClosedFieldType) m n (A W : fm C) beta : m = n -> mx m n A = Qh m n W beta *m Rm n W ->
  \det (Pr m W (zb beta) 0 n) * \det (Rm n W) = \det (mx n n A).
Proof.
  move=> e; subst m => ->; rewrite /Qh.
  have -> : Em C n n = 1%:M by apply/matrixP => i j; rewrite !mxE -val_eqE; case: eqP.
  by rewrite mulmx1 det_mulmx.
Qed.
Section New.
Variable C : numClosedFieldType.
Variables (under : C -> bool) (isrm inplace : bool) (Mr Nr nlo nhi : nat).
Implicit Types (A junk m : fm C).
Let tr := bq_trans Mr Nr nlo nhi isrm.
Let lo := bq_lo tr nlo nhi.
Let hi := bq_hi tr inplace Mr Nr nlo nhi.
Let M := maxn Mr Nr.
Let N := minn Mr Nr.
Definition A'of A : fm C := if tr then trm (bandm nlo nhi A) else bandm nlo nhi A.
Lemma newP A junk beta0 : (nlo < Mr)%N -> (nhi < Nr)%N ->
  (inplace -> (lo <= hi)%N /\ forall i j, (i < M)%N -> (j < N)%N -> (i + hi < j + lo)%N -> A'of A i j = 0) ->
  exists V beta d, [/\ BandQRDiv_ctor under isrm inplace Mr Nr nlo nhi A junk beta0 = (V, beta, d),
    isbq M N lo hi (A'of A) V beta, (0 < lo)%N -> isqr M N (A'of A) (bandm lo hi V) beta &
    Mr = Nr -> BandQR_det N V d = \det (mx N N (A'of A))].
Proof.
  move=> hnl hnh hin.
  have htr : if tr then (Mr <= Nr)%N else (Nr <= Mr)%N.
    by rewrite /tr /bq_trans; case: ifP => //; [case/or3P=> [|/andP[]|/and3P[]]; lia|lia].
  have hM : (N <= M)%N by rewrite /M /N; lia.
  pose hiA := if tr then nlo else nhi; pose A' := if tr then trm A else A.
  have AE i j : A'of A i j = bandm lo hiA A' i j.
    by rewrite /A'of /lo /bq_lo /hiA /A'; case: (tr) => //; rewrite bandm_tr.
  have hlo : (lo < M)%N by rewrite /lo /bq_lo /M; case: (tr); lia.
  have hhA : (hiA < N)%N by rewrite /hiA /N; case: (tr) htr; lia.
  have [hh hh2] : (hi < N)%N /\ (hiA <= hi)%N.
    rewrite /hi /bq_hi -/hiA; case: ifP => _; first by split.
    by rewrite /bq_newhi -/N; split; move: hhA; rewrite /hiA; case: (tr); lia.
  rewrite /BandQRDiv_ctor -/tr -/lo -/hiA -/hi -/M -/N -/A'.
  case: (posnP lo) => [e0|h0].
    have hhE : hi = hiA by rewrite /hi /bq_hi -/lo e0 eqxx orbT.
    rewrite e0 /=; have -> : (if inplace then A' else A') = A' by case: inplace.
    exists A', beta0, 1; split=> //.
    - have := @isbq0 C M N lo hi A' beta0 hM _ hh e0; rewrite e0 => H.
      have M0 : (0 < M)%N by lia.
      case: (H M0) => b1 b2 b3 b4 b5; split=> //; rewrite -b5; apply: mx_ext => i j _ _.
      by rewrite AE e0 hhE.
    - move=> _; rewrite /BandQR_det mul1r; have -> : mx N N (A'of A) = Rb N hi A'.
        apply: mx_ext => i j _ _; rewrite AE e0 hhE /upb /upper.
        by case: (ltngtP i j) => // h; rewrite /bandm ifN //; lia.
      by rewrite det_Rb.
  set QRx := (if inplace then _ else _).
  have [hi0 [g1 g2 g3]] : exists hi0, [/\ (minn (lo + hi0) N.-1 <= hi)%N,
      agree M N lo hi QRx (bandm lo hi0 A') & mx M N (bandm lo hi0 A') = mx M N (A'of A)].
    rewrite /QRx; case Ei : inplace hin => hin.
      have [hl hz] := hin isT; exists (hi - lo)%N; split; first lia.
        move=> i j hi' hj; rewrite /bandm hi' hj /=; case: (leqP i (j + lo)) => //= c1.
        case: (leqP j (i + hi)) => /= c2; last by rewrite ifN //; lia.
        by case: (leqP j (i + (hi - lo))) => c3; [rewrite ifN //; lia|rewrite ifT //; lia].
      have eh : hi = hiA by rewrite /hi /bq_hi Ei.
      apply: mx_ext => i j hi' hj; rewrite AE; case: (leqP j (i + (hi - lo))) => c3.
        by rewrite /bandm; congr (if _ then _ else _); congr (_ && _); lia.
      rewrite {1}/bandm ifN; last by lia.
      by rewrite -AE hz //; lia.
    exists hiA; split.
    - rewrite /hi /bq_hi Ei -/lo /=; have -> : (lo == 0%N) = false by lia.
      by rewrite /bq_newhi -/N /hiA /lo /bq_lo; case: (tr); lia.
    - move=> i j hi' hj; rewrite [RHS]/bandm hi' hj /=; case: (leqP i (j + lo)) => //= c1; last by rewrite /bandm ifN //; lia.
      by case: (leqP j (i + hi)) => /= c2 //; rewrite /bandm ifN //; lia.
    - by apply: mx_ext => i j _ _; rewrite AE.
  have hlo' : (0 < lo < M)%N by lia.
  have [V [beta [d [W [E a q _ _]]]]] := BandQR_DecomposeP under beta0 1 hlo' hh hM g1 g2.
  exists V, beta, d; have I0 := qinv_isqr hM q.
  have I1 : isqr M N (A'of A) W beta by case: I0 => i1 i2 i3 i4 i5; split=> //; rewrite -g3.
  have I : isqr M N (A'of A) (bandm lo hi V) beta.
    by apply: isqr_ext I1 => i j hi' hj; rewrite a.
  split=> //; first exact: isbq_isqr.
  move=> EMN; have eMN : M = N by rewrite /M /N; lia.
  have dR : \prod_(0 <= i < N) V i i = \det (Rm N W).
    rewrite det_Rm; apply: eq_big_nat => i hi'; rewrite a; [by rewrite /bandm !leq_addr|lia|lia].
  rewrite /BandQR_det dR (qi_det q) mul1r.
  exact: det_fact eMN (iq_fact I1).
Qed.

Lemma trP : if tr then (Mr <= Nr)%N else (Nr <= Mr)%N.
Proof. by rewrite /tr /bq_trans; case: ifP => //; [case/or3P=> [|/andP[]|/and3P[]]; lia|lia]. Qed.
Lemma frP A : fullrank Mr Nr (bandm nlo nhi A) <-> indep M N (A'of A).
Proof.
  rewrite /fullrank /A'of /M /N; have := trP; case: (tr) => h.
    rewrite (maxn_idPr h) (minn_idPl h); case: ltnP => h' //.
    have e : Mr = Nr by lia.
    by rewrite e indep_tr.
  by rewrite (maxn_idPl h) (minn_idPr h) ltnNge h.
Qed.
Lemma getQ_Qb A V beta : isbq M N lo hi (A'of A) V beta -> ((0 < lo)%N -> isqr M N (A'of A) (bandm lo hi V) beta) ->
  mx M N (BandQRDiv_getQ M N lo hi V beta) = Qb M N lo hi V beta.
Proof.
  move=> [h1 h2 h3 _ _] I; rewrite /BandQRDiv_getQ /Qb; case: posnP => [e|h].
    by apply/matrixP => i j; rewrite !mxE; case: eqP.
  have [Q' [E <- _]] := GetQ_Qh (nb := N.+1) (fun _ _ => 0) isT (I h).
  move: E; rewrite /GetQFromQR ltnn => -[<-]; apply: mx_ext => i j _ _.
  apply: GetQFromBandQRE => // i' c hc hr; by rewrite /bandm ifN //; lia.
Qed.
Lemma exact_lsq p n A (x b y : fv C) : (forall i, (i < p)%N -> \sum_(k < n) A i k * x k = b i) ->
  resid2 p n A x b <= resid2 p n A y b.
Proof.
  move=> h; rewrite {1}/resid2 big1 ?resid2E ?nsq_ge0 // => i _.
  by rewrite h // subrr normr0 expr0n.
Qed.
End New.

(** Reading the statements: [BandQRDiv_ctor under isrm inplace Mr Nr nlo nhi A junk beta0]
    is the constructor on an Mr x Nr band matrix with nlo sub- and nhi superdiagonals,
    held in A; junk and beta0 are the uninitialised new array and beta vector, isrm says
    whether A is row major.  It gives the packed QRx, beta and the sign of the
    determinant.  tr says whether the transpose was decomposed. *)

(** getQ() has orthonormal columns, getR() is upper triangular with at most nlo+nhi
    superdiagonals, and their product is A, or its transpose when isTrans(). *)
Theorem C53_decompose (C : numClosedFieldType) (under : C -> bool) (isrm : bool) (Mr Nr nlo nhi : nat)
    (A junk : fm C) (beta0 : fv C) : (nlo < Mr)%N -> (nhi < Nr)%N ->
  let tr := bq_trans Mr Nr nlo nhi isrm in
  let M := maxn Mr Nr in
  let N := minn Mr Nr in
  let lo := bq_lo tr nlo nhi in
  let hi := bq_hi tr false Mr Nr nlo nhi in
  let: (QRx, beta, _) := BandQRDiv_ctor under isrm false Mr Nr nlo nhi A junk beta0 in
  let Q := BandQRDiv_getQ M N lo hi QRx beta in
  let R := bandm 0 hi QRx in
  orthonormal M N Q /\ (hi <= nlo + nhi)%N /\
  forall i j, (i < M)%N -> (j < N)%N ->
    \sum_(k < N) Q i k * R k j = (if tr then bandm nlo nhi A j i else bandm nlo nhi A i j).
Proof.
  move=> h1 h2 tr M N lo hi.
  have [|V [beta [d [-> B I _]]]] := @newP C under isrm false Mr Nr nlo nhi A junk beta0 h1 h2; first by [].
  have e := getQ_Qb B I; split; [|split].
  - move=> c c' hc hc'; have /matrixP/(_ (Ordinal hc) (Ordinal hc')) := bq_unit B.
    rewrite -e !mxE -val_eqE /= => <-; by apply: eq_bigr => i _; rewrite !mxE.
  - by rewrite /hi /bq_hi /bq_newhi /=; case: ifP => _; [case: (tr)|]; lia.
  - move=> i j hi' hj; have := bq_fact B; rewrite -e /Rb => /esym/(mx_mulP M N N) => H.
    transitivity (A'of isrm Mr Nr nlo nhi A i j); last by rewrite /A'of -/tr; case: (tr).
    rewrite -(H i j hi' hj); apply: eq_bigr => k _; congr (_ * _); rewrite /upb /upper.
    by case: (ltngtP k j) => // h; rewrite /bandm ifN //; lia.
Qed.
Print Assumptions C53_decompose.

(** det() of a square band matrix. *)
Theorem C53_det (C : numClosedFieldType) (under : C -> bool) (isrm : bool) (N nlo nhi : nat)
    (A junk : fm C) (beta0 : fv C) : (nlo < N)%N -> (nhi < N)%N ->
  let: (QRx, _, signdet) := BandQRDiv_ctor under isrm false N N nlo nhi A junk beta0 in
  BandQR_det N QRx signdet = \det (\matrix_(i < N, j < N) bandm nlo nhi A i j).
Proof.
  move=> h1 h2; have [|V [beta [d [-> B I D]]]] := @newP C under isrm false N N nlo nhi A junk beta0 h1 h2; first by [].
  have := D erefl; rewrite minnn => ->; rewrite /A'of; case: (bq_trans _ _ _ _ _); last by [].
  by rewrite trm_mx det_tr.
Qed.
Print Assumptions C53_det.

(** x = b / A for any shape.  It throws only Singular and only when A is not of full rank.
    For Mr >= Nr every column of the result is a least squares solution; for Mr <= Nr it
    solves the system exactly and, when Mr < Nr, is the shortest solution at full rank. *)
Theorem C53_left_division (C : numClosedFieldType) (under : C -> bool) (isrm : bool) (stA stB : stor)
    (Mr Nr nlo nhi K : nat) (A junk m : fm C) (beta0 : fv C) : (nlo < Mr)%N -> (nhi < Nr)%N ->
  let tr := bq_trans Mr Nr nlo nhi isrm in
  let B := bandm nlo nhi A in
  let: (QRx, beta, _) := BandQRDiv_ctor under isrm false Mr Nr nlo nhi A junk beta0 in
  match BandQRDiv_LDiv stA stB tr (maxn Mr Nr) (minn Mr Nr) (bq_lo tr nlo nhi) (bq_hi tr false Mr Nr nlo nhi)
          K QRx beta m with
  | Ok X =>
    ((Nr <= Mr)%N -> forall (y : fv C) c, (c < K)%N ->
       resid2 Mr Nr B (fun k => X k c) (fun i => m i c) <= resid2 Mr Nr B y (fun i => m i c)) /\
    ((Mr <= Nr)%N -> forall i c, (i < Mr)%N -> (c < K)%N -> prodm Nr B X i c = m i c) /\
    ((Mr < Nr)%N -> fullrank Mr Nr B -> forall (y : fv C) c, (c < K)%N ->
       (forall i, (i < Mr)%N -> \sum_(k < Nr) B i k * y k = m i c) ->
       norm2 Nr (fun k => X k c) <= norm2 Nr y)
  | Throw e => e = Singular /\ ~ fullrank Mr Nr B
  | UB => False
  end.
Proof.
  move=> h1 h2 tr B.
  have [|V [beta [d [-> J _ _]]]] := @newP C under isrm false Mr Nr nlo nhi A junk beta0 h1 h2; first by [].
  have fr := @frP C isrm false Mr Nr nlo nhi A; have GI := gr_indep (bq_unit J) (bq_fact J).
  rewrite /BandQRDiv_LDiv; have := trP isrm false Mr Nr nlo nhi; rewrite -/tr in J fr GI *; rewrite /A'of -/tr -/B in J fr GI.
  case: (tr) J fr GI => J fr GI h.
    rewrite (maxn_idPr h) (minn_idPl h) in J fr GI *.
    have := BQR_RDivP stA stB K (trm m) J.
    case: (BQR_RDiv _ _ _ _ _ _ _ _ _ _) => [X|e|] //=; last first.
      by case=> -> d0; split=> // /fr /GI; rewrite d0 eqxx.
    case=> X1 [e1 e2]; have [g1 g2] := gr_right (bq_unit J) (bq_fact J) e1 e2.
    have g1' i c : (i < Mr)%N -> (c < K)%N -> prodm Nr B (trm X) i c = m i c.
      by move=> hi hc; rewrite -[RHS](g1 c i) // /prodm; apply: eq_bigr => k _; rewrite /trm mulrC.
    split; [|split].
    - move=> h' y c hc; apply: exact_lsq => i hi; exact: g1'.
    - by move=> _; apply: g1'.
    - move=> h' /fr R y c hc hy; apply: g2 => // i hi; rewrite /trm -hy //.
      by apply: eq_bigr => k _; rewrite mulrC.
  rewrite (maxn_idPl h) (minn_idPr h) in J fr GI *.
  have := BQR_LDivP stA stB K m J.
  case: (BQR_LDiv _ _ _ _ _ _ _ _ _ _) => [X|e|] //=; last first.
    by case=> -> d0; split=> // /fr /GI; rewrite d0 eqxx.
  move=> e; split; [|split].
  - by move=> _; apply: (gr_lsq (bq_unit J) (bq_fact J) e).
  - by move=> h'; apply: (gr_exact (bq_unit J) (bq_fact J) _ e); lia.
  - by move=> *; exfalso; lia.
Qed.
Print Assumptions C53_left_division.

(** x = b % A (x A = b), the same on rows. *)
Theorem C53_right_division (C : numClosedFieldType) (under : C -> bool) (isrm : bool) (stA stB : stor)
    (Mr Nr nlo nhi K : nat) (A junk m : fm C) (beta0 : fv C) : (nlo < Mr)%N -> (nhi < Nr)%N ->
  let tr := bq_trans Mr Nr nlo nhi isrm in
  let B := bandm nlo nhi A in
  let: (QRx, beta, _) := BandQRDiv_ctor under isrm false Mr Nr nlo nhi A junk beta0 in
  match BandQRDiv_RDiv stA stB tr (maxn Mr Nr) (minn Mr Nr) (bq_lo tr nlo nhi) (bq_hi tr false Mr Nr nlo nhi)
          K QRx beta m with
  | Ok X =>
    ((Mr <= Nr)%N -> forall (y : fv C) r, (r < K)%N ->
       resid2 Nr Mr (trm B) (fun k => X r k) (fun j => m r j) <= resid2 Nr Mr (trm B) y (fun j => m r j)) /\
    ((Nr <= Mr)%N -> forall r j, (r < K)%N -> (j < Nr)%N -> prodm Mr X B r j = m r j) /\
    ((Nr < Mr)%N -> fullrank Mr Nr B -> forall (y : fv C) r, (r < K)%N ->
       (forall j, (j < Nr)%N -> \sum_(k < Mr) y k * B k j = m r j) ->
       norm2 Mr (fun k => X r k) <= norm2 Mr y)
  | Throw e => e = Singular /\ ~ fullrank Mr Nr B
  | UB => False
  end.
Proof.
  move=> h1 h2 tr B.
  have [|V [beta [d [-> J _ _]]]] := @newP C under isrm false Mr Nr nlo nhi A junk beta0 h1 h2; first by [].
  have fr := @frP C isrm false Mr Nr nlo nhi A; have GI := gr_indep (bq_unit J) (bq_fact J).
  rewrite /BandQRDiv_RDiv; have := trP isrm false Mr Nr nlo nhi; rewrite -/tr in J fr GI *; rewrite /A'of -/tr -/B in J fr GI.
  case: (tr) J fr GI => J fr GI h.
    rewrite (maxn_idPr h) (minn_idPl h) in J fr GI *.
    have := BQR_LDivP stA stB K (trm m) J.
    case: (BQR_LDiv _ _ _ _ _ _ _ _ _ _) => [X|e|] //=; last first.
      by case=> -> d0; split=> // /fr /GI; rewrite d0 eqxx.
    move=> e; split; [|split].
    - by move=> _ y r hr; apply: (gr_lsq (bq_unit J) (bq_fact J) e).
    - move=> h' r j hr hj; have eMN : Nr = Mr by lia.
      rewrite -[RHS](gr_exact (bq_unit J) (bq_fact J) eMN e) // /prodm; apply: eq_bigr => k _.
      by rewrite /trm mulrC.
    - by move=> *; exfalso; lia.
  rewrite (maxn_idPl h) (minn_idPr h) in J fr GI *.
  have := BQR_RDivP stA stB K m J.
  case: (BQR_RDiv _ _ _ _ _ _ _ _ _ _) => [X|e|] //=; last first.
    by case=> -> d0; split=> // /fr /GI; rewrite d0 eqxx.
  case=> X1 [e1 e2]; have [g1 g2] := gr_right (bq_unit J) (bq_fact J) e1 e2.
  split; [|split].
  - move=> h' y r hr; apply: exact_lsq => i hi; have hi' : (i < Nr)%N by lia.
    rewrite -(g1 r i hr hi') /prodm; have eMN : Mr = Nr by lia.
    by rewrite eMN; apply: eq_bigr => k _; rewrite /trm mulrC.
  - by move=> _; apply: g1.
  - by move=> h' /fr R; apply: g2.
Qed.
Print Assumptions C53_right_division.

(** inverse(): the Moore-Penrose inverse, for any shape of full rank. *)
Theorem C53_inverse (C : numClosedFieldType) (nb : nat) (under : C -> bool) (isrm : bool)
    (Mr Nr nlo nhi : nat) (A junk : fm C) (beta0 : fv C) : (0 < nb)%N -> (nlo < Mr)%N -> (nhi < Nr)%N ->
  let tr := bq_trans Mr Nr nlo nhi isrm in
  let B := bandm nlo nhi A in
  let: (QRx, beta, _) := BandQRDiv_ctor under isrm false Mr Nr nlo nhi A junk beta0 in
  match BandQRDiv_Inverse nb tr (maxn Mr Nr) (minn Mr Nr) (bq_lo tr nlo nhi) (bq_hi tr false Mr Nr nlo nhi)
          QRx beta with
  | Ok X =>
    ((Nr <= Mr)%N -> forall i j, (i < Nr)%N -> (j < Nr)%N -> prodm Mr X B i j = (i == j)%:R) /\
    ((Mr <= Nr)%N -> forall i j, (i < Mr)%N -> (j < Mr)%N -> prodm Nr B X i j = (i == j)%:R) /\
    hermitian Mr (prodm Nr B X) /\ hermitian Nr (prodm Mr X B)
  | Throw e => e = Singular /\ ~ fullrank Mr Nr B
  | UB => False
  end.
Proof.
  move=> hnb h1 h2 tr B.
  have [|V [beta [d [-> J _ _]]]] := @newP C under isrm false Mr Nr nlo nhi A junk beta0 h1 h2; first by [].
  have herm1 n (D : fm C) : (forall i j, (i < n)%N -> (j < n)%N -> D i j = (i == j)%:R) -> hermitian n D.
    by move=> h i j hi hj; rewrite !h // eq_sym; case: eqP => _; rewrite ?conjC1 ?conjC0.
  have fr := @frP C isrm false Mr Nr nlo nhi A; have GI := gr_indep (bq_unit J) (bq_fact J).
  rewrite /BandQRDiv_Inverse; have := trP isrm false Mr Nr nlo nhi; rewrite -/tr in J fr GI *; rewrite /A'of -/tr -/B in J fr GI.
  case: (tr) J fr GI => J fr GI h.
    rewrite (maxn_idPr h) (minn_idPl h) in J fr GI *.
    have := BQR_InverseP hnb J.
    case: (BQR_Inverse _ _ _ _ _ _ _) => [X|e|] //=; last first.
      by case=> -> d0; split=> // /fr /GI; rewrite d0 eqxx.
    case=> Ri e1 e2; have [g1 [g2 g3]] := gr_inv (bq_unit J) (bq_fact J) e1 e2.
    have e3 i j : prodm Nr B (trm X) i j = prodm Nr X (trm B) j i.
      by rewrite /prodm; apply: eq_bigr => k _; rewrite /trm mulrC.
    have e4 i j : prodm Mr (trm X) B i j = prodm Mr (trm B) X j i.
      by rewrite /prodm; apply: eq_bigr => k _; rewrite /trm mulrC.
    have g1' i j : (i < Mr)%N -> (j < Mr)%N -> prodm Nr B (trm X) i j = (i == j)%:R.
      by move=> hi hj; rewrite e3 g1 // eq_sym.
    split; first by move=> h' i j hi hj; rewrite e4 g3 1?eq_sym //; lia.
    split; first by [].
    split; first exact: herm1.
    by move=> i j hi hj; rewrite !e4; apply: g2.
  rewrite (maxn_idPl h) (minn_idPr h) in J fr GI *.
  have := BQR_InverseP hnb J.
  case: (BQR_Inverse _ _ _ _ _ _ _) => [X|e|] //=; last first.
    by case=> -> d0; split=> // /fr /GI; rewrite d0 eqxx.
  case=> Ri e1 e2; have [g1 [g2 g3]] := gr_inv (bq_unit J) (bq_fact J) e1 e2.
  split; first by [].
  split; first by move=> h'; apply: g3; lia.
  by split=> //; apply: herm1.
Qed.
Print Assumptions C53_inverse.

(** A rank deficient band matrix is reported as singular. *)
Theorem C53_singular (C : numClosedFieldType) (under : C -> bool) (isrm : bool) (Mr Nr nlo nhi : nat)
    (A junk : fm C) (beta0 : fv C) (abs2 : C -> C) (eps : C) : (nlo < Mr)%N -> (nhi < Nr)%N ->
  (forall x, 0 <= abs2 x) -> abs2 0 = 0 -> 0 <= eps -> ~ fullrank Mr Nr (bandm nlo nhi A) ->
  let: (QRx, _, _) := BandQRDiv_ctor under isrm false Mr Nr nlo nhi A junk beta0 in
  isSingular abs2 eps (minn Mr Nr) QRx = true.
Proof.
  move=> h1 h2 ha1 ha2 he nf.
  have [|V [beta [d [-> J _ _]]]] := @newP C under isrm false Mr Nr nlo nhi A junk beta0 h1 h2; first by [].
  have fr := @frP C isrm false Mr Nr nlo nhi A; have GI := gr_indep (bq_unit J) (bq_fact J).
  have : \det (Rb (minn Mr Nr) (bq_hi (bq_trans Mr Nr nlo nhi isrm) false Mr Nr nlo nhi) V) == 0.
    by apply/negPn/negP => dn; apply: nf; apply/fr/GI.
  rewrite det_Rb big_mkord => /prodf_eq0 [i _ /eqP E].
  by apply: isSingularP => //; exists (val i); split; [exact: ltn_ord | exact: E].
Qed.
Print Assumptions C53_singular.

(** makeInverseATA, for a real matrix.  When the transpose was not decomposed the result is
    the inverse of A^T A, as the manual says; when it was, of A A^T. *)
Theorem C53_inverse_ATA_partial (C : numClosedFieldType) (nb : nat) (under : C -> bool) (isrm : bool)
    (Mr Nr nlo nhi : nat) (A junk : fm C) (beta0 : fv C) : (0 < nb)%N -> (nlo < Mr)%N -> (nhi < Nr)%N ->
  let tr := bq_trans Mr Nr nlo nhi isrm in
  let B := bandm nlo nhi A in
  let N := minn Mr Nr in
  (forall i j, (i < Mr)%N -> (j < Nr)%N -> B i j \is Num.real) ->
  let: (QRx, _, _) := BandQRDiv_ctor under isrm false Mr Nr nlo nhi A junk beta0 in
  match BQR_InverseATA nb N (bq_hi tr false Mr Nr nlo nhi) QRx with
  | Ok X =>
    let ata := if tr then (fun i j => \sum_(k < Nr) B i k * B j k)
               else (fun i j => \sum_(k < Mr) B k i * B k j) in
    forall i j, (i < N)%N -> (j < N)%N ->
      prodm N ata X i j = (i == j)%:R /\ prodm N X ata i j = (i == j)%:R
  | Throw e => e = Singular /\ ~ fullrank Mr Nr B
  | UB => False
  end.
Proof.
  move=> hnb h1 h2 tr B N rl.
  have [|V [beta [d [-> J I _]]]] := @newP C under isrm false Mr Nr nlo nhi A junk beta0 h1 h2; first by [].
  have fr := @frP C isrm false Mr Nr nlo nhi A; have GI := gr_indep (bq_unit J) (bq_fact J).
  have htr := trP isrm false Mr Nr nlo nhi.
  set hi := bq_hi _ _ _ _ _ _ in J I GI *; set lo := bq_lo _ _ _ in J I; set A' := A'of _ _ _ _ _ _ in J I GI fr.
  rewrite -/N in J I GI fr; set M := maxn Mr Nr in J I GI fr.
  have Ar i j : (i < M)%N -> (j < N)%N -> A' i j \is Num.real.
    rewrite /A' /A'of /M /N -/tr; move: htr; rewrite -/tr; case: (tr) => h.
      by rewrite (maxn_idPr h) (minn_idPl h) => hi' hj; apply: rl.
    by rewrite (maxn_idPl h) (minn_idPr h) => hi' hj; apply: rl.
  have := @BQR_InverseATAP C N hi nb hnb V; rewrite /tr -/hi.
  case: (BQR_InverseATA _ _ _ _) => [X|e|] //=; last first.
    by case=> -> d0; split=> // /fr /GI; rewrite d0 eqxx.
  case=> Ri e1 e2; have e1' := mulmx1C e1.
  have d0 : \det (Rb N hi V) != 0.
    by apply/eqP => z; have := congr1 determinant e1; rewrite det_mulmx z mul0r det1 => /esym/eqP; rewrite oner_eq0.
  have W : ctr (mx M N A') *m mx M N A' = ctr (Rb N hi V) *m Rb N hi V.
    by rewrite (bq_fact J) ctrM mulmxA -(mulmxA (ctr (Rb N hi V))) (bq_unit J) mulmx1.
  have WE i j (hi' : (i < N)%N) (hj : (j < N)%N) :
      \sum_(k < N) (upb false hi V k i)^* * upb false hi V k j = \sum_(k < M) A' k i * A' k j.
    have /matrixP/(_ (Ordinal hi') (Ordinal hj)) := W; rewrite !mxE => e.
    transitivity (\sum_j0 ctr (Rb N hi V) (Ordinal hi') j0 * Rb N hi V j0 (Ordinal hj)).
      by apply: eq_bigr => k _; rewrite !mxE.
    rewrite -e; apply: eq_bigr => k _; rewrite !mxE; congr (_ * _).
    by rewrite (CrealP _) // Ar.
  have Rr : forall i j, (i < N)%N -> (j < N)%N -> upb false hi V i j \is Num.real.
    case: (posnP lo) => [l0|l0].
      have FF := bq_fact J; have QE : Qb M N lo hi V beta = Em C M N by rewrite /Qb l0 eqxx.
      move=> i j hi' hj; have hM := bq_M J.
      have : mx N N (upb false hi V) = mx N N A'.
        by rewrite -(Em_rows N A' hM) FF QE mulmxA EmE // mul1mx.
      by move/matrixP/(_ (Ordinal hi') (Ordinal hj)); rewrite !mxE => ->; apply: Ar => //=; lia.
    apply: real_R.
    - by move=> i j h; apply: upb_gt.
    - move=> k hk; have e : upb false hi V k k = bandm lo hi V k k by rewrite upb_d /bandm !leq_addr.
      split; last by rewrite e; apply: (iq_real (I l0)).
      by move: d0; rewrite det_Rb big_mkord => /prodf_neq0/(_ (Ordinal hk) isT); rewrite upb_d.
    - move=> i j hi' hj; rewrite WE //; apply: rpred_sum => k _; by rewrite rpredM // Ar.
  set ata := if _ then _ else _.
  have eA : mx N N ata = (Rb N hi V)^T *m Rb N hi V.
    have -> : (Rb N hi V)^T = ctr (Rb N hi V).
      by apply/matrixP => i j; rewrite !mxE (CrealP _) // Rr.
    rewrite -W; apply/matrixP => i j; rewrite !mxE.
    transitivity (\sum_(k < M) A' k i * A' k j).
      rewrite /ata /A' /A'of /M -/tr; move: htr; rewrite -/tr; case: (tr) => h.
        by rewrite (maxn_idPr h).
      by rewrite (maxn_idPl h).
    by apply: eq_bigr => k _; rewrite !mxE (CrealP _) // Ar.
  have p1 : mx N N ata *m mx N N X = 1%:M.
    by rewrite eA e2 mulmxA -(mulmxA ((Rb N hi V)^T)) e1 mulmx1 -trmx_mul e1' trmx1.
  have p2 := mulmx1C p1.
  move=> i j hi' hj; have /matrixP/(_ (Ordinal hi') (Ordinal hj)) := p1.
  have /matrixP/(_ (Ordinal hi') (Ordinal hj)) := p2.
  by rewrite !mx_mulE /prodm => -> ->; rewrite mxE -val_eqE.
Qed.
Print Assumptions C53_inverse_ATA_partial.

(** For a complex matrix it is wrong: for the 1 x 1 matrix (i) it returns -1, not 1. *)
Theorem C53_inverse_ATA_complex_refuted (C : numClosedFieldType) (nb : nat) (under : C -> bool)
    (junk : fm C) (beta0 : fv C) : (0 < nb)%N ->
  let A : fm C := fun _ _ => 'i in
  fullrank 1 1 (bandm 0 0 A) /\
  let: (QRx, _, _) := BandQRDiv_ctor under false false 1 1 0 0 A junk beta0 in
  exists2 X, BQR_InverseATA nb 1 (bq_hi false false 1 1 0 0) QRx = Ok X &
    prodm 1 (fun i j => \sum_(k < 1) (bandm 0 0 A k i)^* * bandm 0 0 A k j) X 0%N 0%N = -1.
Proof.
  move=> hnb A; have Ab : bandm 0 0 A 0%N 0%N = 'i by [].
  split.
    move=> x hx k; rewrite ltnS leqn0 => /eqP ->; have := hx 0%N isT.
    by rewrite big_ord1 Ab => /eqP; rewrite mulf_eq0 (negbTE (neq0Ci C)) /= => /eqP.
  rewrite /BandQRDiv_ctor /=; have := @BQR_InverseATAP C 1 (bq_hi false false 1 1 0 0) nb hnb A.
  have R0 : Rb 1 (bq_hi false false 1 1 0 0) A = ('i)%:M by apply/matrixP => i j; rewrite !ord1 !mxE eqxx mulr1n upb_d.
  rewrite R0; case: (BQR_InverseATA _ _ _ _) => [X|e|] //=; last first.
    by case=> _ /eqP; rewrite det_scalar expr1 (negbTE (neq0Ci C)).
  case=> Ri e1 e2; exists X => //.
  have e3 : 'i * Ri 0 0 = 1 by move/matrixP/(_ 0 0): e1; rewrite !mxE big_ord1 !mxE eqxx !mulr1n.
  have e4 : X 0%N 0%N = Ri 0 0 * Ri 0 0 by move/matrixP/(_ 0 0): e2; rewrite !mxE big_ord1 !mxE.
  rewrite /prodm !big_ord1 Ab e4 conjCi.
  have -> : Ri 0 0 = - 'i.
    have : - 'i * ('i * Ri 0 0) = - 'i by rewrite e3 mulr1.
    by rewrite mulrA mulNr -expr2 sqrCi opprK mul1r.
  by rewrite mulrNN mulNr -expr2 sqrCi opprK mul1r.
Qed.
Print Assumptions C53_inverse_ATA_complex_refuted.

(** Nor is it right for every real square matrix: with more sub- than superdiagonals the
    transpose is decomposed and the result is the inverse of A A^T.  Here A is
    (1 0; 1 1); the element (0,0) of (A^T A) X is 3. *)
Definition ex_lo (C : numClosedFieldType) : fm C := fun i j => if (j <= i)%N then 1 else 0.
Lemma sum2 (C : numClosedFieldType) (f : 'I_2 -> C) : \sum_i f i = f 0 + f 1.
Proof. by rewrite !big_ord_recl big_ord0 addr0; congr (_ + f _); apply/val_inj. Qed.
Theorem C53_inverse_ATA_square_refuted (C : numClosedFieldType) (nb : nat) (under : C -> bool)
    (isrm : bool) (junk : fm C) (beta0 : fv C) : (0 < nb)%N ->
  let B := bandm 1 0 (@ex_lo C) in
  fullrank 2 2 B /\
  let: (QRx, _, _) := BandQRDiv_ctor under isrm false 2 2 1 0 (@ex_lo C) junk beta0 in
  exists2 X, BQR_InverseATA nb 2 (bq_hi true false 2 2 1 0) QRx = Ok X &
    prodm 2 (fun i j => \sum_(k < 2) B k i * B k j) X 0%N 0%N = 3%:R.
Proof.
  move=> hnb B; have [B00 [B01 [B10 B11]]] : B 0%N 0%N = 1 /\ B 0%N 1%N = 0 /\ B 1%N 0%N = 1 /\ B 1%N 1%N = 1 by [].
  split.
    move=> x hx; have := hx 0%N isT; have := hx 1%N isT.
    rewrite !big_ord_recl !big_ord0 /= /bump /= B00 B01 B10 B11 !addr0 !mul1r mul0r addr0 => e1 e0.
    have e1' : x 1%N = 0 by move: e1; rewrite e0 add0r.
    by move=> [|[|k]].
  rewrite /BandQRDiv_ctor /=; have := @BQR_InverseATAP C 2 (bq_hi true false 2 2 1 0) nb hnb (trm (@ex_lo C)).
  set R := Rb _ _ _; have R00 : R 0 0 = 1 by rewrite !mxE.
  have R01 : R 0 1 = 1 by rewrite !mxE.
  have R10 : R 1 0 = 0 by rewrite !mxE.
  have R11 : R 1 1 = 1 by rewrite !mxE.
  have dR : \det R = 1 by rewrite det_Rb unlock /= !mulr1.
  case: (BQR_InverseATA _ _ _ _) => [X|e|] //=; last by case=> _ /eqP; rewrite dR oner_eq0.
  case=> Ri e1 e2; exists X => //.
  have el i j : R i 0 * Ri 0 j + R i 1 * Ri 1 j = (i == j)%:R.
    by move/matrixP/(_ i j): e1; rewrite mxE sum2 [1%:M _ _]mxE.
  have := el 1 0; rewrite R10 R11 mul0r add0r mul1r /= => r10.
  have := el 1 1; rewrite R10 R11 mul0r add0r mul1r /= => r11.
  have := el 0 0; rewrite R00 R01 !mul1r r10 /= => r00.
  have := el 0 1; rewrite R00 R01 !mul1r r11 /= => r01.
  have X00 : X 0%N 0%N = Ri 0 0 * Ri 0 0 + Ri 0 1 * Ri 0 1.
    by move/matrixP/(_ 0 0): e2; rewrite mxE [RHS]mxE sum2 ![Ri^T _ _]mxE.
  have X10 : X 1%N 0%N = Ri 1 0 * Ri 0 0 + Ri 1 1 * Ri 0 1.
    by move/matrixP/(_ 1 0): e2; rewrite mxE [RHS]mxE sum2 ![Ri^T _ _]mxE.
  rewrite /prodm !big_ord_recl !big_ord0 /= /bump /= B00 B01 B10 B11 X00 X10 r10 r11.
  have -> : Ri 0 0 = 1 by move: r00; rewrite addr0.
  have -> : Ri 0 1 = -1 by apply/eqP; rewrite -addr_eq0; apply/eqP.
  by rewrite mulrNN !(mulr1, mul1r, mul0r, mulr0, addr0, add0r) mulrDl !mul1r !addrA addrK -[1]/(1%:R) -!natrD.
Qed.
Print Assumptions C53_inverse_ATA_square_refuted.

(** QR_Decompose(A,Q,R) for Mr >= Nr. *)
Theorem C53_full (C : numClosedFieldType) (under : C -> bool) (M N nlo nhi : nat) (A : fm C) (beta0 : fv C) :
  (nlo < M)%N -> (nhi < N)%N -> (N <= M)%N ->
  let: (Q, R) := BandQR_full under M N nlo nhi A beta0 in
  orthonormal M N Q /\
  (forall i j, (i < M)%N -> (j < N)%N -> \sum_(k < N) Q i k * R k j = bandm nlo nhi A i j) /\
  (forall i j, (j < i)%N || (i + (nlo + nhi) < j)%N -> R i j = 0).
Proof.
  move=> h1 h2 hM; rewrite /BandQR_full; set hi := minn _ _; set B := bandm nlo nhi A.
  suff [V [beta [d [-> [GG F] z ze]]]] : exists V beta d, [/\ BandQR_Decompose under M N nlo hi B beta0 0 = (V, beta, d),
      ctr (Qh M N V beta) *m Qh M N V beta = 1%:M /\ mx M N B = Qh M N V beta *m Rm N V,
      forall i c, ~~ ((i <= c + nlo) && (c <= i + hi))%N -> V i c = 0 &
      forall k, (k < N)%N -> beta k = 0 -> forall r, (k < r < M)%N -> V r k = 0].
    have e : mx M N (GetQFromBandQR M N nlo V beta) = Qh M N V beta.
      have [Q' [E [g1 _]]] := GetQFromQRP (nb := N.+1) isT (fun _ _ => 0) hM ze.
      move: E; rewrite /GetQFromQR ltnn => -[E].
      have eQ i c : GetQFromBandQR M N nlo V beta i c = Q' i c.
        rewrite -E; apply: GetQFromBandQRE => // i' c' hc hr; apply: z; lia.
      apply/matrixP => i c; have /matrixP/(_ i 0) := g1 c (ltn_ord c); rewrite !mxE eQ => ->.
      by apply: eq_bigr => k _; rewrite !mxE.
    split; [|split].
    - move=> c c' hc hc'; have /matrixP/(_ (Ordinal hc) (Ordinal hc')) := GG.
      rewrite -e !mxE -val_eqE /= => <-; by apply: eq_bigr => i _; rewrite !mxE.
    - move=> i j hi' hj; have := F; rewrite -e /Rm => /esym/(mx_mulP M N N) => H.
      rewrite -(H i j hi' hj); apply: eq_bigr => k _; congr (_ * _); rewrite /upper.
      case: (ltngtP k j) => hk; rewrite /bandm.
      + case: ifP => // hn; rewrite z //; lia.
      + by rewrite ifN //; lia.
      + by rewrite hk !leq_addr.
    - move=> i j hij; rewrite /bandm ifN //; rewrite /hi; lia.
  case: (posnP nlo) => [e0|h0].
    rewrite /BandQR_Decompose e0 eqxx; do 3 eexists; split; first by [].
    - have P1 : Pr M B (zb (fun k => if (k < N)%N then 0 else beta0 k)) 0 N = 1%:M.
        have : forall n o, (o + n <= N)%N -> Pr M B (zb (fun k => if (k < N)%N then 0 else beta0 k)) o n = 1%:M.
          elim=> //= n IH o ho; rewrite IH; last by lia.
          by rewrite mulmx1 /zb ifT ?conjC0 ?Hm0 //; lia.
        by move/(_ N 0%N (leqnn N)).
      rewrite /Qh P1 mul1mx; split; first exact: EmE.
      have [|b1 b2 b3 b4 b5] := @isbq0 C M N 0 nhi A beta0 hM _ h2 erefl; first by lia.
      rewrite -/B /B e0 b5 /Qb eqxx; congr (_ *m _).
    - by move=> i c hic; rewrite /B e0 /bandm ifN //; move: hic; rewrite /hi; lia.
    - by move=> k hk _ r hr; rewrite /B e0 /bandm ifN //; lia.
  have hlo : (0 < nlo < M)%N by lia.
  have hh : (hi < N)%N by rewrite /hi; lia.
  have ag : agree M N nlo hi B (bandm nlo nhi A).
    move=> i j hi' hj; rewrite /B /bandm; case: (leqP i (j + nlo)) => //= c1.
    by case: (leqP j (i + nhi)) => /= c2; case: ifP => // c3; exfalso; move: c3; rewrite /hi; lia.
  have [V [beta [d [W [E a q _ fr]]]]] := BandQR_DecomposeP under beta0 0 hlo hh hM (leqnn _) ag.
  have z i c : ~~ ((i <= c + nlo) && (c <= i + hi))%N -> V i c = 0.
    move=> hic; rewrite fr // /B /bandm; case: ifP => // hh'; exfalso; move: hic; rewrite /hi; lia.
  have I : isqr M N B V beta.
    apply: isqr_ext (qinv_isqr hM q) => i j hi' hj; rewrite a //; rewrite /bandm; case: ifP => // /negbT; exact: z.
  exists V, beta, d; split=> //; last exact: (iq_zero I).
  by split; [apply: (Qh_unit I)|apply: (iq_fact I)].
Qed.
Print Assumptions C53_full.

(** In place, the decomposition is right when the lo outermost superdiagonals that the
    matrix itself declares are zero (lo <= hi). *)
Theorem C53_inplace_partial (C : numClosedFieldType) (under : C -> bool) (isrm : bool) (Mr Nr nlo nhi : nat)
    (A junk : fm C) (beta0 : fv C) : (nlo < Mr)%N -> (nhi < Nr)%N ->
  let tr := bq_trans Mr Nr nlo nhi isrm in
  let M := maxn Mr Nr in
  let N := minn Mr Nr in
  let lo := bq_lo tr nlo nhi in
  let hi := bq_hi tr true Mr Nr nlo nhi in
  let B := if tr then trm (bandm nlo nhi A) else bandm nlo nhi A in
  (lo <= hi)%N -> (forall i j, (i < M)%N -> (j < N)%N -> (i + hi < j + lo)%N -> B i j = 0) ->
  let: (QRx, beta, _) := BandQRDiv_ctor under isrm true Mr Nr nlo nhi A junk beta0 in
  let Q := BandQRDiv_getQ M N lo hi QRx beta in
  let R := bandm 0 hi QRx in
  orthonormal M N Q /\
  forall i j, (i < M)%N -> (j < N)%N -> \sum_(k < N) Q i k * R k j = B i j.
Proof.
  move=> h1 h2 tr M N lo hi B hl hz.
  have [|V [beta [d [-> J I _]]]] := @newP C under isrm true Mr Nr nlo nhi A junk beta0 h1 h2; first by split.
  have e := getQ_Qb J I; split.
  - move=> c c' hc hc'; have /matrixP/(_ (Ordinal hc) (Ordinal hc')) := bq_unit J.
    rewrite -e !mxE -val_eqE /= => <-; by apply: eq_bigr => i _; rewrite !mxE.
  - move=> i j hi' hj; have := bq_fact J; rewrite -e /Rb => /esym/(mx_mulP M N N) => H.
    rewrite -[RHS](H i j hi' hj); apply: eq_bigr => k _; congr (_ * _); rewrite /upb /upper.
    by case: (ltngtP k j) => // h; rewrite /bandm ifN //; lia.
Qed.
Print Assumptions C53_inplace_partial.

(** In place, the superdiagonal of a tridiagonal matrix is lost: for A = (1 1; 1 2), every
    solution x of A x = (1,0) that the divider returns has (A x)(0) = 1/2. *)
Definition ex_tri (C : numClosedFieldType) : fm C := fun i j => if (i == 1%N) && (j == 1%N) then 2%:R else 1.
Theorem C53_inplace_refuted (C : numClosedFieldType) (under : C -> bool) (stA stB : stor)
    (junk : fm C) (beta0 : fv C) :
  let B := bandm 1 1 (@ex_tri C) in
  fullrank 2 2 B /\
  let: (QRx, beta, _) := BandQRDiv_ctor under false true 2 2 1 1 (@ex_tri C) junk beta0 in
  exists2 X, BandQRDiv_LDiv stA stB false 2 2 1 (bq_hi false true 2 2 1 1) 1 QRx beta (fun i _ => (i == 0%N)%:R) = Ok X &
    prodm 2 B X 0%N 0%N = 2%:R^-1.
Proof.
  move=> B; have [B00 [B01 [B10 B11]]] : B 0%N 0%N = 1 /\ B 0%N 1%N = 1 /\ B 1%N 0%N = 1 /\ B 1%N 1%N = 2%:R by [].
  have n2 : (2%:R : C) != 0 by rewrite pnatr_eq0.
  split.
    move=> x hx; have := hx 0%N isT; have := hx 1%N isT.
    rewrite !big_ord_recl !big_ord0 /= /bump /= B00 B01 B10 B11 !addr0 !mul1r => e1 e0.
    have e1' : x 1%N = 0.
      by move: e1; rewrite mulrDl mul1r addrA e0 add0r.
    have e0' : x 0%N = 0 by move: e0; rewrite e1' addr0.
    by move=> [|[|k]].
  rewrite /BandQRDiv_ctor /=; set QRx : fm C := fun i j => _.
  have ag : agree 2 2 1 1 QRx (bandm 1 0 (@ex_tri C)).
    by move=> [|[|i]] [|[|j]].
  have [V [beta [d [W [-> a q _ _]]]]] := BandQR_DecomposeP (M := 2) (N := 2) (lo := 1) (hi := 1) (hi0 := 0)
     under beta0 1 isT isT isT isT ag.
  have I : isqr 2 2 (bandm 1 0 (@ex_tri C)) (bandm 1 1 V) beta.
    by apply: isqr_ext (qinv_isqr (isT : (2 <= 2)%N) q) => i j hi hj; rewrite a.
  have J := isbq_isqr (isT : (0 < 1 < 2)%N) (isT : (1 < 2)%N) I.
  have := BQR_LDivP stA stB 1 (fun i _ => (i == 0%N)%:R) J; have GI := gr_indep (bq_unit J) (bq_fact J).
  case: (BQR_LDiv _ _ _ _ _ _ _ _ _ _) => [X|e|] //=; last first.
    case=> _ d0; exfalso; suff /GI : indep 2 2 (bandm 1 0 (@ex_tri C)) by rewrite d0 eqxx.
    move=> x hx; have := hx 0%N isT; have := hx 1%N isT.
    rewrite !big_ord_recl !big_ord0 /= /bandm /ex_tri /bump /= !addr0 !mul1r mul0r addr0 => e1 e0.
    have e1' : x 1%N = 0 by move: e1; rewrite e0 add0r => /eqP; rewrite mulf_eq0 (negbTE n2) /= => /eqP.
    by move=> [|[|k]].
  move=> e; exists X => //; have H := gr_exact (bq_unit J) (bq_fact J) erefl e.
  have := H 0%N 0%N isT isT; have := H 1%N 0%N isT isT.
  rewrite /prodm !big_ord_recl !big_ord0 /= B00 B01 /bandm /ex_tri /bump /= !addr0 !mul1r mul0r addr0 => e1 e0.
  rewrite e0 in e1 *; have -> : X 1%N 0%N = - 2%:R^-1.
    by apply: (mulfI n2); rewrite mulrN mulfV //; apply/eqP; rewrite -addr_eq0 addrC; apply/eqP.
  apply: (mulfI n2); rewrite mulfV // mulrBr mulfV // mulr1.
  by rewrite mulr2n addrK.
Qed.
Print Assumptions C53_inplace_refuted.

(** Non-vacuity: shapes of full rank, transposed and not, with and without reflections. *)
Example ex_bq_shapes :
  bq_trans 3 2 1 0 false = false /\ bq_lo false 1 0 = 1%N /\ bq_hi false false 3 2 1 0 = 1%N /\
  bq_trans 2 2 1 0 false = true /\ bq_lo true 1 0 = 0%N /\ bq_hi true false 2 2 1 0 = 1%N /\
  bq_trans 2 3 0 1 true = true /\ bq_lo true 0 1 = 1%N.
Proof. by []. Qed.
Example ex_bq_full : fullrank 3 2 (bandm 1 0 (fun _ _ => 1 : algC)).
Proof.
  move=> x hx; have := hx 0%N isT; have := hx 1%N isT.
  rewrite !big_ord_recl !big_ord0 /= /bandm /bump /= !addr0 !mul1r mul0r addr0 => e1 e0.
  have e1' : x 1%N = 0 by move: e1; rewrite e0 add0r.
  by move=> [|[|k]].
Qed.
Example ex_bq_deficient : ~ fullrank 2 2 (bandm 1 1 (fun _ _ => 1 : algC)).
Proof.
  move=> h; have := h (fun k => if k == 0%N then 1 else -1).
  have hx : forall i, (i < 2)%N -> \sum_(k < 2) bandm 1 1 (fun _ _ => 1 : algC) i k * (if k == 0%N :> nat then 1 else -1) = 0.
    by move=> [|[|i]] // _; rewrite !big_ord_recl big_ord0 /= /bandm /bump /= mulr1 mulrN1 addr0 subrr.
  by move=> /(_ hx 0%N isT) /eqP; rewrite /= oner_eq0.
Qed.
