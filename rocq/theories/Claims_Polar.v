(** C57: the square root of a hermitian matrix and the polar decomposition. *)
From Verif Require Import Base FMat TriSolve TriInv RowPerm Claims_Tri LUDiv Cplx Chol QR QRProofs QRDiv QRDivProofs Claims_QR SVDiv SVDivProofs Claims_SVD
  BidiagQR Sort Claims_Sort SVDecompose SVSort Claims_SVDecompose Tridiag TridiagQR Claims_Eigen HermSVD Polar.
From mathcomp Require Import all_ssreflect all_fingroup all_algebra all_field zify.
Set Implicit Arguments. Unset Strict Implicit. Unset Printing Implicit Defensive.
Import GRing.Theory Num.Theory Order.Theory.
Local Open Scope ring_scope.
Local Notation hermitian := Claims_Eigen.hermitian.

(** * Specification *)
Section Spec.
Variable C : numClosedFieldType.
Implicit Types (A P : fm C).
(** x^dagger A x is never negative. *)
Definition psd (N : nat) A : Prop := forall x : fv C, 0 <= \sum_(i < N) \sum_(j < N) (x i)^* * A i j * x j.
(** P is hermitian, not negative, and P P = A. *)
Definition is_root (N : nat) P A : Prop :=
  [/\ hermitian N P, psd N P & forall i j, (i < N)%N -> (j < N)%N -> prodm N P P i j = A i j].
(** A^dagger A, of an M x N matrix. *)
Definition gram (M : nat) A : fm C := fun i j => \sum_(k < M) (A k i)^* * A k j.
End Spec.

Section Proofs.
Variable C : numClosedFieldType.

Lemma quadE N (A : fm C) (x : fv C) : \sum_(i < N) \sum_(j < N) (x i)^* * A i j * x j = (ctr (vec N x) *m mx N N A *m vec N x) 0 0.
Proof.
  rewrite mxE exchange_big /=; apply: eq_bigr => j _; rewrite mxE big_distrl /=; apply: eq_bigr => i _.
  by rewrite !mxE.
Qed.
Lemma psdP N (A : fm C) : psd N A <-> forall v : 'cV[C]_N, 0 <= (ctr v *m mx N N A *m v) 0 0.
Proof.
  split=> h => [v|x]; last by rewrite quadE.
  pose x i : C := if insub i is Some a then v a 0 else 0.
  have -> : v = vec N x; last by rewrite -quadE.
  by apply/matrixP => a b; rewrite mxE ord1 /x insubT ?ltn_ord // => ha; congr (v _ _); apply: val_inj.
Qed.
Lemma q_dg N (S : fv C) (y : 'cV[C]_N) : (ctr y *m dg N S *m y) 0 0 = \sum_(l < N) S l * (y l 0 * (y l 0)^*).
Proof. by rewrite -mulmxA mxE; apply: eq_bigr => l _; rewrite dg_vec mxE mulrCA [(y l 0)^* * _]mulrC. Qed.
Lemma q_V N (S : fv C) (V : 'M[C]_N) (v : 'cV[C]_N) :
  (ctr v *m (ctr V *m dg N S *m V) *m v) 0 0 = \sum_(l < N) S l * ((V *m v) l 0 * ((V *m v) l 0)^*).
Proof. by rewrite -q_dg ctrM !mulmxA. Qed.
Lemma q_ge0 N (S : fv C) (V : 'M[C]_N) (v : 'cV[C]_N) : (forall l, (l < N)%N -> 0 <= S l) ->
  0 <= (ctr v *m (ctr V *m dg N S *m V) *m v) 0 0.
Proof. by move=> h; rewrite q_V sumr_ge0 // => l _; rewrite mulr_ge0 ?h ?mul_conjC_ge0. Qed.

Lemma root_unique N (Q B V : 'M[C]_N) (s : fv C) :
  ctr Q = Q -> (forall v : 'cV[C]_N, 0 <= (ctr v *m Q *m v) 0 0) -> Q *m Q = B ->
  V *m ctr V = 1%:M -> (forall l, (l < N)%N -> 0 <= s l) ->
  B = ctr V *m dg N (fun l => s l * s l) *m V -> Q = ctr V *m dg N s *m V.
Proof.
  move=> hQ pQ QQ VV s0 eB; have VV' := mulmx1C VV.
  suff h : Q *m ctr V = ctr V *m dg N s by rewrite -h -mulmxA VV' mulmx1.
  have Bv : B *m ctr V = ctr V *m dg N (fun l => s l * s l) by rewrite eB -mulmxA VV mulmx1.
  apply/matrixP => i l; apply/eqP; rewrite -subr_eq0; apply/eqP.
  pose v := col l (ctr V).
  have cdg f : col l (ctr V *m dg N f) = f l *: v.
    apply/matrixP => a b; rewrite !mxE (bigD1 l) //= big1 ?addr0 => [|q /negbTE hq]; last by rewrite [dg _ _ _ _]mxE hq mulr0.
    by rewrite [dg _ _ _ _]mxE eqxx !mxE mulrC.
  pose w := Q *m v - s l *: v.
  have Qv : Q *m (Q *m v) = (s l * s l) *: v by rewrite mulmxA QQ {1}/v colE mulmxA Bv -colE cdg.
  have w0 : w = 0.
    have e1 : Q *m w + s l *: w = 0.
      by rewrite /w mulmxBr Qv -scalemxAr scalerBr scalerA addrA subrK subrr.
    have := s0 l (ltn_ord l); rewrite le_eqVlt => /orP [/eqP z|pos].
      have ew : w = Q *m v by rewrite /w -z scale0r subr0.
      apply: nsq0; have := nsqE w; rewrite {1 2}ew ctrM hQ -mulmxA Qv -z mul0r scale0r mulmx0.
      by move/matrixP/(_ 0 0); rewrite !mxE eqxx mulr1n => <-.
    have := congr1 (fun X => (ctr w *m X) 0 0) e1; rewrite mulmxDr mulmxA -scalemxAr nsqE mulmx0.
    rewrite [LHS]mxE [X in _ + X]mxE [X in _ + _ * X]mxE eqxx mulr1n [RHS]mxE => e.
    apply: nsq0; apply: le_anti; rewrite nsq_ge0 andbT -(pmulr_rle0 _ pos) -e ler_addr; exact: pQ.
  have e2 : Q *m v = col l (Q *m ctr V) by rewrite /v !colE mulmxA.
  move: w0; rewrite /w -cdg e2 => /matrixP/(_ i 0).
  by rewrite [LHS]mxE [X in X + _]mxE [X in _ + X]mxE [X in _ - X]mxE [RHS]mxE.
Qed.

Lemma symmultP debug lower N (x y A0 : fm C) (H : 'M[C]_N) :
  (forall i j : 'I_N, \sum_(0 <= k < N) x i k * y k j = H i j) -> (forall i j, H j i = (H i j)^*) ->
  exists X, [/\ SymMultMM debug true (tristored lower) N N x y A0 = Ok X, mx N N (symref true lower X) = H &
    forall i j, ~~ [&& i < N, j < N & tristored lower i j]%N -> X i j = A0 i j].
Proof.
  move=> e h; rewrite /SymMultMM; have -> : [&& debug, 0 < N & N == 0]%N = false by case: debug; case: (N).
  eexists; split; first by [].
    apply/matrixP => i j; rewrite mxE /symref.
    have R (k : 'I_N) : 'Re (H k k) = H k k by apply/Creal_ReP/CrealP; rewrite -h.
    case: ifP => t; rewrite !ltn_ord /=.
      rewrite t /= e; case: eqP => // /val_inj ->; exact: R.
    have -> : tristored lower j i by move: t; rewrite /tristored; case: lower; lia.
    have ne : (j == i :> nat) = false by move: t; rewrite /tristored; case: lower; lia.
    by rewrite ne /= e -h.
  by move=> i j /negbTE ->.
Qed.

Lemma mx_herm N (P : fm C) : hermitian N P <-> ctr (mx N N P) = mx N N P.
Proof.
  split=> [h|h i j hi hj]; first by apply/matrixP => i j; rewrite !mxE -h.
  by move/matrixP/(_ (Ordinal hj) (Ordinal hi)): h; rewrite !mxE => <-.
Qed.

Lemma rootP N (P A : fm C) (V : 'M[C]_N) (s : fv C) :
  V *m ctr V = 1%:M -> (forall l, (l < N)%N -> 0 <= s l) ->
  mx N N A = ctr V *m dg N (fun l => s l * s l) *m V -> mx N N P = ctr V *m dg N s *m V ->
  is_root N P A /\ (forall Q, is_root N Q A -> forall i j, (i < N)%N -> (j < N)%N -> Q i j = P i j).
Proof.
  move=> VV s0 eA eP; split.
    split.
    - by apply/mx_herm; rewrite eP !ctrM ctrK ctr_dg ?mulmxA // => l hl; apply: geC0_conj; apply: s0.
    - by apply/psdP => v; rewrite eP; apply: q_ge0.
    - by apply/mx_eqP; rewrite mx_prodm eP eA -!mulmxA (mulmxA V) VV mul1mx (mulmxA (dg N s)) dg_dg.
  move=> Q [h1 h2 h3]; apply/mx_eqP; rewrite eP; apply: (root_unique (B := mx N N A)) => //.
  - exact/mx_herm.
  - exact/psdP.
  - by rewrite -mx_prodm; apply/mx_eqP.
Qed.

Lemma SqrtLoopP N (D : fv C) : (forall i, (i < N)%N -> D i \is Num.real) ->
  post (fun D' => forall i, (i < N)%N -> 0 <= D i /\ D' i = sqrtC (D i))
       (fun e => e = NonPosDef /\ exists2 i, (i < N)%N & D i < 0) (SqrtLoop N D).
Proof.
  move=> r; pose I n (D' : fv C) := (forall i, (i < n)%N -> 0 <= D i /\ D' i = sqrtC (D i)) /\ (forall i, (n <= i)%N -> D' i = D i).
  apply: (post_imp (I := I N) (X := fun e => e = NonPosDef /\ exists2 i, (i < N)%N & D i < 0)) => [x [] //|//|].
  apply: (@loop_up_inv _ I) => [|i x hi [h1 h2]]; first by split.
  rewrite h2 //; case: ifP => h /=; first by split=> //; exists i.
  split=> k hk; rewrite /updv; case: eqP => [e|ne].
  - by rewrite e; split=> //; rewrite real_leNgt ?real0 ?r // h.
  - by apply: h1; lia.
  - by lia.
  - by apply: h2; lia.
Qed.
End Proofs.

(** SquareRoot of a hermitian matrix, of which either triangle is in memory: when it returns,
    the matrix is the only not negative hermitian root of the former one; it throws NonPosDef
    only for a matrix without such a root.  Memory outside the triangle is not touched. *)
Theorem C57_square_root (C : numClosedFieldType) (under : C -> bool) (dclim nb tb : nat)
    (dc : nat -> nat -> nat -> tst C -> run (tst C)) blk stdsort (fuel : nat)
    (debug lower : bool) (N : nat) (A V0 : fm C) (D0 : fv C) (w : hwork C) :
  (forall x, under x = (x == 0)) -> (0 < nb)%N -> std_sort_contract stdsort ->
  (N < tb * 2)%N -> (N <= dclim)%N -> (forall i, (i < N)%N -> A i i \is Num.real) ->
  let A' := symref true lower A in
  match SquareRoot 0 under dclim nb tb dc blk stdsort fuel debug lower N A V0 D0 w with
  | Ok (Some X) =>
      [/\ psd N A', is_root N (symref true lower X) A',
          forall Q, is_root N Q A' -> forall i j, (i < N)%N -> (j < N)%N -> Q i j = symref true lower X i j &
          forall i j, ~~ [&& i < N, j < N & tristored lower i j]%N -> X i j = A i j]
  | Throw e => e = NonPosDef /\ ~ psd N A'
  | Ok None => True
  | UB => False
  end.
Proof.
  move=> h1 h2 h3 ht hd rd A'; rewrite /SquareRoot -/A'.
  have hA : hermitian N A'.
    have rd' i : (i < N)%N -> (A i i)^* = A i i by move=> hi; apply/CrealP; apply: rd.
    move=> i j hi hj; rewrite /A' /symref /tristored.
    by case: (lower); case: (ltngtP i j) => h; rewrite ?conjCK // h rd'.
  have := C55_eigen dc blk false fuel V0 D0 w h1 h2 h3 ht hd hA.
  case: (Eigen _ _ _ _ _ _ _ _ _ _ _ _ _ _ _) => [[[V D]|]|e|] // [[o r _ f] _]; cbn [bindO].
  have VV : ctr (mx N N V) *m mx N N V = 1%:M.
    apply/matrixP => i j; rewrite !mxE -[RHS]/((i == j :> nat)%:R) -o //; apply: eq_bigr => k _; by rewrite !mxE.
  have eA : mx N N A' = mx N N V *m dg N D *m ctr (mx N N V).
    apply/matrixP => i j; rewrite -mulmxA mxE f // [RHS]mxE; apply: eq_bigr => l _.
    have -> : ctr (mx N N V) = mx N N (hadj V) by apply/matrixP => a b; rewrite !mxE.
    by rewrite dgM !mxE /hadj mulrA.
  have := SqrtLoopP r; case: (SqrtLoop N D) => [D'|e|] //=; last first.
    move=> [-> [l hl neg]]; split=> // /psdP h.
    pose v : 'cV[C]_N := mx N N V *m delta_mx (Ordinal hl) 0.
    have qv := q_V D (ctr (mx N N V)) v; rewrite ctrK -eA in qv.
    have := h v; rewrite qv /v mulmxA VV mul1mx (bigD1 (Ordinal hl)) //= big1 => [|q /negbTE hq]; last first.
      by rewrite !mxE hq /= mul0r mulr0.
    by rewrite !mxE !eqxx /= mul1r conjC1 mulr1 addr0 => hh; have := lt_le_trans neg hh; rewrite ltxx.
  move=> hD.
  have s0 l : (l < N)%N -> 0 <= D' l by move=> hl; have [d0 ->] := hD l hl; rewrite sqrtC_ge0.
  have ss l : (l < N)%N -> D' l * D' l = D l by move=> hl; have [_ ->] := hD l hl; rewrite -expr2 sqrtCK.
  pose W := ctr (mx N N V); have WW : W *m ctr W = 1%:M by rewrite /W ctrK.
  pose H := ctr W *m dg N D' *m W.
  have eH (i j : 'I_N) : \sum_(0 <= k < N) V i k * (D' k * hadj V k j) = H i j.
    rewrite /H /W ctrK -mulmxA mxE big_mkord; apply: eq_bigr => l _.
    have -> : ctr (mx N N V) = mx N N (hadj V) by apply/matrixP => a b; rewrite !mxE.
    by rewrite dgM !mxE.
  have hH (i j : 'I_N) : H j i = (H i j)^*.
    have : ctr H = H by rewrite /H !ctrM ctrK ctr_dg ?mulmxA // => l hl; apply: geC0_conj; apply: s0.
    by move/matrixP/(_ j i); rewrite mxE => <-.
  have [X [-> eX fr]] := @symmultP C debug lower N V (fun k j => D' k * hadj V k j) A H eH hH; cbn [bindO].
  have eA' : mx N N A' = ctr W *m dg N (fun l => D' l * D' l) *m W.
    rewrite /W ctrK eA; congr (_ *m _ *m _); apply/matrixP => i j; rewrite !mxE; case: eqP => // _; by rewrite ss.
  have [R1 R2] := rootP WW s0 eA' eX; split=> //.
  by apply/psdP => v; rewrite eA'; apply: q_ge0 => l hl; rewrite mulr_ge0 ?s0.
Qed.
Print Assumptions C57_square_root.

(** ** The polar decomposition *)
Section Polar.
Variable C : numClosedFieldType.
Lemma polar_tail (eps : C) (debug lower : bool) (M N : nat) (A U Vt P0 : fm C) (S : fv C) :
  is_svd M N A U S Vt -> (N <= M)%N -> (0 < N)%N -> 0 <= eps ->
  exists U' P', [/\ PolarTail eps debug true lower M N U S Vt P0 = Ok (U', P'),
    mx M N U' = mx M N U *m mx N N Vt,
    mx N N (symref true lower P') = ctr (mx N N Vt) *m dg N (fun i => if S i < eps * N%:R * S 0%N then 0 else S i) *m mx N N Vt &
    forall i j, ~~ [&& i < N, j < N & tristored lower i j]%N -> P' i j = P0 i j].
Proof.
  move=> [o1 o2 s1 s2 fa] hMN n0 e0; have en : minn M N = N by lia.
  rewrite en in o1 o2 s1 s2 fa; rewrite /PolarTail gtn_eqF //.
  set t := eps * N%:R * S 0%N; cbv zeta; pose S' : fv C := fun i => if (i < N)%N && (S i < t) then 0 else S i.
  rewrite -/S'.
  have eS i : (i < N)%N -> S' i = if S i < t then 0 else S i by move=> hi; rewrite /S' hi.
  have s0 l : (l < N)%N -> 0 <= S' l by move=> hl; rewrite eS //; case: ifP => // _; apply: s1.
  have edg : dg N S' = dg N (fun i => if S i < t then 0 else S i).
    by apply/matrixP => i j; rewrite !mxE; case: eqP => // _; rewrite eS.
  pose H := ctr (mx N N Vt) *m dg N S' *m mx N N Vt.
  have eH (i j : 'I_N) : \sum_(0 <= k < N) hadj Vt i k * S' k * Vt k j = H i j.
    rewrite /H -mulmxA dgM mxE big_mkord; apply: eq_bigr => l _; by rewrite !mxE /hadj mulrA.
  have hH (i j : 'I_N) : H j i = (H i j)^*.
    have : ctr H = H by rewrite /H !ctrM ctrK ctr_dg ?mulmxA // => l hl; apply: geC0_conj; apply: s0.
    by move/matrixP/(_ j i); rewrite mxE => <-.
  have [X [-> eX fr]] := @symmultP C debug lower N (fun i k => hadj Vt i k * S' k) Vt P0 H eH hH.
  eexists; exists X; split=> //; last by rewrite eX /H edg.
  by apply/matrixP => i j; rewrite !mxE !ltn_ord /= big_mkord; apply: eq_bigr => k _; rewrite !mxE.
Qed.
Lemma ortho_mx M N (U : fm C) : ctr (mx M N U) *m mx M N U = 1%:M -> orthonormal M N U.
Proof.
  move=> h c c' hc hc'; move/matrixP/(_ (Ordinal hc) (Ordinal hc')): h; rewrite !mxE -[X in _ = X -> _]/((c == c')%:R) => <-.
  by apply: eq_bigr => k _; rewrite !mxE.
Qed.
Lemma mx_ortho M N (U : fm C) : orthonormal M N U -> ctr (mx M N U) *m mx M N U = 1%:M.
Proof.
  move=> o; apply/matrixP => i j; rewrite !mxE -[RHS]/((i == j :> nat)%:R) -o //; apply: eq_bigr => k _; by rewrite !mxE.
Qed.
Lemma mx_rows N (Vt : fm C) : rows_orthonormal N N Vt -> mx N N Vt *m ctr (mx N N Vt) = 1%:M.
Proof.
  move=> o; apply/matrixP => i j; rewrite !mxE -[RHS]/((i == j :> nat)%:R) -o //; apply: eq_bigr => k _; by rewrite !mxE.
Qed.
End Polar.

(** PolarDecompose: U has orthonormal columns, P is hermitian and not negative, A = U P, and P is
    the only such root of A^dagger A.  The only failures are the access outside E of C52 and, for
    a matrix without columns, the one below. *)
Theorem C57_polar (C : numClosedFieldType) (under : C -> bool) (dclim nb : nat)
    (dc : nat -> nat -> nat -> nat -> bst C -> run (bst C)) stdsort (fuel esz : nat)
    (debug lower : bool) (M N : nat) (A P0 Vt0 : fm C) (S0 : fv C) (w : work C) :
  (forall x, under x = (x == 0)) -> (0 < nb)%N -> std_sort_contract stdsort -> (N <= M)%N -> (N <= dclim)%N ->
  match PolarDecompose 0 under dclim nb dc stdsort fuel esz debug true lower M N A P0 Vt0 S0 w with
  | Ok (Some (U, P')) => let P := symref true lower P' in
      [/\ orthonormal M N U, forall i j, (i < M)%N -> (j < N)%N -> prodm N U P i j = A i j,
          is_root N P (gram M A),
          forall Q, is_root N Q (gram M A) -> forall i j, (i < N)%N -> (j < N)%N -> Q i j = P i j &
          forall i j, ~~ [&& i < N, j < N & tristored lower i j]%N -> P' i j = P0 i j]
  | Ok None => True
  | UB => N = 0%N \/ (esz < N)%N
  | Throw _ => False
  end.
Proof.
  move=> h1 h2 h3 hM hd; rewrite /PolarDecompose.
  have := C52_sv_decompose dc fuel esz A Vt0 S0 w 0 h1 h2 h3 hM hd.
  case: (SV_Decompose _ _ _ _ _ _ _ _ _ _ _ _ _ _ _) => [[[[U S] Vt]|]|e|] //; last by right.
  move=> sv; cbn [bindO]; case: (posnP N) => [n0|n0]; first by rewrite /PolarTail n0; left.
  have [U' [P' [-> eU eP fr]]] := polar_tail debug lower P0 sv hM n0 (lexx 0); cbn [bindO].
  case: sv => o1 o2 s1 s2 fa; have en : minn M N = N by lia.
  rewrite en in o1 o2 s1 s2 fa.
  have edg : dg N (fun i => if S i < 0 * N%:R * S 0%N then 0 else S i) = dg N S.
    by apply/matrixP => i j; rewrite !mxE; case: eqP => // _; rewrite !mul0r le_gtF ?s1.
  rewrite edg in eP.
  have UU := mx_ortho o1; have VV := mx_rows o2; have VV' := mulmx1C VV.
  have eA : mx M N A = mx M N U *m dg N S *m mx N N Vt.
    by rewrite -[RHS]/(Ak M N U S Vt N) -mx_usv; apply/mx_eqP.
  have eG : mx N N (gram M A) = ctr (mx N N Vt) *m dg N (fun l => S l * S l) *m mx N N Vt.
    have -> : mx N N (gram M A) = ctr (mx M N A) *m mx M N A.
      by apply/matrixP => i j; rewrite !mxE; apply: eq_bigr => k _; rewrite !mxE.
    rewrite eA !ctrM ctr_dg => [|l hl]; last by apply: geC0_conj; apply: s1.
    by rewrite -!mulmxA (mulmxA (ctr (mx M N U))) UU mul1mx (mulmxA (dg N S)) dg_dg.
  have [R1 R2] := rootP VV s1 eG eP; split=> //.
    by apply: ortho_mx; rewrite eU ctrM -mulmxA (mulmxA (ctr (mx M N U))) UU mul1mx.
  by apply/mx_eqP; rewrite mx_prodm eU eP eA !mulmxA -(mulmxA (mx M N U)) VV mulmx1.
Qed.
Print Assumptions C57_polar.

(** With a positive epsilon, singular values below N epsilon norm2 are dropped from P: U P is
    then within that distance of A, and P is still hermitian and not negative. *)
Theorem C57_polar_threshold (C : numClosedFieldType) (eps : C) (debug lower : bool) (M N : nat) (A U Vt P0 : fm C) (S : fv C) :
  is_svd M N A U S Vt -> (N <= M)%N -> (0 < N)%N -> 0 <= eps ->
  match PolarTail eps debug true lower M N U S Vt P0 with
  | Ok (U', P') => let P := symref true lower P' in
      [/\ orthonormal M N U', hermitian N P, psd N P &
          forall x : fv C, norm2 M (appl N (fun i j => A i j - prodm N U' P i j) x) <= (eps * N%:R * S 0%N) ^+ 2 * norm2 N x]
  | _ => False
  end.
Proof.
  move=> sv hM n0 e0.
  have [U' [P' [-> eU eP fr]]] := polar_tail debug lower P0 sv hM n0 e0.
  case: sv => o1 o2 s1 s2 fa; have en : minn M N = N by lia.
  rewrite en in o1 o2 s1 s2 fa.
  set t := eps * N%:R * S 0%N in eP *; set S' : fv C := fun i => if _ then _ else _ in eP.
  have UU := mx_ortho o1; have VV := mx_rows o2; have VV' := mulmx1C VV.
  have t0 : 0 <= t by rewrite /t !mulr_ge0 ?ler0n ?s1.
  have s0 l : (l < N)%N -> 0 <= S' l by move=> hl; rewrite /S'; case: ifP => // _; apply: s1.
  split.
  - by apply: ortho_mx; rewrite eU ctrM -mulmxA (mulmxA (ctr (mx M N U))) UU mul1mx.
  - by apply/mx_herm; rewrite eP !ctrM ctrK ctr_dg ?mulmxA // => l hl; apply: geC0_conj; apply: s0.
  - by apply/psdP => v; rewrite eP; apply: q_ge0.
  move=> x; pose T : fv C := fun i => S i - S' i.
  have bd l : (l < N)%N -> 0 <= T l <= t.
    move=> hl; rewrite /T /S'; case: ifP => h; first by rewrite subr0 s1 // ltW.
    by rewrite subrr lexx t0.
  have e : mx M N (fun i j => A i j - prodm N U' (symref true lower P') i j) = mx M N (usv N U T Vt).
    have -> : mx M N (fun i j => A i j - prodm N U' (symref true lower P') i j) = mx M N A - mx M N U' *m mx N N (symref true lower P').
      by rewrite -mx_prodm; apply/matrixP => i j; rewrite !mxE.
    have -> : mx M N A = mx M N U *m dg N S *m mx N N Vt.
      by rewrite -[RHS]/(Ak M N U S Vt N) -mx_usv; apply/mx_eqP.
    rewrite mx_usv /Ak eU eP !mulmxA -(mulmxA (mx M N U) (mx N N Vt)) VV mulmx1 -mulmxBl -mulmxBr.
    by congr (_ *m _ *m _); apply/matrixP => i j; rewrite !mxE; case: eqP => // _; rewrite subr0.
  move/mx_eqP: e => e.
  have o1' : orthonormal M (minn M N) U by rewrite en.
  have o2' : rows_orthonormal (minn M N) N Vt by rewrite en.
  have bd' l : (l < minn M N)%N -> 0 <= T l <= t by rewrite en; apply: bd.
  have := usv_bound o1' o2' x t0 bd'; rewrite en; congr (_ <= _).
  by apply: eq_bigr => i _; congr (`|_| ^+ 2); apply: eq_bigr => j _; rewrite e.
Qed.
Print Assumptions C57_polar_threshold.

(** Of a matrix without columns, PolarDecompose reads the first of no singular values. *)
Theorem C57_polar_empty_refuted (C : numClosedFieldType) (eps : C) (under : C -> bool) (dclim nb : nat)
    (dc : nat -> nat -> nat -> nat -> bst C -> run (bst C)) stdsort (fuel esz : nat)
    (debug ha lower : bool) (M : nat) (A P0 Vt0 : fm C) (S0 : fv C) (w : work C) :
  PolarDecompose eps under dclim nb dc stdsort fuel esz debug ha lower M 0 A P0 Vt0 S0 w = UB.
Proof. by []. Qed.
Print Assumptions C57_polar_empty_refuted.

(** PolarDecompose takes a SymMatrix for P as well.  When P is complex and the not negative root of
    A^dagger A has an element that is not real, the result is wrong: U P is not A. *)
Theorem C57_polar_symmetric_refuted (C : numClosedFieldType) (debug lower : bool) (M N : nat) (A U Vt P0 Q : fm C) (S : fv C) :
  is_svd M N A U S Vt -> (N <= M)%N -> is_root N Q (gram M A) ->
  (exists i j, [/\ (i < N)%N, (j < N)%N & Q i j \isn't Num.real]) ->
  exists U' P', PolarTail 0 debug false lower M N U S Vt P0 = Ok (U', P') /\
    exists i j, [/\ (i < M)%N, (j < N)%N & prodm N U' (symref false lower P') i j != A i j].
Proof.
  move=> sv hM rQ [i [j [hi hj nr]]]; have n0 : (0 < N)%N by lia.
  have [U1 [P1 [_ eU1 eP _]]] := polar_tail debug lower P0 sv hM n0 (lexx 0).
  case: sv => o1 o2 s1 s2 fa; have en : minn M N = N by lia.
  rewrite en in o1 o2 s1 s2 fa.
  have edg : dg N (fun i => if S i < 0 * N%:R * S 0%N then 0 else S i) = dg N S.
    by apply/matrixP => a b; rewrite !mxE; case: eqP => // _; rewrite !mul0r le_gtF ?s1.
  rewrite edg in eP.
  have UU := mx_ortho o1; have VV := mx_rows o2; have VV' := mulmx1C VV.
  have eA : mx M N A = mx M N U *m dg N S *m mx N N Vt.
    by rewrite -[RHS]/(Ak M N U S Vt N) -mx_usv; apply/mx_eqP.
  have eG : mx N N (gram M A) = ctr (mx N N Vt) *m dg N (fun l => S l * S l) *m mx N N Vt.
    have -> : mx N N (gram M A) = ctr (mx M N A) *m mx M N A.
      by apply/matrixP => a b; rewrite !mxE; apply: eq_bigr => k _; rewrite !mxE.
    rewrite eA !ctrM ctr_dg => [|l hl]; last by apply: geC0_conj; apply: s1.
    by rewrite -!mulmxA (mulmxA (ctr (mx M N U))) UU mul1mx (mulmxA (dg N S)) dg_dg.
  have [_ R2] := rootP VV s1 eG eP; have hQ := R2 Q rQ.
  have hr : hermitian N Q by case: rQ.
  rewrite /PolarTail gtn_eqF // /SymMultMM; have -> : [&& debug, 0 < N & N == 0]%N = false by case: debug; case: (N) n0.
  cbv zeta; cbn [bindO andb].
  pose U' : fm C := fun i j => if ((i < M) && (j < N))%N then \sum_(0 <= k < N) U i k * Vt k j else U i j.
  rewrite -/U'; set P' := (X in Ok (U', X)); exists U', P'; split=> //.
  case: (boolP (mx M N (prodm N U' (symref false lower P')) == mx M N A)) => [/eqP e|]; last first.
    move=> ne; have /existsP [a] : [exists a : 'I_M, [exists b : 'I_N, prodm N U' (symref false lower P') a b != A a b]].
      apply: contraNT ne; rewrite negb_exists => /forallP h; apply/eqP/matrixP => a b; rewrite !mxE.
      by have := h a; rewrite negb_exists => /forallP/(_ b); rewrite negbK => /eqP.
    by move=> /existsP [b h]; exists a, b.
  have eU : mx M N U' = mx M N U *m mx N N Vt.
    by apply/matrixP => a b; rewrite !mxE /U' !ltn_ord /= big_mkord; apply: eq_bigr => k _; rewrite !mxE.
  have eQ : mx N N (symref false lower P') = mx N N Q.
    have -> : mx N N Q = mx N N (symref true lower P1) by apply/mx_eqP.
    have U1' : ctr (mx M N U') *m mx M N U' = 1%:M by rewrite eU ctrM -mulmxA (mulmxA (ctr (mx M N U))) UU mul1mx.
    rewrite eP -[LHS]mul1mx -U1' -mulmxA -mx_prodm e eA eU ctrM.
    by rewrite -!mulmxA (mulmxA (ctr (mx M N U))) UU mul1mx.
  move/mx_eqP: eQ => eQ.
  have sy a b : (a < N)%N -> (b < N)%N -> Q a b = Q b a.
    move=> ha hb; rewrite -!eQ // /symref /tristored.
    by clear -ha; case: (lower); case: (ltngtP a b) => // ->.
  case/negP: nr; apply/CrealP; by rewrite -hr // sy.
Qed.
Print Assumptions C57_polar_symmetric_refuted.

Lemma gram_psd (C : numClosedFieldType) M N (B : fm C) : psd N (gram M B).
Proof.
  apply/psdP => v; have -> : mx N N (gram M B) = ctr (mx M N B) *m mx M N B.
    by apply/matrixP => i j; rewrite !mxE; apply: eq_bigr => k _; rewrite !mxE.
  by rewrite mulmxA -ctrM -mulmxA nsqE mxE eqxx mulr1n nsq_ge0.
Qed.
(** A complex matrix with a root, [[1, i], [-i, 2]], in the upper triangle of an array of which
    the rest is arbitrary: the square root is found. *)
Example C57_root_example (C : numClosedFieldType) (z : C) (V0 : fm C) (D0 : fv C) (w : hwork C) dc blk :
  let A : fm C := fun i j => if i == j then (i.+1)%:R else if (i < j)%N then 'i else z in
  psd 2 (symref true false A) /\ symref true false A 0%N 1%N != symref true false A 1%N 0%N /\
  exists X, SquareRoot 0 (fun x => x == 0) 30 64 64 dc blk (@isort (C * nat)) 4 true false 2 A V0 D0 w = Ok (Some X) /\
    is_root 2 (symref true false X) (symref true false A) /\ X 1%N 0%N = z.
Proof.
  move=> A; set A' := symref true false A.
  have ps : psd 2 A'.
    pose B : fm C := fun i j => if i == j then 1 else if (i < j)%N then 'i else 0.
    have e i j : (i < 2)%N -> (j < 2)%N -> gram 2 B i j = A' i j.
      move: i j => [|[|i]] [|[|j]] // _ _; rewrite /gram !big_ord_recl big_ord0 /B /A' /symref /A /= ?conjC0 ?conjC1 ?conjCi ?mulr0 ?mul0r ?mulr1 ?mul1r ?addr0 //.
      by rewrite mulNr -expr2 sqrCi opprK.
    move=> x; have := @gram_psd C 2 2 B x; congr (_ <= _).
    by apply: eq_bigr => i _; apply: eq_bigr => j _; rewrite e.
  split=> //; split.
    by rewrite /A' /symref /A /= conjCi -subr_eq0 opprK -mulr2n -mulr_natr mulf_neq0 ?neq0Ci ?pnatr_eq0.
  have rd i : (i < 2)%N -> A i i \is Num.real by move=> _; rewrite /A eqxx realn.
  have hA : hermitian 2 A'.
    by move=> [|[|i]] [|[|j]] // _ _; rewrite /A' /symref /A /= ?conjCK ?conjC_nat.
  have [V [L [e _]]] := @C55_two_by_two C (fun x => x == 0) 30 64 64 dc blk (@isort (C * nat)) false 4 2 A' V0 D0 w (fun x => erefl (x == 0)) isT (@isort_contract _) isT isT hA (leqnn 2) (leqnn 4).
  have := @C57_square_root C (fun x => x == 0) 30 64 64 dc blk (@isort (C * nat)) 4 true false 2 A V0 D0 w (fun x => erefl (x == 0))
    isT (@isort_contract _) isT isT rd; cbv zeta; rewrite -/A'.
  have nn : SquareRoot 0 (fun x => x == 0) 30 64 64 dc blk (@isort (C * nat)) 4 true false 2 A V0 D0 w <> Ok None.
    by rewrite /SquareRoot -/A' e; cbn [bindO]; case: (SqrtLoop 2 L) => [D'|?|] //; cbn [bindO]; case: (SymMultMM _ _ _ _ _ _ _ _).
  move: nn; case: (SquareRoot _ _ _ _ _ _ _ _ _ _ _ _ _ _ _ _) => [[X|]|?|] //.
    by move=> _ [_ r _ f]; exists X; split=> //; split=> //; rewrite f.
  by move=> _ [_ h]; case: h.
Qed.

(** A matrix that meets the hypotheses of C57_polar_symmetric_refuted (and, with its factors, those
    of C57_polar_threshold): U diag(2,1) U^dagger, U = [[3, 4i], [4i, 3]] / 5. *)
Example C57_polar_example (C : numClosedFieldType) :
  let U : fm C := fun i j => if i == j then 3%:R / 5%:R else 'i * (4%:R / 5%:R) in
  let S : fv C := fun i => if i == 0%N then 2%:R else 1 in
  let A := usv 2 U S (hadj U) in
  is_svd 2 2 A U S (hadj U) /\ is_root 2 A (gram 2 A) /\ A 0%N 1%N \isn't Num.real.
Proof.
  move=> U S A.
  have n5 : (5%:R : C) != 0 by rewrite pnatr_eq0.
  have u1 : (3%:R / 5%:R) * (3%:R / 5%:R) + (4%:R / 5%:R) * (4%:R / 5%:R) = 1 :> C.
    by rewrite !mulf_div -mulrDl -!natrM -natrD divff // pnatr_eq0.
  have r3 : (3%:R / 5%:R : C)^* = 3%:R / 5%:R by rewrite rmorphM /= fmorphV !conjC_nat.
  have r4 : ('i * (4%:R / 5%:R) : C)^* = - ('i * (4%:R / 5%:R)) by rewrite !rmorphM /= fmorphV !conjC_nat conjCi mulNr.
  have ii (x : C) : 'i * x * ('i * x) = - (x * x) by rewrite mulrACA -expr2 sqrCi mulN1r.
  have o : orthonormal 2 2 U.
    move=> [|[|c]] [|[|c']] // _ _; rewrite !big_ord_recl big_ord0 /U /= ?r3 ?r4 addr0 ?mulNr ?ii ?opprK //.
    - by rewrite [_ * (3%:R / _)]mulrC subrr.
    - by rewrite [X in _ + X]mulrC addNr.
    - by rewrite addrC.
  have UU := mx_ortho o; have UU' := mulmx1C UU.
  have eW : mx 2 2 (hadj U) = ctr (mx 2 2 U) by apply/matrixP => i j; rewrite !mxE.
  have VV : mx 2 2 (hadj U) *m ctr (mx 2 2 (hadj U)) = 1%:M by rewrite eW ctrK.
  have s0 l : (l < 2)%N -> 0 <= S l by move=> _; rewrite /S; case: ifP; rewrite ?ler01 ?ler0n.
  have eA : mx 2 2 A = ctr (mx 2 2 (hadj U)) *m dg 2 S *m mx 2 2 (hadj U) by rewrite /A mx_usv /Ak eW ctrK.
  split.
    split=> //.
    - move=> k k' hk hk'; move/matrixP/(_ (Ordinal hk) (Ordinal hk')): VV; rewrite !mxE -[X in _ = X -> _]/((k == k')%:R) => <-.
      by apply: eq_bigr => l _; rewrite !mxE.
    - by move=> [|k] // _; rewrite /S /= ler1n.
  split.
    have eG : mx 2 2 (gram 2 A) = ctr (mx 2 2 (hadj U)) *m dg 2 (fun l => S l * S l) *m mx 2 2 (hadj U).
      have -> : mx 2 2 (gram 2 A) = ctr (mx 2 2 A) *m mx 2 2 A.
        by apply/matrixP => a b; rewrite !mxE; apply: eq_bigr => k _; rewrite !mxE.
      rewrite eA !ctrM ctrK ctr_dg => [|l hl]; last by apply: geC0_conj; apply: s0.
      by rewrite -!mulmxA (mulmxA (mx 2 2 (hadj U))) VV mul1mx (mulmxA (dg 2 S)) dg_dg.
    by have [] := rootP VV s0 eG eA.
  have n4 : 3%:R / 5%:R * (4%:R / 5%:R) != 0 :> C by rewrite !mulf_neq0 ?invr_eq0 ?pnatr_eq0.
  have -> : A 0%N 1%N = - ('i * (3%:R / 5%:R * (4%:R / 5%:R))).
    rewrite /A /usv !big_ord_recl big_ord0 /hadj /U /S /= r3 r4 addr0; move: (3%:R / _) (4%:R / _) => a b.
    by rewrite mulr1 mulrN -mulrA [2%:R * _]mulr_natl mulr2n mulrDr opprD -mulrA [b * a]mulrC [a * ('i * b)]mulrCA addrNK.
  have r5 : (3%:R / 5%:R * (4%:R / 5%:R) : C)^* = 3%:R / 5%:R * (4%:R / 5%:R) by rewrite !rmorphM /= fmorphV !conjC_nat.
  apply/negP => /CrealP; rewrite rmorphN rmorphM /= r5 conjCi mulNr opprK => /eqP.
  rewrite -addr_eq0 -mulr2n mulrn_eq0 /= mulf_eq0 (negbTE (neq0Ci _)) /=.
  by rewrite (negbTE n4).
Qed.
