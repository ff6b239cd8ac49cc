(** C49: QR decomposition with column pivoting. *)
From Coq Require Import Ring Field.
From Verif Require Import Base FMat TriSolve TriInv RowPerm RingTac Cplx Chol Claims_Tri LUDiv QR QRProofs QRDiv QRDivProofs QRP QRPProofs QRPLoop QRPStrict QRPPerm QRPLoose QRPFinal QRPBad Claims_QR.
From mathcomp Require Import all_ssreflect all_fingroup all_algebra all_field zify.
Set Implicit Arguments. Unset Strict Implicit. Unset Printing Implicit Defensive.
Import GRing.Theory Num.Theory Order.Theory.
Local Open Scope ring_scope.

(** Specification. *)
Section Spec.
Variable C : numClosedFieldType.
Implicit Types (A : fm C).
(** A with columns a and b exchanged. *)
Definition swapcols (a b : nat) A : fm C := fun i c => A i (if c == a then b else if c == b then a else c).
(** A P: the exchanges (0,P[0]), (1,P[1]), ... (n-1,P[n-1]) of columns, in this order. *)
Fixpoint colswaps (P : nat -> nat) (n : nat) A : fm C :=
  if n is n'.+1 then swapcols n' (P n') (colswaps P n' A) else A.
(** The square of the Frobenius norm of an M x N matrix. *)
Definition frob2 (M N : nat) A : C := \sum_(k < N) \sum_(i < M) `|A i k| ^+ 2.
End Spec.

Section Bridge.
Variable C : numClosedFieldType.
Implicit Types (A : fm C).
Lemma tswE a b c : tsw a b c = if c == a then b else if c == b then a else c.
Proof. by rewrite /tsw; case: eqP => // _; case: eqP. Qed.
Lemma colswapsE M P n A i c : (i < M)%N -> colswaps P n A i c = pcols M P n A i c.
Proof.
  move=> hi; elim: n c => [|n IH] c; first by rewrite /pcols hi.
  by rewrite pcolsS /swapAc hi /= /swapcols -tswE IH.
Qed.
Lemma colswaps_indep M N P A : (forall k, (k < N)%N -> (k <= P k < N)%N) -> indep M N (colswaps P N A) -> indep M N A.
Proof.
  move=> HP H x hx k hk; have [s [e1 _ _]] := pcols_perm M A HP.
  have hs (j : 'I_N) : psig P 0 N j = s j by apply: e1.
  have := H (fun j => x (psig P 0 N j)) _ ((s^-1)%g (Ordinal hk)) (ltn_ord _).
  rewrite hs permKV /=; apply=> i hi.
  rewrite -[RHS](hx i hi) [RHS](reindex_inj (@perm_inj _ s)) /=.
  by apply: eq_bigr => j _; rewrite (colswapsE _ _ _ _ hi) /pcols hi hs.
Qed.
End Bridge.

(** QRP_Decompose of an M x N matrix, N <= M, in exact arithmetic, for every block size, with
    the algorithm for few columns, the strict one and the loose one.  eps is the machine
    epsilon, which the code uses to decide that what remains of the matrix is zero. *)
Theorem C49_decompose_partial (C : numClosedFieldType) (nb nb2 : nat) (under : C -> bool) (eps : C) (strict : bool)
    (M N : nat) (A Z0 Z1 : fm C) (beta0 : fv C) (P0 : nat -> nat) (d : C) (cn0 : nat -> option C) :
  (0 < nb)%N -> (0 < nb2)%N -> (N <= M)%N -> 0 < eps -> 16%:R * eps <= 1 ->
  [|| strict, (N <= nb)%N | N%:R * sqrtC eps <= 1] ->
  match QRP_Decompose nb under eps strict M N A beta0 P0 d cn0 Z0 with
  | Ok s =>
    let R := upper false (qA s) in
    let AP := colswaps (qP s) N A in
    (forall k, (k < N)%N -> (k <= qP s k < N)%N) /\
    (forall k, (k < N)%N -> R k k \is Num.real) /\
    (exists r, (r <= N)%N /\
      (forall i c, (r <= i)%N -> (c < N)%N -> R i c = 0) /\
      (strict || (N <= nb)%N -> (forall a, (a < r)%N -> R a a != 0) /\ (r = N -> indep M N A)) /\
      (strict -> forall a k, (a <= k)%N -> (k < N)%N -> \sum_(a <= i < k.+1) `|R i k| ^+ 2 <= `|R a a| ^+ 2) /\
      match GetQFromQR nb2 M N (qA s) (qb s) Z1 with
      | Ok Q => orthonormal M N Q /\
          (forall i c, (i < M)%N -> (c < r)%N -> prodm N Q R i c = AP i c) /\
          (forall c, (c < N)%N -> \sum_(i < M) `|prodm N Q R i c - AP i c| ^+ 2 <= N%:R * eps ^+ 2 * frob2 M N A) /\
          (forall i c, ~~ ((i < M) && (c < N))%N -> Q i c = A i c)
      | _ => False
      end /\
      (N = M -> qd s * \prod_(i < N) R i i = if r == N then d * \det (\matrix_(i < N, j < N) A i j) else 0)) /\
    (forall k, (N <= k)%N -> qb s k = beta0 k /\ qP s k = P0 k)
  | _ => False
  end.
Proof.
  move=> h1 h2 hM e0 e1 hc.
  have [s [-> [r [X Res]]]] := QRP_DecomposeP under h1 e0 e1 A beta0 P0 d cn0 Z0 hM hc.
  have [hr Q HP hd hz he hcl ho frA fb fP] := Res; have I := qinv_isqr hM Q; move=> R AP.
  have eAP i c : (i < M)%N -> AP i c = pcols M (qP s) N A i c by move=> hi; apply: colswapsE.
  have Rd k : R k k = qA s k k by rewrite /R /upper eqxx.
  split=> //; split; first by move=> k hk; rewrite Rd; apply: (iq_real I).
  split; last by move=> k hk; split; [apply: fb | apply: fP].
  exists r; split; [|split; [|split; [|split; [|split]]]] => //.
  - move=> i c hi hcN; rewrite /R /upper; case: eqP => [e|_]; first by apply: hz => //; lia.
    by case: ltnP => // hic; apply: hz => //; lia.
  - move=> hrk; split; first by move=> a ha; rewrite Rd hd.
    move=> er; apply: (colswaps_indep HP).
    have H : indep M N X.
      by apply/(indepP I); rewrite det_Rm big_mkord prodf_seq_neq0; apply/allP => i _; rewrite hd // er.
    move=> x hx; apply: H => i hi; rewrite -[RHS](hx i hi); apply: eq_bigr => k _.
    by rewrite -/AP eAP // he ?er.
  - move=> st a k hak hk; have := ho st a k ltac:(lia) ltac:(lia); rewrite Rd -!tNORM_norm; apply: le_trans.
    rewrite /cnq [X in _ <= X](big_cat_nat _ (n := k.+1)) /=; [|lia|lia].
    rewrite -[X in X <= _]addr0; apply: ler_add; last by apply: sumr_ge0 => i _; exact: tN0.
    rewrite le_eqVlt; apply/orP; left; apply/eqP; apply: eq_big_nat => i hi; rewrite tNORM_norm /R /upper /rr hk.
    have -> : (k < i)%N = false by lia.
    by case: eqP => [//|ne]; have -> : (i < k)%N by lia.
  - have [Q' [-> e f]] := GetQ_Qh Z1 h2 I.
    have eX i c : (i < M)%N -> (c < N)%N -> prodm N Q' R i c = X i c.
      by move=> hi hcN; have := iq_fact I; rewrite -e /Rm => /esym/(mx_mulP M N N); apply.
    split; [|split; [|split]].
    + move=> c c' hcN hcN'; have /matrixP/(_ (Ordinal hcN) (Ordinal hcN')) := Qh_unit I.
      rewrite -e !mxE -val_eqE /= => <-; by apply: eq_bigr => i _; rewrite !mxE.
    + by move=> i c hi hcr; rewrite eX ?eAP ?he //; lia.
    + move=> c hcN; have T0 : qtol eps M N A = N%:R * eps ^+ 2 * frob2 M N A.
        rewrite /qtol -expr2 big_mkord; congr (_ * _); apply: eq_bigr => k _.
        by rewrite /cnq big_mkord; apply: eq_bigr => i _; rewrite tNORM_norm.
      rewrite -T0 (eq_bigr (fun i : 'I_M => `|pcols M (qP s) N A i c - X i c| ^+ 2)); last first.
        by move=> i _; rewrite eX // eAP // distrC.
      case: (ltnP c r) => hcr; last by apply: hcl; rewrite hcr.
      rewrite big1 => [|i _]; last by rewrite he // subrr normr0 expr0n.
      rewrite T0; apply: mulr_ge0; last by apply: sumr_ge0 => k _; apply: sumr_ge0 => i _; exact: exprn_ge0.
      by apply: mulr_ge0; [exact: ler0n | rewrite exprn_ge0 // ltW].
    + by move=> i c hic; rewrite f // frA.
  - move=> eM; subst M; rewrite -(qrp_det Res) big_mkord; congr (_ * _); apply: eq_bigr => i _; exact: Rd.
Qed.
Print Assumptions C49_decompose_partial.

(** The loose algorithm is missing from C49_decompose_partial when N sqrt(eps) > 1, and there
    the claim is false: for every matrix other than 0 whose columns are more than the block
    size the loop over the blocks never ends (no number of steps is enough).  With the eps of
    float that happens from N = 2897 on. *)
Theorem C49_loose_terminates_refuted (C : numClosedFieldType) (nb : nat) (under : C -> bool) (eps : C)
    (M N : nat) (A Z0 : fm C) (beta0 : fv C) (P0 : nat -> nat) (d : C) (cn0 : nat -> option C) :
  (0 < nb)%N -> (nb < N)%N -> (N <= M)%N -> 0 < eps -> 1 < N%:R * sqrtC eps -> N%:R * eps <= 1 ->
  (exists i c, [/\ (i < M)%N, (c < N)%N & A i c != 0]) ->
  forall steps, let sc := qscale M N A in let s := qstart sc M N A beta0 P0 d cn0 in
  LBloop nb under eps steps sc (qthresh eps N (qc s)) M N 0 s Z0 = UB.
Proof.
  move=> h1 h2 h3 h4 h5 h6 [i [c [hi hc nz]]] steps /=.
  have [t e] : exists t, qscale M N A = Some t.
    case e: (qscale M N A) => [t|]; first by exists t.
    by case/eqP: nz; apply: (scNone h3 _ h4 e) => //; lia.
  by apply: (loose_stuck _ h3 h1 h2 h4 h5 h6 e).
Qed.
Print Assumptions C49_loose_terminates_refuted.

(** The hypotheses can be met: float (eps = 2^-23), the default block size 64 and N = 4096. *)
Example ex_loose (C : numClosedFieldType) : let eps : C := (2%:R ^+ 23)^-1 in
  [/\ 0 < eps, 1 < (2 ^ 12)%:R * sqrtC eps & (2 ^ 12)%:R * eps <= 1].
Proof.
  move=> eps; have e0 : 0 < eps by rewrite invr_gt0 exprn_gt0 // ltr0n.
  split=> //.
    rewrite -(@ltr_pexpn2r _ 2) ?nnegrE ?ler01 ?mulr_ge0 ?ler0n ?sqrtC_ge0 ?(ltW e0) //.
    by rewrite expr1n exprMn sqrtCK -natrX -expnM /eps -natrX ltr_pdivl_mulr ?mul1r ?ltr_nat ?ltr0n ?ltn_exp2l ?expn_gt0.
  by rewrite /eps -natrX ler_pdivr_mulr ?ltr0n ?expn_gt0 // mul1r ler_nat leq_exp2l.
Qed.
Print Assumptions ex_loose.
(** Double (eps = 2^-52), loose, 65 columns in blocks of 64. *)
Example ex_qrp (C : numClosedFieldType) : let eps : C := (2%:R ^+ 52)^-1 in
  [/\ 0 < eps, 16%:R * eps <= 1 & [|| false, (65 <= 64)%N | 65%:R * sqrtC eps <= 1]].
Proof.
  move=> eps; have e0 : 0 < eps by rewrite invr_gt0 exprn_gt0 // ltr0n.
  split=> //; first by rewrite /eps -natrX ler_pdivr_mulr ?ltr0n ?expn_gt0 // mul1r ler_nat (@leq_exp2l 2 4).
  apply/orP; right; apply/orP; right.
  rewrite -(@ler_pexpn2r _ 2) ?nnegrE ?ler01 ?mulr_ge0 ?ler0n ?sqrtC_ge0 ?(ltW e0) //.
  rewrite expr1n exprMn sqrtCK -natrX /eps -natrX ler_pdivr_mulr ?mul1r ?ltr0n ?expn_gt0 // ler_nat.
  by apply: (@leq_trans (2 ^ 13)); last exact: (@leq_exp2l 2 13 52).
Qed.
