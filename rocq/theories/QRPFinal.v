(** QRP_Decompose as a whole. *)
From Coq Require Import Ring Field.
From Verif Require Import Base FMat TriSolve TriInv RowPerm RingTac Cplx Chol Claims_Tri LUDiv QR QRProofs QRDiv QRDivProofs QRP QRPProofs QRPLoop QRPStrict QRPPerm QRPLoose.
From mathcomp Require Import all_ssreflect all_fingroup all_algebra zify.
Set Implicit Arguments. Unset Strict Implicit. Unset Printing Implicit Defensive.
Import GRing.Theory Num.Theory Order.Theory.
Local Open Scope ring_scope.

Section Final.
Variable C : numClosedFieldType.
Variables (nb : nat) (under : C -> bool) (eps : C).
Hypotheses (nb0 : (0 < nb)%N) (eps0 : 0 < eps) (eps1 : 16%:R * eps <= 1).
Implicit Types (A X Z : fm C) (b : fv C) (P : nat -> nat).

Lemma qrpres_weak M N A0 b0 P0 (d0 tol : C) (st st' rk rk' : bool) r X A b P d : (st' -> st) -> (rk' -> rk) ->
  qrpres M N A0 b0 P0 d0 tol st rk r X A b P d -> qrpres M N A0 b0 P0 d0 tol st' rk' r X A b P d.
Proof using. by move=> h1 h2 [*]; split=> //; auto. Qed.

Lemma QRP_DecomposeP (strict : bool) M N A b P d cn0 Z0 : (N <= M)%N ->
  [|| strict, (N <= nb)%N | N%:R * sqrteps eps <= 1] ->
  exists s, QRP_Decompose nb under eps strict M N A b P d cn0 Z0 = Ok s /\
    exists r X, qrpres M N A b P d (qtol eps M N A) strict (strict || (N <= nb)%N) r X (qA s) (qb s) (qP s) (qd s).
Proof using All.
  move=> NM H; rewrite /QRP_Decompose; case: (posnP N) => [N0|N0] /=.
    eexists; split; first by []. exists 0%N, A; rewrite N0 /=; split=> //=; try (by move=> *; lia).
    by rewrite /sgn big_geq // mulr1; apply: qinv0.
  case: ltnP => hn.
    case: strict H => H.
      have [s -> [r [X R]]] := StrictBlockQRP_P under A NM N0 nb0 eps0 eps1 b P d cn0 Z0.
      by exists s; split=> //; exists r, X; apply: qrpres_weak R.
    have [s [-> [r [X R]]]] := @LooseBlockQRP_P _ under eps nb M N A NM N0 nb0 eps0 ltac:(by move: H => /=; rewrite leqNgt hn) b P d cn0 Z0.
    by exists s; split=> //; exists r, X; apply: qrpres_weak R.
  have [s -> [r [X R]]] := NonBlockQRP_P A NM N0 eps0 under strict b P d cn0.
  by exists s; split=> //; exists r, X; apply: qrpres_weak R.
Qed.

Lemma sgn_pivsign P N : sgn C P N = (-1) ^+ count (fun k => P k != k) (iota 0 N).
Proof using. clear nb0 eps0 eps1.
  elim: N => [|n IH]; first by rewrite /sgn big_geq.
  have -> : iota 0 n.+1 = iota 0 n ++ [:: n] by have := iotaD 0 n 1; rewrite addn1 add0n.
  by rewrite sgnS IH count_cat exprD /= addn0; case: eqP.
Qed.
Lemma sgn_sq P N : sgn C P N * sgn C P N = 1.
Proof using. by rewrite sgn_pivsign -exprD addnn -mul2n exprM sqrrN expr1n expr1n. Qed.

(** The columns of pcols as a permutation of those of A. *)
Lemma pcols_perm M N P A : (forall k, (k < N)%N -> (k <= P k < N)%N) ->
  exists s : 'S_N, [/\ forall i : 'I_N, psig P 0 N i = s i :> nat, (-1) ^+ odd_perm s = sgn C P N &
    mx M N (pcols M P N A) = col_perm s (mx M N A)].
Proof using. clear nb0 eps0 eps1.
  move=> HP; have [s [h1 h2]] := @psig_perm N P 0 N ltac:(by move=> k hk; have := HP k; lia).
  exists s; split=> //; first by rewrite h2 sgn_pivsign signr_odd.
  by apply/matrixP => i j; rewrite !mxE /pcols ltn_ord h1.
Qed.

Lemma qrp_det N A0 b0 P0 (d0 tol : C) st rk r X A b P d : qrpres N N A0 b0 P0 d0 tol st rk r X A b P d ->
  d * \prod_(0 <= i < N) A i i = if r == N then d0 * \det (mx N N A0) else 0.
Proof using. clear nb0 eps0 eps1.
  move=> R; have [hr Q HP _ hz he _ _ _ _ _] := R.
  case: (eqVneq r N) => [e|ne]; last first.
    have hrN : (r < N)%N by lia.
    by rewrite big_mkord (bigD1 (Ordinal hrN)) //= hz ?mul0r ?mulr0 //; lia.
  have [s [h1 h2 h3]] := pcols_perm N A0 HP.
  have I := qinv_isqr (leqnn N) Q.
  have eX : mx N N X = col_perm s (mx N N A0).
    by rewrite -h3; apply/matrixP => i j; rewrite !mxE he // e.
  have := iq_fact I; rewrite eX /Qh.
  have -> : Em C N N = 1%:M by apply/matrixP => i j; rewrite !mxE -val_eqE; case: eqP.
  rewrite mulmx1 => /(congr1 determinant); rewrite det_mulmx col_permE det_mulmx det_perm odd_permV h2 det_Rm => e2.
  rewrite (qi_det Q) -mulrA; change (Pr N A (fun k => (b k)^*) 0 N) with (Pr N A (zb b) 0 N).
  by rewrite -e2 -!mulrA (mulrC _ (sgn _ _ _)) [in X in _ * X]mulrA sgn_sq mul1r.
Qed.
End Final.
