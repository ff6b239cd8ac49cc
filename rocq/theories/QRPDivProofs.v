(** Division with a triangular factor whose last rows are zero, and with a permutation. *)
From Coq Require Import Ring Field.
From Verif Require Import Base FMat TriSolve TriInv RowPerm RingTac Cplx Chol Claims_Tri LUDiv QR QRProofs QRDiv QRDivProofs QRP QRPProofs QRPLoop QRPFinal QRPDiv.
From mathcomp Require Import all_ssreflect all_fingroup all_algebra zify.
Set Implicit Arguments. Unset Strict Implicit. Unset Printing Implicit Defensive.
Import GRing.Theory Num.Theory Order.Theory.
Local Open Scope ring_scope.

Section Sel.
Variable C : numClosedFieldType.
Lemma Em_up N N1 K (m : fm C) : (N1 <= N)%N -> (forall i j, (N1 <= i < N)%N -> (j < K)%N -> m i j = 0) ->
  Em C N N1 *m mx N1 K m = mx N K m.
Proof.
  move=> h hz; apply/matrixP => i c; rewrite !mxE; case: (ltnP i N1) => hi.
    rewrite (bigD1 (Ordinal hi)) //= big1 => [|k hk]; rewrite !mxE /=; first by rewrite eqxx mul1r addr0.
    case: eqP => [e|_]; last by rewrite mul0r.
    by exfalso; move: hk; rewrite -val_eqE /= e eqxx.
  rewrite hz ?hi ?ltn_ord //; apply: big1 => k _; rewrite !mxE; case: eqP => [e|_]; last by rewrite mul0r.
  by exfalso; have := ltn_ord k; lia.
Qed.
Lemma Em_sel N N1 K (m : fm C) : (N1 <= N)%N -> mx K N m *m Em C N N1 = mx K N1 m.
Proof.
  move=> h; apply/matrixP => i c; rewrite !mxE; have hc : (c < N)%N by have := ltn_ord c; lia.
  rewrite (bigD1 (Ordinal hc)) //= big1 => [|k hk]; rewrite !mxE /=; first by rewrite eqxx mulr1 addr0.
  case: eqP => [e|_]; last by rewrite mulr0.
  by exfalso; move: hk; rewrite -val_eqE /= e eqxx.
Qed.
End Sel.

Section Div.
Variable C : numClosedFieldType.
Variables (M N N1 : nat) (A Q : fm C) (beta : fv C) (P : nat -> nat).
Hypothesis hN1 : (N1 <= N)%N.
Hypothesis hz : forall i c, (N1 <= i)%N -> (i <= c < N)%N -> Q i c = 0.
Hypothesis hd : forall a, (a < N1)%N -> Q a a != 0.

Notation E := (Em C N N1).
Notation Qu := (Qh M N Q beta).
Notation R := (Rm N Q).
Notation R1 := (Rm N1 Q).

Lemma RE : R *m E = E *m R1.
Proof using hN1.
  rewrite /Rm Em_sel // Em_up // => i j hi hj; rewrite /upper.
  have -> : (i == j) = false by lia.
  by have -> : (i < j)%N = false by lia.
Qed.
Lemma EER : E *m (ctr E *m R) = R.
Proof using hN1 hz.
  rewrite /Rm Em_rows // Em_up // => i j hi hj; rewrite /upper; case: eqP => [e|ne]; first by apply: hz; lia.
  by case: ifP => // h; apply: hz; lia.
Qed.
Lemma EE : ctr E *m E = 1%:M.
Proof using hN1. exact: EmE. Qed.
Lemma REE : ctr R *m E *m ctr E = ctr R.
Proof using hN1 hz. by rewrite -{2}EER !ctrM ctrK. Qed.
Lemma R1u : R1 \in unitmx.
Proof using hd.
  rewrite unitmxE unitfE det_Rm big_mkord; apply/prodf_neq0 => i _; exact: hd.
Qed.
Lemma nosing e : ~ zero_diag false N1 Q e.
Proof using hd. by case=> _ [_ [i [hi e0]]]; move: (hd hi); rewrite e0 eqxx. Qed.

Hypothesis I : isqr M N A Q beta.
Hypothesis HP : forall k, (k < N)%N -> (k <= P k < N)%N.
Variables (nb tb tb2 : nat) (stA stB : stor).
Hypotheses (nbP : (0 < nb)%N) (tbP : (0 < tb)%N) (tb2P : (0 < tb2)%N).
Lemma QRP_LDivP K Z0 m : exists X, QRP_LDiv nb tb tb2 stA stB M N K Q beta P N1 Z0 m = Ok X /\
  (exists x1, mx N K (permrows K P 0 N X) = E *m x1 /\ R1 *m x1 = ctr E *m (ctr Qu *m mx M K m)) /\ framed M K X m.
Proof using All.
  have h := iq_M I; rewrite /QRP_LDiv.
  have [m1 [-> e1 f1]] := Q_LDivEqP K Q beta Z0 m nbP h.
  rewrite [bindO _ _]/=; set x0 : fm C := fun i j => _.
  have := TriLDivEqMUP tbP tb2P stA stB false N1 K Q x0.
  case: (TriLDivEqMU _ _ _ _ _ _ _ _ _) => [x|e /nosing|] //= [/mx_mulP g1 g2].
  eexists; split; first reflexivity. split.
    exists (mx N1 K x); split.
      rewrite Em_up //; first by apply: mx_ext => i j hi hj; rewrite revpermrowsK.
      by move=> i j hi hj; rewrite g2 ?/x0 ?hi ?hj //; lia.
    rewrite -/(Rm N1 Q) in g1; rewrite g1.
    have -> : mx N1 K x0 = mx N1 K m1.
      by apply: mx_ext => i j hi hj; rewrite /x0; have -> : (N1 <= i < N)%N = false by lia.
    rewrite -(@Em_rows _ N N1) // -(@Em_rows _ M N) // e1 /Qh ctrM mulmxA.
    by rewrite !mulmxA.
  move=> r c hrc.
  have hp : revpermrows K P 0 N x r c = x r c.
    have := revpermrowsK K P 0 N x r c; rewrite permrowsE; case: ltnP => hc <- //.
    rewrite (@psig_out N) //; last by lia. by move=> k hk; have := HP (k := k); lia.
  rewrite hp g2; last lia. rewrite /x0; have -> : ((N1 <= r < N) && (c < K))%N = false by lia.
  by rewrite f1.
Qed.

Lemma QRP_RDivP K Z0 m : exists X, QRP_RDiv nb tb tb2 stA stB M N K Q beta P N1 Z0 m = Ok X /\
  exists x1, mx K M X = x1 *m ctr E *m ctr Qu /\
     x1 *m R1 = mx K N (trm (permrows K P 0 N (trm m))) *m E.
Proof using All.
  have h := iq_M I; rewrite /QRP_RDiv; set x0 : fm C := fun i j => _.
  have := @C26_matrix_right _ tb tb2 true stA stB false N1 K Q x0 tbP tb2P.
  case: (TriRDivEqM _ _ _ _ _ _ _ _ _ _) => [x|e /nosing|] //= [g1 g2].
  have [m1 [-> e1 f1]] := Q_RDivEqP K Q beta Z0 x nbP h.
  exists m1; split=> //; exists (mx K N1 x); split.
    have z i j : (i < K)%N -> (N1 <= j < M)%N -> x i j = 0 by move=> hi hj; rewrite g2 ?/x0 ?hi ?hj //; lia.
    rewrite e1 /Qh ctrM mulmxA -(@Em_cols _ N N1) // => [|i j hi hj]; last by apply: z; lia.
    by rewrite -(@Em_cols _ M N) // => i j hi hj; apply: z; lia.
  rewrite Em_sel //; apply/mx_mulP => c i hc hi; rewrite g1 // /x0.
  by have -> : ((c < K) && (N1 <= i < M))%N = false by lia.
Qed.

Lemma QRP_InverseP Z0 : exists X, QRP_Inverse nb tb M N Q beta P N1 Z0 = Ok X /\
  exists2 Ri, R1 *m Ri = 1%:M & mx N M (permrows M P 0 N X) = E *m Ri *m ctr E *m ctr Qu.
Proof using All.
  have h := iq_M I; rewrite /QRP_Inverse; set x0 : fm C := fun i j => _.
  have eu i j : (i < N1)%N -> (j < N1)%N -> upper false x0 i j = upper false Q i j.
    move=> hi hj; rewrite /upper /x0; case: eqP => [->|ne]; first by rewrite leqnn hj.
    by case: ifP => // hij; rewrite (ltnW hij) hj.
  have := @C26_inverse _ tb false N1 x0 tbP.
  case: (TriInverse _ _ _ _) => [x|e|] //=; last first.
    by case=> _ [_ [i [hi e0]]]; move: (hd hi); rewrite -e0 /x0 leqnn hi eqxx.
  case=> g1 g2; have [m1 [-> e1 f1]] := Q_RDivEqP N Q beta Z0 x nbP h.
  rewrite /=; eexists; split; first reflexivity.
  have zz i j : ~~ (i <= j < N1)%N -> x i j = 0 by move=> hij; rewrite g2 ?/x0 // (negbTE hij).
  exists (mx N1 N1 x).
    apply/matrixP => i j; rewrite !mxE; have [<- _] := g1 i j (ltn_ord i) (ltn_ord j).
    apply: eq_bigr => k _; rewrite !mxE eu //; congr (_ * _).
    rewrite /upper; case: ltngtP => [//|hk|/val_inj -> //].
    by rewrite zz //; lia.
  have -> : mx N M (permrows M P 0 N (revpermrows M P 0 N m1)) = mx N M m1.
    by apply: mx_ext => i j hi hj; rewrite revpermrowsK.
  rewrite e1 /Qh ctrM mulmxA (@Em_cols _ M N); [|exact: h|by move=> i j hi hj; apply: zz; lia].
  rewrite Em_up //; last by move=> i j hi hj; apply: zz; lia.
  by rewrite -(@Em_cols _ N N1) // => i j hi hj; apply: zz; lia.
Qed.
End Div.
