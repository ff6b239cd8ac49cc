(** C56: the singular value decomposition of a hermitian matrix as free functions. *)
From Verif Require Import Base FMat TriSolve TriInv RowPerm Claims_Tri LUDiv Cplx Chol QR QRProofs QRDiv QRDivProofs Claims_QR SVDiv SVDivProofs Claims_SVD
  BidiagQR Sort SVDecompose Tridiag TridiagQR Claims_Eigen HermSVD Claims_HermSVD HermSVDecompose.
From mathcomp Require Import all_ssreflect all_fingroup all_algebra all_field zify.
Set Implicit Arguments. Unset Strict Implicit. Unset Printing Implicit Defensive.
Import GRing.Theory Num.Theory Order.Theory.
Local Open Scope ring_scope.
Local Notation hermitian := Claims_Eigen.hermitian.

Section Lemmas.
Variable C : numClosedFieldType.
Implicit Types (A U V : fm C) (S : fv C).
(** Changing Vt outside its N x N elements. *)
Lemma svd_ext N A U S V V' : (forall i j, (i < N)%N -> (j < N)%N -> V' i j = V i j) ->
  is_svd N N A U S V -> is_svd N N A U S V'.
Proof.
  rewrite /is_svd minnn => e [h1 h2 h3 h4 h5]; split=> //.
    by move=> k k' hk hk'; rewrite -h2 //; apply: eq_bigr => j _; rewrite !e.
  by move=> i j hi hj; rewrite h5 //; apply: eq_bigr => l _; rewrite e.
Qed.
Lemma svd_conj N A U S V : is_svd N N (conjm A) U S V -> is_svd N N A (conjm U) S (conjm V).
Proof.
  rewrite /is_svd minnn => -[h1 h2 h3 h4 h5]; split=> //.
  - move=> c c' hc hc'; rewrite -[RHS]conjC_nat -(h1 c c') // rmorph_sum; apply: eq_bigr => i _.
    by rewrite /conjm rmorphM.
  - move=> c c' hc hc'; rewrite -[RHS]conjC_nat -(h2 c c') // rmorph_sum; apply: eq_bigr => i _.
    by rewrite /conjm rmorphM.
  - move=> i j hi hj; rewrite -[A i j]conjCK -[(A i j)^*]/(conjm A i j) h5 // rmorph_sum; apply: eq_bigr => l _.
    by rewrite /conjm !rmorphM /= [(S l)^*]geC0_conj // h3.
Qed.
Lemma herm_conj N A : hermitian N A -> hermitian N (conjm A).
Proof. by move=> h i j hi hj; rewrite /conjm h. Qed.

Section Run.
Variables (under : C -> bool) (dclim nb tb : nat).
Variable dc : nat -> nat -> nat -> tst C -> run (tst C).
Variable blk : nat -> fm C -> fv C -> fv C -> fv C -> fm C * fv C * fv C * fv C.
Variable stdsort : (C * nat -> C * nat -> bool) -> list (C * nat) -> list (C * nat).
Hypothesis h1 : forall x, under x = (x == 0).
Hypothesis h2 : (0 < nb)%N.
Hypothesis h3 : std_sort_contract stdsort.
Variable N : nat.
Hypothesis ht : (N < tb * 2)%N.
Hypothesis hd : (N <= dclim)%N.

Lemma SV3_0P fuel A U S Vt w : hermitian N A ->
  match SV3_0 0 under dclim nb tb dc blk stdsort fuel N A U S Vt w with
  | Ok (Some (U', S', V')) => is_svd N N A U' S' V' /\ (forall i j, ~~ ((i < N) && (j < N))%N -> V' i j = Vt i j)
  | Ok None => True
  | _ => False
  end.
Proof using h1 h2 h3 ht hd.
  move=> hA; rewrite /SV3_0.
  have hU i j : (j <= i < N)%N -> setlow N A U i j = A i j by move=> h; rewrite /setlow h.
  have := C55_herm_sv_decompose dc blk fuel S w h1 h2 h3 ht hd hA hU.
  case: (HermSV_Decompose _ _ _ _ _ _ _ _ _ _ _ _ _) => [[[U' S']|]|e|] //= [iE de].
  split=> [|i j /negbTE -> //]; apply: svd_ext (C56_factors iE de) => i j hi hj; by rewrite hi hj.
Qed.
Lemma SV2_0P fuel A U S w : hermitian N A ->
  match SV2_0 0 under dclim nb tb dc blk stdsort fuel N A U S w with
  | Ok (Some (U', S')) => exists2 S0, is_eigen N A U' S0 & descending_abs N S0 /\ S' = HermSVDiv_getS N S0
  | Ok None => True
  | _ => False
  end.
Proof using h1 h2 h3 ht hd.
  move=> hA; rewrite /SV2_0.
  have hU i j : (j <= i < N)%N -> setlow N A U i j = A i j by move=> h; rewrite /setlow h.
  have := C55_herm_sv_decompose dc blk fuel S w h1 h2 h3 ht hd hA hU.
  by case: (HermSV_Decompose _ _ _ _ _ _ _ _ _ _ _ _ _) => [[[U' S']|]|e|] //= [iE de]; exists S'.
Qed.
Lemma eigen_conj A U S : is_eigen N (conjm A) U S -> is_eigen N A (conjm U) S.
Proof using.
  move=> [o r e f]; have r' i : (i < N)%N -> (S i)^* = S i by move=> hi; apply/CrealP; apply: r.
  split=> //.
  - by move=> c c' hc hc'; rewrite -[RHS]conjC_nat -(o c c') // rmorph_sum; apply: eq_bigr => i _; rewrite /conjm rmorphM.
  - move=> i l hi hl; rewrite -[S l]r' // /conjm -rmorphM /= -e // rmorph_sum; apply: eq_bigr => j _.
    by rewrite rmorphM /= /conjm conjCK.
  - move=> i j hi hj; rewrite -[A i j]conjCK -[(A i j)^*]/(conjm A i j) f // rmorph_sum; apply: eq_bigr => l _.
    by rewrite /conjm !rmorphM /= r'.
Qed.
Lemma SV2UP uconj fuel A U S w : hermitian N A ->
  match SV2U 0 under dclim nb tb dc blk stdsort uconj fuel N A U S w with
  | Ok (Some (U', S')) => exists2 S0, is_eigen N A U' S0 & descending_abs N S0 /\ S' = HermSVDiv_getS N S0
  | Ok None => True
  | _ => False
  end.
Proof using h1 h2 h3 ht hd.
  move=> hA; rewrite /SV2U; case: uconj; last exact: SV2_0P.
  have := SV2_0P fuel (conjm U) S w (herm_conj hA).
  by case: (SV2_0 _ _ _ _ _ _ _ _ _ _ _ _ _ _) => [[[U' S']|]|e|] //= [S0 /eigen_conj h1' h2']; exists S0.
Qed.
End Run.
End Lemmas.

(** SV_Decompose(A,U,S,Vt), for conjugated and unconjugated views U and Vt: an SVD of A.  Memory
    outside Vt is not written. *)
Theorem C56_sv_decompose (C : numClosedFieldType) (under : C -> bool) (dclim nb tb : nat)
    (dc : nat -> nat -> nat -> tst C -> run (tst C)) blk stdsort (uconj vconj : bool) (fuel N : nat)
    (A U Vt : fm C) (S : fv C) (w : hwork C) :
  (forall x, under x = (x == 0)) -> (0 < nb)%N -> std_sort_contract stdsort ->
  (N < tb * 2)%N -> (N <= dclim)%N -> hermitian N A ->
  match SV3 0 under dclim nb tb dc blk stdsort uconj vconj fuel N A U S Vt w with
  | Ok (Some (U', S', V')) => is_svd N N A U' S' V' /\ (forall i j, ~~ ((i < N) && (j < N))%N -> V' i j = Vt i j)
  | Ok None => True
  | _ => False
  end.
Proof.
  move=> h1 h2 h3 ht hd hA; rewrite /SV3; have hA' := herm_conj hA.
  case: uconj; case: vconj.
  - have := SV3_0P dc blk h1 h2 h3 ht hd fuel (conjm U) S (conjm Vt) w hA'.
    case: (SV3_0 _ _ _ _ _ _ _ _ _ _ _ _ _ _ _) => [[[[U' S'] V']|]|e|] //= [sv f].
    by split=> [|i j h]; [apply: svd_conj | rewrite /conjm f // /conjm conjCK].
  - have := SV3_0P dc blk h1 h2 h3 ht hd fuel (conjm U) S Vt w hA'.
    case: (SV3_0 _ _ _ _ _ _ _ _ _ _ _ _ _ _ _) => [[[[U' S'] V']|]|e|] //= [sv f].
    split=> [|i j h]; last by rewrite /conjSelf (negbTE h) f.
    by apply: svd_ext (svd_conj sv) => i j hi hj; rewrite /conjSelf hi hj.
  - have := SV3_0P dc blk h1 h2 h3 ht hd fuel U S (conjm Vt) w hA.
    case: (SV3_0 _ _ _ _ _ _ _ _ _ _ _ _ _ _ _) => [[[[U' S'] V']|]|e|] //= [sv f].
    split=> [|i j h]; last by rewrite /conjSelf (negbTE h) /conjm f // /conjm conjCK.
    by apply: svd_ext sv => i j hi hj; rewrite /conjSelf hi hj /conjm conjCK.
  - exact: SV3_0P.
Qed.
Print Assumptions C56_sv_decompose.

(** SV_Decompose(A,U,S) and SV_Decompose(A,S,Vt): each the part of an SVD of A. *)
Theorem C56_sv_decompose_parts (C : numClosedFieldType) (under : C -> bool) (dclim nb tb : nat)
    (dc : nat -> nat -> nat -> tst C -> run (tst C)) blk stdsort (conj : bool) (fuel N : nat)
    (A X : fm C) (S : fv C) (w : hwork C) :
  (forall x, under x = (x == 0)) -> (0 < nb)%N -> std_sort_contract stdsort ->
  (N < tb * 2)%N -> (N <= dclim)%N -> hermitian N A ->
  match SV2U 0 under dclim nb tb dc blk stdsort conj fuel N A X S w with
  | Ok (Some (U', S')) => exists V, is_svd N N A U' S' V
  | Ok None => True
  | _ => False
  end /\
  match SV2V 0 under dclim nb tb dc blk stdsort conj fuel N A S X w with
  | Ok (Some (S', V')) => exists U, is_svd N N A U S' V'
  | Ok None => True
  | _ => False
  end.
Proof.
  move=> h1 h2 h3 ht hd hA; split.
    have := SV2UP dc blk h1 h2 h3 ht hd conj fuel X S w hA.
    case: (SV2U _ _ _ _ _ _ _ _ _ _ _ _ _ _ _) => [[[U' S']|]|e|] //= [S0 iE [de ->]].
    by exists (HermSVDiv_getVt N U' S0); apply: C56_factors.
  rewrite /SV2V; have := SV2UP dc blk h1 h2 h3 ht hd (~~ conj) fuel (hadj X) S w hA.
  case: (SV2U _ _ _ _ _ _ _ _ _ _ _ _ _ _ _) => [[[U' S']|]|e|] //= [S0 iE [de ->]].
  exists (hadj (HermSVDiv_getVt N U' S0)).
  have := C56_factors iE de; rewrite /is_svd minnn => -[g1 g2 g3 g4 g5]; split=> //.
  - move=> c c' hc hc'; rewrite -(g2 c c') //; apply: eq_bigr => i _; by rewrite /hadj conjCK.
  - move=> c c' hc hc'; rewrite -(g1 c c') //; apply: eq_bigr => i _; by rewrite /hadj conjCK.
  - move=> i j hi hj; rewrite -[A i j]conjCK -hA // g5 // rmorph_sum; apply: eq_bigr => l _.
    rewrite /hadj !rmorphM /= [(HermSVDiv_getS N S0 l)^*]geC0_conj ?g3 //.
    by rewrite mulrC mulrA mulrAC.
Qed.
Print Assumptions C56_sv_decompose_parts.

(** [[2, i], [-i, 3]] meets the hypotheses, and the functions return. *)
Example C56_sv_example (C : numClosedFieldType) (U Vt : fm C) (L : fv C) (w : hwork C) dc blk :
  let A : fm C := fun i j => if i == j then (i.+2)%:R else if (i < j)%N then 'i else - 'i in
  exists U' S' V', SV3 0 (fun x => x == 0) 30 64 64 dc blk (@isort (C * nat)) false true 4 2 A U L Vt w = Ok (Some (U', S', V')) /\
    is_svd 2 2 A U' S' V'.
Proof.
  move=> A; have hA : hermitian 2 A.
    by move=> [|[|i]] [|[|j]] // _ _; rewrite /A /= ?rmorphN /= ?conjCi ?opprK ?conjC_nat.
  have [V [K [e _]]] := @C55_two_by_two C (fun x => x == 0) 30 64 64 dc blk (@isort (C * nat)) false 4 2 A U L w
    (fun x => erefl (x == 0)) isT (@isort_contract _) isT isT hA (leqnn 2) (leqnn 4).
  have := @C56_sv_decompose C (fun x => x == 0) 30 64 64 dc blk (@isort (C * nat)) false true 4 2 A U Vt L w
    (fun x => erefl (x == 0)) isT (@isort_contract _) isT isT hA.
  have nn : SV3 0 (fun x => x == 0) 30 64 64 dc blk (@isort (C * nat)) false true 4 2 A U L Vt w <> Ok None.
    move: e; rewrite /SV3 /SV3_0 /Eigen /Eigen0 /HermSV_Decompose.
    by case: (UnsortedHermEigen _ _ _ _ _ _ _ _ _ _ _ _ _) => [[[U1 S1]|]|?|].
  move: nn; case: (SV3 _ _ _ _ _ _ _ _ _ _ _ _ _ _ _ _ _) => [[[[U' S'] V']|]|?|] // _ [sv _].
  by exists U', S', V'.
Qed.
