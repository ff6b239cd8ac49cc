(** Proofs about QRP.v: the blocked version with strict pivoting does the steps of the
    column-by-column one on a matrix that it does not form. *)
From Coq Require Import Ring Field.
From Verif Require Import Base FMat TriSolve RowPerm RingTac Cplx Chol QR QRProofs QRP QRPProofs QRPLoop.
From mathcomp Require Import all_ssreflect all_fingroup all_algebra zify.
Set Implicit Arguments. Unset Strict Implicit. Unset Printing Implicit Defensive.
Import GRing.Theory Num.Theory Order.Theory.
Local Open Scope ring_scope.

Section Ext.
Variable C : numClosedFieldType.
Implicit Types (A X : fm C) (z b : fv C).
Lemma qinv_extR M o n e X A A' z d0 d : (forall i c, A i c = A' i c) -> qinv M o n e X A z d0 d -> qinv M o n e X A' z d0 d.
Proof.
  move=> h Q; apply: (@qinv_swap _ M o n e X A z d0 d (o + n) (o + n) X A' z d0 d 1) => //; rewrite ?mul1r //.
    by move=> i c; rewrite /swapAc tsw_same if_same.
  by move=> i c; rewrite /swapAc tsw_same if_same h.
Qed.
(** Only column j matters for a reflection that is applied to nothing else. *)
Lemma qinv_col M j X A X' A' z d0 d : (forall i, X' i j = X i j) -> (forall i, A' i j = A i j) ->
  (forall i c, c != j -> A' i c = X' i c) -> qinv M j 1 (j + 1) X A z d0 d -> qinv M j 1 (j + 1) X' A' z d0 d.
Proof.
  move=> hX hA hc [u f t fr r z0 D].
  have hk k : (j <= k < j + 1)%N -> k = j by lia.
  have pe : Pr M A' z j 1 = Pr M A z j 1 by apply: Pr_ext => // i k /hk -> _.
  split.
  - by move=> k /[dup] h /hk e; rewrite (@yv_ext _ M A' A); [apply: u|move=> i _; rewrite e].
  - move=> c /[dup] h /hk e; rewrite pe -[RHS](_ : colv M X c = _); last by apply/matrixP => i k; rewrite !mxE e hX.
    by rewrite -f //; congr (_ *m _); apply/matrixP => i k; rewrite !mxE e hA.
  - by move=> c; lia.
  - move=> i c h; case: (eqVneq c j) => [e|ne]; last exact: hc.
    by rewrite e hA hX; apply: fr; rewrite e in h.
  - by move=> c /[dup] h /hk e; rewrite e hA -e; apply: r.
  - by move=> k i /[dup] h /hk e h1 h2; rewrite e hA -e; apply: z0.
  - by rewrite pe.
Qed.
End Ext.

Section Strict.
Variable C : numClosedFieldType.
Variables (under : C -> bool) (M N : nat).
Hypothesis NM : (N <= M)%N.
Implicit Types (A X Z : fm C) (b : fv C).
(** The matrix that the blocked version stands for. *)
Definition Tm (j1 j : nat) A Z : fm C := fun i c =>
  if (j <= i < M)%N && (j <= c < N)%N then A i c - \sum_(j1 <= k < j) A i k * Z (k - j1)%N c else A i c.

Definition swapZ (j1 j p : nat) Z : fm C := fun q c => if (q < j - j1)%N then Z q (tsw j p c) else Z q c.
Lemma Tm_swap j1 j p A Z i c : (j1 <= j)%N -> (j <= p < N)%N ->
  Tm j1 j (swapAc M j p A) (swapZ j1 j p Z) i c = swapAc M j p (Tm j1 j A Z) i c.
Proof using NM.
  move=> h1 hp; rewrite /Tm /swapAc; case: (ltnP i M) => hi; last by rewrite andbF.
  have e1 : (j <= tsw j p c)%N = (j <= c)%N by apply: tsw_geE => //; lia.
  have e2 : (tsw j p c < N)%N = (c < N)%N by apply: tsw_ltE; lia.
  rewrite e1 e2; case: ifP => // h; congr (_ - _); apply: eq_big_nat => k hk; rewrite tsw_out; [|lia|lia].
  by rewrite /swapZ ifT //; lia.
Qed.

Lemma Tm_step j1 j A Z (d : C) A' (b d' : C) (z : fv C) : (j1 <= j)%N -> (j < N)%N ->
  hreflect under M j (sbcol M j1 j A Z) d = (A', b, d') -> z j = b^* ->
  let Z' := sbrow M N j1 j b A' Z in
  let A'' := sbrest N j1 j A' Z' in
  qinv M j 1 N (Tm j1 j A Z) (Tm j1 j.+1 A'' Z') z d d' /\ (forall k, (j < k)%N -> Tm j1 j.+1 A'' Z' j k = A'' j k).
Proof using NM.
  move=> hj1 hj E hz Z' A''; have hjM : (j < M)%N by lia.
  have Q := hreflectP hjM E hz.
  have fr i c : c != j -> A' i c = A i c.
    by move=> h; rewrite (qi_frame Q); [rewrite /sbcol (negbTE h)|lia].
  pose T := Tm j1 j A Z.
  pose B : fm C := fun i c => if c == j then A' i c else T i c.
  have Tj i : T i j = sbcol M j1 j A Z i j.
    by rewrite /T /Tm /sbcol eqxx leqnn hj /= andbT.
  have QB : qinv M j 1 (j + 1) T B z d d'.
    apply: qinv_col Q => //; first by move=> i; rewrite /B eqxx.
    by move=> i c /negbTE h; rewrite /B h.
  have TE i c : (j <= i < M)%N -> (j < c < N)%N -> T i c = A' i c - \sum_(j1 <= k < j) A' i k * Z (k - j1)%N c.
    move=> h1 h2; rewrite /T /Tm h1 ifT; last lia. rewrite fr; last lia.
    congr (_ - _); apply: eq_big_nat => k hk; rewrite fr //; lia.
  have Z'E c : (j < c < N)%N -> Z' (j - j1)%N c = b * (\sum_(j.+1 <= i < M) (A' i j)^* * T i c + T j c).
    move=> hc; rewrite /Z' /sbrow eqxx ifT; last lia.
    case: (eqVneq b 0) => [->|_] /=; first by rewrite mul0r.
    have -> : (j < c)%N by lia.
    rewrite mulrC; congr (_ * _).
    have e1 : \sum_(j.+1 <= i < M) (A' i j)^* * T i c
       = \sum_(j.+1 <= i < M) (A' i j)^* * A' i c - \sum_(j.+1 <= i < M) \sum_(j1 <= k < j) (A' i j)^* * A' i k * Z (k - j1)%N c.
      rewrite -sumrB; apply: eq_big_nat => i hi; rewrite TE; [|lia|lia].
      by rewrite mulrBr mulr_sumr; congr (_ - _); apply: eq_bigr => k _; rewrite mulrA.
    have e2 : \sum_(j1 <= k < j) (\sum_(j.+1 <= i < M) (A' i j)^* * A' i k + A' j k) * Z (k - j1)%N c
       = \sum_(j.+1 <= i < M) \sum_(j1 <= k < j) (A' i j)^* * A' i k * Z (k - j1)%N c + \sum_(j1 <= k < j) A' j k * Z (k - j1)%N c.
      by rewrite exchange_big_nat /= -big_split /=; apply: eq_bigr => k _; rewrite mulrDl mulr_suml.
    by rewrite e1 e2 TE; [rewrite opprD addrACA|lia|lia].
  have Z'o q c : q != (j - j1)%N -> Z' q c = Z q c by move=> h; rewrite /Z' /sbrow (negbTE h).
  have A''E i c : (i != j) || (c <= j)%N || (N <= c)%N -> A'' i c = A' i c.
    by move=> h; rewrite /A'' /sbrest ifF //; lia.
  have row c : (j < c < N)%N -> A'' j c = T j c - Z' (j - j1)%N c.
    move=> hc; rewrite /A'' /sbrest eqxx hc /= TE; [|lia|lia]; congr (_ - _ - _).
    by apply: eq_big_nat => k hk; rewrite Z'o //; lia.
  have TT i c : Tm j1 j.+1 A'' Z' i c =
      if (j <= i < M)%N && (j < c < N)%N then T i c - yelt A' i j * Z' (j - j1)%N c else B i c.
    case: (boolP ((j <= i < M)%N && (j < c < N)%N)) => h.
      case: (eqVneq i j) => [->|hi].
        rewrite /Tm ifF; last lia. rewrite row; last lia. by rewrite /yelt eqxx mul1r.
      rewrite /Tm ifT; last lia. rewrite TE; [|lia|lia]; rewrite A''E ?hi // -addrA; congr (_ + _).
      rewrite big_nat_recr //= opprD; congr (- _ - _); last first.
        rewrite A''E ?hi // /yelt (negbTE hi); have -> : (j < i)%N by lia. by [].
      apply: eq_big_nat => k hk; rewrite A''E ?hi // Z'o //; lia.
    rewrite /B; have -> : Tm j1 j.+1 A'' Z' i c = A'' i c by rewrite /Tm ifF //; lia.
    case: (eqVneq c j) => [->|hc]; first by rewrite A''E ?leqnn ?orbT.
    case: (leqP c j) => hcj.
      by rewrite A''E ?hcj ?orbT // fr // /T /Tm ifF //; lia.
    case: (ltnP c N) => hcN; last by rewrite A''E ?hcN ?orbT // fr // /T /Tm ifF //; lia.
    by rewrite A''E; [rewrite fr // /T /Tm ifF //|]; lia.
  split; last by move=> k hk; rewrite /Tm ifF //; lia.
  have QN : (j + 1 <= N)%N by lia.
  apply: (qinv_trail QN QB); last first.
    by move=> i c h; rewrite TT ifF //; lia.
  move=> c; rewrite addn1 => hc; rewrite /= mulmx1 ctrHm hz conjCK.
  rewrite -(@hlmultE _ M j (j + 1) N B b B c hjM); last lia.
  apply/matrixP => i l; rewrite !mxE /hlmult TT; have hi := ltn_ord i.
  have Bj k : B k j = A' k j by rewrite /B eqxx.
  have Bc k : B k c = T k c by rewrite /B ifF //; lia.
  have eS : \sum_(j.+1 <= k < M) (B k j)^* * B k c + B j c = \sum_(j.+1 <= k < M) (A' k j)^* * T k c + T j c.
    by rewrite Bc; congr (_ + _); apply: eq_bigr => k _; rewrite Bj Bc.
  rewrite Z'E //; case: (eqVneq b 0) => [->|_] /=.
    by rewrite mul0r mulr0 subr0 Bc if_same.
  rewrite eS addn1 hc hi !andbT !Bc Bj.
  case: (leqP j i) => hji //=; rewrite [X in yelt A' i j * X]mulrC /yelt.
  case: eqP => [->|ne]; first by rewrite mul1r.
  by have -> : (j < i)%N by lia.
Qed.
End Strict.

Section Loop.
Variable C : numClosedFieldType.
Variables (nb : nat) (under : C -> bool) (eps : C).
Variables (M N : nat) (A0 : fm C) (b0 : fv C) (P0 : nat -> nat) (d0 : C) (strict : bool) (sc thr : option C).
Hypothesis NM : (N <= M)%N.
Hypothesis nb0 : (0 < nb)%N.
Hypothesis eps0 : 0 < eps.
Hypothesis eps1 : 16%:R * eps <= 1.
Notation tol := (qtol eps M N A0).
Hypothesis Hthr : thr = if sc is Some s then Some (tol * tNORM s) else None.
Hypothesis Hpos : forall s, sc = Some s -> 0 < tol /\ 0 < tNORM s.
Hypothesis Hnone : sc = None -> forall i c, (i < M)%N -> (c < N)%N -> A0 i c = 0.
Implicit Types (A X Z : fm C) (b : fv C) (P : nat -> nat) (cn : nat -> option C).
Notation full' := (full M N A0 b0 P0 d0 true sc).
Notation fulls' := (fulls M N A0 b0 P0 d0 true sc).
Notation fullres' := (fullres eps M N A0 b0 P0 d0 true).
(** The state of which (s, Z) is the representation. *)
Definition rep (j1 j : nat) (s : pst C) Z : pst C := PS (Tm M N j1 j (qA s) Z) (qb s) (qP s) (qd s) (qc s) (qr s).

Lemma full_extA j A A' b P d cn : (forall i c, A i c = A' i c) -> full' j A b P d cn -> full' j A' b P d cn.
Proof using All.
  move=> h [[Q HP] fn fz fo fb fP]; split=> //.
  - by split=> //; apply: qinv_extR Q.
  - by move=> k hk; rewrite fn //; apply: colnsq_ext; apply: cnq_ext => i _.
  - by move=> hs a ha; rewrite -h; apply: (fz hs).
  - move=> hs a k ha hk; rewrite -h; have := fo hs a k ha hk; congr (_ <= _).
    by apply: cnq_ext => i _; rewrite /rr h.
Qed.
Lemma fullres_ext s s' : (forall i c, qA s i c = qA s' i c) -> qb s = qb s' -> qP s = qP s' -> qd s = qd s' ->
  fullres' s -> fullres' s'.
Proof using All.
  case: s => A b P d cn r; case: s' => A' b' P' d' cn' r' /= h eb eP ed [r1 [X [h1 h2 h3 h4 h5 h6 h7 h8 h9 h10 h11]]].
  subst b' P' d'; exists r1, X; split=> //=.
  - exact: qinv_extR h h2.
  - by move=> rk a ha; rewrite -h; apply: h4.
  - by move=> i c h12 h13; rewrite -h; apply: h5.
  - move=> hs a k ha hk; rewrite -h; have := h8 hs a k ha hk; congr (_ <= _).
    by apply: cnq_ext => i _; rewrite /rr /= h.
  - by move=> i c h12; rewrite -h; apply: h9.
Qed.
Lemma four_le1 : 4%:R * sqrteps eps <= 1.
Proof using All.
  have h0 : 0 <= 4%:R * sqrteps eps by rewrite mulr_ge0 ?ler0n // sqrtC_ge0 ltW.
  rewrite -(expr_le1 (n := 2)) // exprMn sqrtCK -natrX; exact: eps1.
Qed.

Definition sbpost (j1 j : nat) (s : pst C) (o : pst C * fm C * nat) : Prop :=
  let: (s', Z', j') := o in
  [/\ (j <= j' <= N)%N, fulls' j' (rep j1 j' s' Z'), (j = j1 -> qr s = Some 0 -> (j1 < j')%N) & (j' = j1 -> qr s' = Some 0)]
  \/ j' = N /\ fullres' s'.

Definition SBr (mx : option C) (s : pst C) : pst C := if qr s == Some 0 then with_r s (nmul (4%:R * sqrteps eps) mx) else s.
Definition SBnext (j1 j jp : nat) (s : pst C) Z : pst C * fm C :=
  let s := pivot M j jp s in
  let Z : fm C := if jp != 0%N then swapZ j1 j (jp + j) Z else Z in
  let A := sbcol M j1 j (qA s) Z in
  let: (A, b, det) := hreflect under M j A (qd s) in
  let Z := sbrow M N j1 j b A Z in
  let A := sbrest N j1 j A Z in
  (PS A (updv (qb s) j b) (qP s) det (downnorm sc j N A (qc s)) (qr s), Z).
Lemma SBinS f j1 j2 j s Z : (j < j2)%N -> SBin under eps f.+1 sc thr M N j1 j2 j s Z =
  let: (mx, jp) := maxel (qc s) j N in
  let s := SBr mx s in
  if nlt mx (qr s) then
    Ok (if j == j1 then with_r (recalc sc M N j s) (Some 0) else s, Z, j)
  else if nlt mx thr then
    if j == j1 then Ok (finish M N j s, Z, N) else Ok (s, Z, j)
  else SBin under eps f sc thr M N j1 j2 j.+1 (SBnext j1 j jp s Z).1 (SBnext j1 j jp s Z).2.
Proof using All.
  rewrite /= => ->; case: maxel => mx jp; rewrite -/(SBr mx s); case: ifP => // _; case: ifP => // _.
  by rewrite /SBnext /swapZ; case: hreflect => [[A b] d].
Qed.

Lemma SBstep j1 j jp s Z : (j1 <= j < N)%N -> (j <= jp + j < N)%N -> fulls' j (rep j1 j s Z) ->
  (forall k, (j <= k < N)%N -> cnq M j (qA (rep j1 j s Z)) k <= cnq M j (qA (rep j1 j s Z)) (jp + j)) ->
  (sc -> 0 < cnq M j (qA (rep j1 j s Z)) (jp + j)) ->
  fulls' j.+1 (rep j1 j.+1 (SBnext j1 j jp s Z).1 (SBnext j1 j jp s Z).2).
Proof using All.
  move=> hj hp F mx pos; rewrite /SBnext; set s1 := pivot M j jp s; set Z1 : fm C := (if jp != 0%N then _ else _).
  case E : hreflect => [[A b] d']; pose Z2 := sbrow M N j1 j b A Z1; pose A2 := sbrest N j1 j A Z2.
  have hj1 : (j1 <= j)%N by lia. have hjN : (j < N)%N by lia.
  have hz : (updv (qb s1) j b j)^* = b^* by rewrite /updv eqxx.
  have [Q R] := @Tm_step _ under M N NM j1 j (qA s1) Z1 (qd s1) A b d' (fun k => (updv (qb s1) j b k)^*) hj1 hjN E hz.
  have eP : qP s1 = updP (qP s) j (jp + j) by rewrite /s1 /pivot; case: eqP => [->|].
  have eb : qb s1 = qb s by rewrite /s1 /pivot; case: eqP.
  rewrite /fulls /= eP; rewrite eb in Q *.
  apply: (full_step NM hjN hp F (A1 := Tm M N j1 j (qA s1) Z1) (d1 := qd s1)) => //=.
  - move=> i c; rewrite /Z1 /s1 /pivot; case: eqP => [->|] /=; last by move=> _; rewrite -Tm_swap //; lia.
    by rewrite add0n /swapAc tsw_same if_same.
  - by rewrite /s1 /pivot; case: (eqVneq jp 0%N) => [->|] /=; [rewrite eqxx|move=> h; rewrite ifF //; lia].
  - move=> k hk; rewrite /downnorm hk; congr (nsub _ _); last first.
      have hjk : (j < k)%N by lia. by case: sc => // t; rewrite R.
    by rewrite /s1 /pivot; case: eqP => [->|] //=; rewrite tsw_same.
Qed.

Lemma SBinP fuel j1 j2 j s Z : (j2 - j < fuel)%N -> (j1 <= j <= j2)%N -> (j1 < j2 <= N)%N -> fulls' j (rep j1 j s Z) ->
  (j = j1 -> j1 < j2)%N ->
  exists2 o, SBin under eps fuel sc thr M N j1 j2 j s Z = Ok o & sbpost j1 j s o.
Proof using All.
  elim: fuel j s Z => [|f IH] j s Z hf hj hj2 F hp1; first by lia.
  case: (ltnP j j2) => hjj2; last first.
    have e : j = j2 by lia.
    rewrite /= ltnNge hjj2; exists (s, Z, j2) => //; left; split=> //; [lia|by rewrite -e|by move=> h _; lia|by move=> h; lia].
  have hjN : (j < N)%N by lia.
  rewrite SBinS //; case E : (maxel (qc s) j N) => [mx jp].
  have [h1 h2 h3] := @maxP C under eps M N A0 b0 P0 d0 true sc thr NM eps0 Hthr Hpos Hnone j (rep j1 j s Z) mx jp hjN F E.
  pose s1 := SBr mx s; cbv zeta; rewrite -/s1.
  have [eA eb eP ed ec] : [/\ qA s1 = qA s, qb s1 = qb s, qP s1 = qP s, qd s1 = qd s & qc s1 = qc s] by rewrite /s1 /SBr; case: ifP.
  have F1 : fulls' j (rep j1 j s1 Z) by rewrite /fulls /= eA eb eP ed ec.
  case: ifP => hr.
    have r0 : qr s = Some 0 -> False.
      move=> e; move: hr; rewrite /s1 /SBr e eqxx /= h2; case Es : sc => [t|] //; rewrite colnsqE /=.
      by rewrite le_gtF // ler_pimull ?four_le1 // mulr_ge0 ?cnq_ge0 ?tN0.
    case: eqP => e.
      exists (with_r (recalc sc M N j s1) (Some 0), Z, j) => //; left; split=> //; first lia.
      case: F1 => fp fn fz fo fb fP; split=> //= k hk; rewrite hk; apply: colnsq_ext; apply: cnq_ext => i hi.
      by rewrite /Tm e (big_geq (leqnn j1)) subr0 if_same.
    exists (s1, Z, j) => //; left; split=> //; lia.
  case: ifP => ht.
    case: eqP => e; last by exists (s1, Z, j) => //; left; split=> //; lia.
    exists (finish M N j s1, Z, N) => //; right; split=> //.
    case Es : sc h2 => [t|] h2; last by move: ht; rewrite h2.
    have FC := @fulls_cut C under eps M N A0 b0 P0 d0 true sc thr NM eps0 Hthr Hpos Hnone j (rep j1 j s1 Z) t Es (ltnW hjN) F1.
    apply: fullres_ext (FC _) => //= [i c|k hk].
      by case: ifP => // _; rewrite /Tm e (big_geq (leqnn j1)) subr0 if_same.
    rewrite eA; move: ht; rewrite h2 Hthr Es colnsqE /=; have [q0 t0] := Hpos Es; rewrite ltr_pmul2r // => hlt.
    by apply: le_trans (ltW hlt); apply: h3.
  have big : sc -> 0 < cnq M j (qA (rep j1 j s Z)) (jp + j).
    case Es : sc => [t|] // _; move: ht; rewrite h2 Hthr Es colnsqE /=.
    have [q0 t0] := Hpos Es; move=> /negbT; rewrite -real_leNgt; last 2 first.
    - by rewrite ger0_real // mulr_ge0 ?tN0 // ltW.
    - by rewrite ger0_real // mulr_ge0 ?cnq_ge0 ?tN0.
    by rewrite ler_pmul2r // => /(lt_le_trans q0).
  have hj3 : (j1 <= j < N)%N by lia.
  have F2 : fulls' j.+1 (rep j1 j.+1 (SBnext j1 j jp s1 Z).1 (SBnext j1 j jp s1 Z).2).
    by apply: SBstep => //=; rewrite eA.
  have [o e1 e2] := IH j.+1 (SBnext j1 j jp s1 Z).1 (SBnext j1 j jp s1 Z).2 ltac:(lia) ltac:(lia) hj2 F2 ltac:(lia).
  exists o => //; case: o e2 {e1} => [[s' Z'] j'] [[p1 p2 p3 p4]|p]; last by right.
  by left; split=> //; lia.
Qed.

Lemma SBloopS f j1 s Z : (j1 < N)%N -> SBloop nb under eps f.+1 sc thr M N j1 s Z =
  bindO (SBin under eps (minn N (j1 + nb) - j1).+1 sc thr M N j1 (minn N (j1 + nb)) j1 s Z) (fun r =>
    let: (s, Z, j2) := r in
    SBloop nb under eps f sc thr M N j2 (PS (sbtrail M N j1 j2 (qA s) Z) (qb s) (qP s) (qd s) (qc s) (qr s)) Z).
Proof using All. by move=> h; rewrite [LHS]/= h. Qed.
Lemma SBloopP fuel j1 (s : pst C) Z : ((N - j1) + (N - j1) + (qr s != Some 0%R) <= fuel)%N -> (j1 <= N)%N -> fulls' j1 s ->
  exists2 s', SBloop nb under eps fuel sc thr M N j1 s Z = Ok s' & fullres' s'.
Proof using All.
  elim: fuel j1 s Z => [|f IH] j1 s Z hf hj F.
    have e : j1 = N by lia.
    rewrite /= ltnNge e leqnn; exists s => //.
    apply: (@fulls_end C under eps M N A0 b0 P0 d0 true sc thr NM eps0 Hthr Hpos Hnone); by rewrite e in F.
  case: (ltnP j1 N) => hjN; last first.
    rewrite /= ltnNge hjN; exists s => //; apply: (@fulls_end C under eps M N A0 b0 P0 d0 true sc thr NM eps0 Hthr Hpos Hnone).
    have e : j1 = N by lia. by rewrite e in F.
  rewrite SBloopS //; set j2 := minn N (j1 + nb).
  have F1 : fulls' j1 (rep j1 j1 s Z).
    by apply: full_extA F => i c; rewrite /= /Tm (big_geq (leqnn j1)) subr0 if_same.
  have [[[s' Z'] j'] -> /= [[p1 p2 p3 p4]|[e p]]] := @SBinP (j2 - j1).+1 j1 j2 j1 s Z (ltnSn _) ltac:(lia) ltac:(lia) F1 ltac:(lia); last first.
    rewrite e; case: f {IH hf} => [|f] /=; rewrite ltnn; eexists => //; apply: fullres_ext p => //= i c;
      by rewrite /sbtrail ifF //; lia.
  apply: IH; [|lia|].
    rewrite /=; case: (eqVneq (qr s) (Some 0)) hf => [e0|ne] hf.
      by have := p3 (erefl _) e0; case: (qr s' != _); lia.
    case: (eqVneq j' j1) => [e|ne2]; first by rewrite (p4 e) eqxx e; lia.
    by case: (qr s' != _); lia.
  by apply: full_extA p2 => i c; rewrite /= /Tm /sbtrail.
Qed.
End Loop.
Section Main.
Variable C : numClosedFieldType.
Variables (nb : nat) (under : C -> bool) (eps : C) (M N : nat) (A0 : fm C).
Hypotheses (NM : (N <= M)%N) (N0 : (0 < N)%N) (nb0 : (0 < nb)%N) (eps0 : 0 < eps) (eps1 : 16%:R * eps <= 1).
Lemma StrictBlockQRP_P b P d cn0 Z0 :
  exists2 s, StrictBlockQRP nb under eps M N A0 b P d cn0 Z0 = Ok s & fullres eps M N A0 b P d true s.
Proof using NM N0 eps0 eps1 nb0.
  apply: (@SBloopP C nb under eps M N A0 b P d (qscale M N A0)) => //.
  - exact: thrE.
  - exact: scSome.
  - exact: scNone.
  - by rewrite /= eqxx addn0 subn0.
  - exact: fulls0.
Qed.
End Main.
