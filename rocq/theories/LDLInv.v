(** The inverse through the LDL decomposition: src/TMV_SymLDLInverse.cpp. *)
From Coq Require Import Ring Field.
From Verif Require Import Base FMat TriSolve RowPerm LU LUProofs LUDiv TriInv Claims_Tri RingTac Cplx LDL LDLProofs Claims_LDL LDLDiv.
From mathcomp Require Import all_ssreflect all_fingroup all_algebra zify.
Set Implicit Arguments. Unset Strict Implicit. Unset Printing Implicit Defensive.
Import GRing.Theory Num.Theory Order.Theory.
Local Open Scope ring_scope.

Section Model.
Variable C : numClosedFieldType.
Implicit Types (S X B LL : fm C) (D xD : fv C).

(** The loop over the blocks of D of LDLt_InvertComponents, TMV_SymLDLInverse.cpp:69-99. *)
Fixpoint InvD (fuel : nat) (herm : bool) (N : nat) D xD (i : nat) : outcome (fv C * fv C) :=
  if (N <= i)%N then Ok (D, xD) else
  match fuel with
  | 0 => UB
  | f.+1 =>
    if (i == N.-1) || (xD i == 0) then InvD f herm N (updv D i (1 / hre herm (D i))) xD i.+1
    else
      do Y <- sym2 herm (D i) (D i.+1) (xD i);
      let '(x, y, z, _) := Y in
      InvD f herm N (updv (updv D i x) i.+1 y) (updv xD i z) i.+2
  end.

(** Where a block structure is split: N/2, or one later if that divides a 2x2 block
    (161-162 and 246-247). *)
Definition half2 (N : nat) xD : nat := if xD (N %/ 2).-1 != 0 then (N %/ 2).+1 else (N %/ 2)%N.

(** LDLt_AddXtDX, 126-187: the n x n lower triangle B += X^T D X (X^dagger D X), X with N
    rows.  [bs]: SYM_LDL_BLOCKSIZE2.  The rank-1 update and SymMultMM are the mathematical
    ones, on the lower triangle. *)
Fixpoint AddXtDX (fuel bs : nat) (herm : bool) (n N : nat) X D xD B : outcome (fm C) :=
  match fuel with
  | 0 => UB
  | f.+1 =>
    if N == 1%N then
      Ok (fun i j => if (i < n)%N && (j <= i)%N then B i j + D 0%N * (cs herm (X 0%N i) * X 0%N j) else B i j)
    else if ((N == 2%N) && (xD 0%N != 0)) || (N <= bs)%N then
      do DX <- PD_LMultEq N.+1 herm false N n D xD 0 X;
      Ok (fun i j => if (i < n)%N && (j <= i)%N then B i j + \sum_(0 <= k < N) cs herm (X k i) * DX k j else B i j)
    else
      let p := half2 N xD in
      do B <- AddXtDX f bs herm n p X D xD B;
      AddXtDX f bs herm n (N - p) (subm p 0 X) (subv p D) (subv p xD) B
  end.

(** LDLt_CombineInverse, 189-296, on the leading N x N lower triangle of S. *)
Fixpoint CombineInverse (fuel bs : nat) (herm : bool) (N : nat) S xD : outcome (fm C) :=
  match fuel with
  | 0 => UB
  | f.+1 =>
    if (N <= 1)%N then Ok S
    else if N == 2%N then
      if xD 0%N != 0 then Ok (updm S 1 0 (xD 0%N))
      else if herm then
        let D11 := 'Re (S 1%N 1%N) in
        let X10 := S 1%N 0%N in
        let temp := D11 * X10 in
        let S := updm S 1 0 temp in
        Ok (updm S 0 0 (S 0%N 0%N + 'Re (X10^* * temp)))
      else
        let D11 := S 1%N 1%N in
        let X10 := S 1%N 0%N in
        let temp := D11 * X10 in
        let S := updm S 1 0 temp in
        Ok (updm S 0 0 (S 0%N 0%N + X10 * temp))
    else
      let p := half2 N xD in
      do S <- CombineInverse f bs herm p S xD;
      let D : fv C := fun i => S (p + i)%N (p + i)%N in
      do S <- AddXtDX N bs herm p (N - p) (subm p 0 S) D (subv p xD) S;
      do X <- PD_LMultEq N.+1 herm false (N - p) p D (subv p xD) 0 (subm p 0 S);
      let X11 := subm p p S in
      let S := putm p 0 (N - p) p S (fun i j => \sum_(0 <= k < N - p) cs herm (lower true X11 k i) * X k j) in
      do T <- CombineInverse f bs herm (N - p) (subm p p S) (subv p xD);
      Ok (putm p p (N - p) (N - p) S T)
  end.

(** reversePermuteRowsCols, TMV_SymMatrix.cpp:512-523; swapRowsCols with equal arguments does
    nothing. *)
Definition revpermsym (herm : bool) (N : nat) (P : nat -> nat) S : fm C :=
  foldl (fun S k => if P k == k then S else symswap herm N k (P k) S) S (rev (iota 0 N)).

(** LDL_Inverse, 298-372.  The array LL of LLx is a lower triangle, conjugated if [cjL];
    [raw] is the array of sinv, [su] and [sc] whether it is an upper triangle and conjugated.
    For storage neither row nor column major the result goes through a temporary of the same
    kind. *)
Variables (tb bs : nat).
Definition LDL_InverseLow (herm cjL : bool) (N : nat) LL xD P raw : outcome (fm C) :=
  let S : fm C := fun i j => if (i < N)%N && (j <= i)%N then vw cjL LL i j else raw i j in
  do S <- TriInverseL tb true N S;
  do DD <- InvD N.+1 herm N (fun i => S i i) xD 0;
  let S : fm C := fun i j => if (i == j) && (i < N)%N then DD.1 i else S i j in
  do S <- CombineInverse N.+1 bs herm N S DD.2;
  Ok (revpermsym herm N P S).
Definition LDL_Inverse (herm cjL : bool) (N : nat) LL xD P (su sc : bool) raw : outcome (fm C) :=
  let flip := sc (+) (su && herm) in
  let xD : fv C := if flip then fun i => (xD i)^* else xD in
  do R <- LDL_InverseLow herm (cjL (+) flip) N LL xD P (if su then trm raw else raw);
  Ok (if su then trm R else R).

(** SymLDLDiv::doMakeInverse(MatrixView), TMV_SymLDLD.cpp:129-146, on the elements m shows: the
    lower triangle is the inverse and the upper one is copied from it. *)
Definition LDL_InverseM (herm cjL : bool) (N : nat) LL xD P (mc : bool) (m : fm C) : outcome (fm C) :=
  do R <- LDL_Inverse herm cjL N LL xD P false mc (vw mc m);
  let R := vw mc R in
  Ok (fun i j => if (i < j < N)%N then cs herm (R j i) else R i j).
End Model.
Arguments PD_LMultEq : simpl never.
Arguments AddXtDX : simpl never.

Section Proofs.
Variable C : numClosedFieldType.
Add Field Cf3 : (mc_ft C).
Ltac mfield := mcnorm C; field.
Ltac mring := mcnorm C; ring.
Implicit Types (S X B LL m : fm C) (D xD : fv C).
Variable herm : bool.
Notation cs := (@cs C herm).
Notation hre := (@hre C herm).

(** Blocks are 1x1 or 2x2. *)
Definition pdsh N D xD : Prop :=
  (forall i, (i < N)%N -> cs (D i) = D i) /\
  (forall k, (k.+1 < N)%N -> xD k != 0 -> (k.+2 < N)%N -> xD k.+1 = 0).

(** Multiplication by the block diagonal matrix. *)
Lemma PD_LMultEqP mc fuel N K D xD i m : pdsh N D xD -> (N <= fuel + i)%N -> start N xD i ->
  exists X, [/\ PD_LMultEq fuel herm mc N K D xD i m = Ok X,
     forall r k, (i <= r < N)%N -> (k < K)%N -> vw mc X r k = pdrow herm N D xD (fun l => vw mc m l k) r
   & forall r k, ~~ ((i <= r < N)%N && (k < K)%N) -> X r k = m r k].
Proof.
  move=> [Hd Hb]; elim: fuel i m => [|f IH] i m Hf Hs; rewrite /PD_LMultEq -/(@PD_LMultEq C).
    by rewrite ifT; last lia; exists m; split=> // r k; lia.
  case: (leqP N i) => HiN; first by exists m; split=> // r k; lia.
  case: ifP => hc.
  - have hs1 : start N xD i.+1.
      move=> q [->] Hq; move: hc; have -> : (i == N.-1) = false by lia. by move/eqP.
    rewrite (hre_id (Hd i HiN)); set d := D i.
    set m1 : fm C := fun r k => if _ then _ else _.
    have [X [-> h1 h2]] := IH i.+1 m1 ltac:(lia) hs1.
    exists X; split=> //.
    + move=> r k Hr Hk; have [->|Hri] := eqVneq r i.
        have -> : vw mc X i k = vw mc m1 i k by rewrite /vw h2 //; lia.
        rewrite /pdrow.
        have -> : (if (i.+1 < N)%N then cs (xD i) * vw mc m i.+1 k else 0) = 0.
          by case: ifP => // Hi1; rewrite (hs1 i) // cs0 mul0r.
        have -> : (if i is q.+1 then xD q * vw mc m q k else 0) = 0.
          by case E : i => [//|q]; rewrite (Hs q) ?E ?mul0r // -E.
        rewrite add0r addr0 /vw /m1 eqxx Hk /= mulrC.
        by case: (mc); rewrite // rmorphM conjCK mulrC.
      rewrite h1 //; last by lia.
      rewrite /pdrow; congr (_ + _ + _).
      * case: r Hr Hri => // q Hr Hri; have [Eq|Hq] := eqVneq q i; last by rewrite /vw /m1 (negPf Hq).
        by subst q; rewrite (hs1 i) ?mul0r //; lia.
      * by rewrite /vw /m1 (negPf Hri).
      * by case: ifP => // _; rewrite /vw /m1; have -> : (r.+1 == i) = false by lia.
    + move=> r k Hrk; rewrite h2; last by lia. by rewrite /m1 ifN //; lia.
  - have [hc1 hx] : i != N.-1 /\ xD i != 0 by case/norP: (negbT hc).
    have Hi1 : (i.+1 < N)%N by lia.
    have hs2 : start N xD i.+2 by move=> q [->] Hq; apply: Hb.
    set m1 := SymLMultEq2 _ _ _ _ _ _ _ _.
    have m1E r k : vw mc m1 r k = LMultEq2 (D i) (D i.+1) (xD i) (cs (xD i)) i K (vw mc m) r k.
      by apply: SymLMultEq2P; apply: Hd.
    have [X [-> h1 h2]] := IH i.+2 m1 ltac:(lia) hs2.
    exists X; split=> //.
    + move=> r k Hr Hk; have [->|Hri] := eqVneq r i.
        have -> : vw mc X i k = vw mc m1 i k by rewrite /vw h2 //; lia.
        rewrite m1E /LMultEq2 Hk eqxx /pdrow Hi1.
        have -> : (if i is q.+1 then xD q * vw mc m q k else 0) = 0.
          by case E : i => [//|q]; rewrite (Hs q) ?E ?mul0r // -E.
        by rewrite add0r.
      have [->|Hri1] := eqVneq r i.+1.
        have -> : vw mc X i.+1 k = vw mc m1 i.+1 k by rewrite /vw h2 //; lia.
        rewrite m1E /LMultEq2 Hk eqxx /pdrow; have -> : (i.+1 == i) = false by lia.
        have -> : (if (i.+2 < N)%N then cs (xD i.+1) * vw mc m i.+2 k else 0) = 0.
          by case: ifP => // h; rewrite (hs2 i.+1) // cs0 mul0r.
        by rewrite addr0 addrC.
      rewrite h1 //; last by lia.
      have m1o l : l != i -> l != i.+1 -> vw mc m1 l k = vw mc m l k.
        by move=> e1 e2; rewrite m1E /LMultEq2 Hk (negPf e1) (negPf e2).
      rewrite /pdrow; congr (_ + _ + _).
      * case: r Hr Hri Hri1 => // q Hr Hri Hri1; have [Eq|Hq] := eqVneq q i.+1.
          by subst q; rewrite (hs2 i.+1) ?mul0r //; lia.
        by rewrite m1o //; lia.
      * by rewrite m1o.
      * by case: ifP => // _; rewrite m1o //; lia.
    + move=> r k Hrk; rewrite h2; last by lia.
      have := m1E r k; rewrite /LMultEq2; move: (m1) => m2.
      have -> : (if (k < K)%N then if r == i then D i * vw mc m i k + cs (xD i) * vw mc m i.+1 k
         else if r == i.+1 then D i.+1 * vw mc m i.+1 k + xD i * vw mc m i k else vw mc m r k else vw mc m r k) = vw mc m r k.
        by case: ifP => // Hk; case: eqP => [E|_]; [lia|]; case: eqP => [E|_] //; lia.
      by rewrite /vw; case: (mc) => // /(can_inj (@conjCK _)).
Qed.

(** (X^T D X)_ij or (X^dagger D X)_ij for N rows. *)
Definition xtdx N X D xD (i j : nat) : C :=
  \sum_(0 <= k < N) cs (X k i) * pdrow herm N D xD (fun l => X l j) k.

(** It splits where a block ends. *)
Lemma xtdx_split p N X D xD i j : (p <= N)%N -> start N xD p ->
  xtdx N X D xD i j = xtdx p X D xD i j + xtdx (N - p) (subm p 0 X) (subv p D) (subv p xD) i j.
Proof.
  move=> Hp Hs; rewrite /xtdx (@big_cat_nat _ _ _ p) //=; congr (_ + _).
  - apply: eq_big_nat => k Hk; congr (_ * _); rewrite /pdrow; congr (_ + _).
    case: (ltnP k.+1 p) => h; first by rewrite ifT //; lia.
    case: ifP => // h2; rewrite (Hs k) ?cs0 ?mul0r //; lia.
  - rewrite -{1}[p]add0n big_addn; apply: eq_big_nat => k Hk; rewrite /subm /subv add0n [(k + p)%N]addnC.
    congr (_ * _); rewrite /pdrow addnS; congr (_ + _ + _).
    + case: k Hk => [|k] Hk; last by rewrite addnS.
      rewrite addn0; case: (p) Hk Hs Hp => // q Hk Hs Hq; rewrite (Hs q) ?mul0r //; lia.
    + by have -> : ((p + k).+1 < N)%N = (k.+1 < N - p)%N by lia.
Qed.

Lemma half2P N D xD : (1 < N)%N -> (N = 2%N -> xD 0%N = 0) -> pdsh N D xD ->
  [/\ (0 < half2 N xD)%N, (half2 N xD < N)%N & start N xD (half2 N xD)].
Proof.
  move=> HN H2 [_ Hb]; rewrite /half2.
  have [E2|HN2] := eqVneq N 2%N.
    have x0 := H2 E2; rewrite E2 (_ : (2 %/ 2)%N = 1%N) // x0 eqxx; split=> // q [->] _; exact: x0.
  have [h1 h2] : (0 < N %/ 2)%N /\ ((N %/ 2).*2 <= N)%N by rewrite divn2; split; lia.
  case: ifP => hx; split; try lia.
  - move=> q [->] Hq; have e : (N %/ 2).-1.+1 = (N %/ 2)%N by lia.
    rewrite -e; apply: Hb => //; lia.
  - by move=> q Eq _; move/eqP: hx; rewrite -Eq.
Qed.

Lemma pdsh_sub N D xD p n : pdsh N D xD -> (p + n <= N)%N -> pdsh n (subv p D) (subv p xD).
Proof.
  move=> [h1 h2] Hn; split; rewrite /subv => k Hk; first by apply: h1; lia.
  by rewrite !addnS => hx Hk2; apply: h2 => //; lia.
Qed.
Lemma pdsh_pre N D xD n : pdsh N D xD -> (n <= N)%N -> pdsh n D xD.
Proof. by move=> H Hn; exact: (@pdsh_sub N D xD 0 n H). Qed.

Lemma AddXtDXP bs fuel n N X D xD B : (0 < bs)%N -> (0 < N)%N -> (N <= fuel)%N -> pdsh N D xD ->
  exists R, AddXtDX fuel bs herm n N X D xD B = Ok R /\
    forall i j, R i j = if (i < n)%N && (j <= i)%N then B i j + xtdx N X D xD i j else B i j.
Proof.
  move=> Hbs; elim: fuel N X D xD B => [|f IH] N X D xD B HN0 Hf Hok; first by lia.
  rewrite /AddXtDX -/(@AddXtDX C); case: eqP => [E|HN1].
    eexists; split; first by []. move=> i j /=; case: ifP => // _; congr (_ + _).
    by rewrite E /xtdx big_nat1 /pdrow /= add0r addr0; mring.
  case: ifP => hc.
    have [X2 [-> h1 h2]] := @PD_LMultEqP false N.+1 N n D xD 0 X Hok ltac:(lia) ltac:(by []).
    eexists; split; first by []. move=> i j /=; case: ifP => // hij; congr (_ + _).
    apply: eq_big_nat => k Hk; congr (_ * _); apply: h1; lia.
  have [p0 pN hs] : [/\ (0 < half2 N xD)%N, (half2 N xD < N)%N & start N xD (half2 N xD)].
    apply: (half2P _ _ Hok) => [|E]; first by lia.
    by move: hc; rewrite E /= => /negbT /norP [/negPn/eqP].
  move: (half2 N xD) p0 pN hs => p p0 pN hs.
  have [B1 [-> e1]] := IH p X D xD B p0 ltac:(lia) (pdsh_pre Hok (ltnW pN)); rewrite /bindO.
  have [B2 [-> e2]] := IH (N - p)%N (subm p 0 X) (subv p D) (subv p xD) B1 ltac:(lia) ltac:(lia) (@pdsh_sub N D xD p (N - p) Hok ltac:(lia)).
  exists B2; split=> // i j; rewrite e2 !e1; case: (_ && _) => //.
  by rewrite -addrA -xtdx_split // ltnW.
Qed.

Lemma pdrow_ext N D xD v D' xD' v' r : (r < N)%N ->
  (forall k, (k < N)%N -> D k = D' k) -> (forall k, (k.+1 < N)%N -> xD k = xD' k) -> (forall k, (k < N)%N -> v k = v' k) ->
  pdrow herm N D xD v r = pdrow herm N D' xD' v' r.
Proof.
  move=> Hr h1 h2 h3; rewrite /pdrow h1 // h3 //; congr (_ + _ + _).
  - case: r Hr => // q Hq; rewrite h2 // h3 //; lia.
  - by case: ifP => // h; rewrite h2 // h3.
Qed.
Lemma xtdx_ext N X D xD X' D' xD' i j i' j' :
  (forall k, (k < N)%N -> D k = D' k) -> (forall k, (k.+1 < N)%N -> xD k = xD' k) ->
  (forall k, (k < N)%N -> X k i = X' k i') -> (forall k, (k < N)%N -> X k j = X' k j') ->
  xtdx N X D xD i j = xtdx N X' D' xD' i' j'.
Proof.
  move=> h1 h2 h3 h4; apply: eq_big_nat => k Hk; rewrite h3; last by lia.
  by congr (_ * _); apply: pdrow_ext => //; lia.
Qed.
Lemma pdrow0 N D xD v r : (forall k, (k < N)%N -> v k = 0) -> (r < N)%N -> pdrow herm N D xD v r = 0.
Proof.
  move=> h Hr; rewrite /pdrow h // mulr0.
  have -> : (if (r.+1 < N)%N then cs (xD r) * v r.+1 else 0) = 0 by case: ifP => // h1; rewrite h // mulr0.
  rewrite !addr0; case: r Hr => // q Hq; rewrite h ?mulr0 //; lia.
Qed.
Lemma xtdx0 N X D xD i j : (forall k, (k < N)%N -> X k i = 0) -> xtdx N X D xD i j = 0.
Proof. by move=> h; rewrite /xtdx big_nat big1 // => k Hk; rewrite h ?cs0 ?mul0r //; lia. Qed.

Definition dg S : fv C := fun i => S i i.
Lemma low_up S i j : (i < j)%N -> lower true S i j = 0.
Proof. by move=> h; rewrite /lower; case: (ltngtP i j) h. Qed.
Lemma low_lo S i j : (j < i)%N -> lower true S i j = S i j.
Proof. by move=> h; rewrite /lower; case: (ltngtP i j) h. Qed.
Lemma low_sub p S (T : fm C) k i : (p <= i)%N -> (forall k l, T k l = S (p + k)%N (p + l)%N) ->
  lower true T k (i - p)%N = lower true S (p + k)%N i.
Proof.
  move=> Hi h; rewrite /lower h subnKC //.
  have -> : (k == i - p)%N = (p + k == i)%N by lia.
  by have -> : (i - p < k)%N = (i < p + k)%N by lia.
Qed.

Lemma CombineInverseP bs fuel N S xD : (0 < bs)%N -> (N < fuel)%N -> pdsh N (dg S) xD ->
  (forall k, (k.+1 < N)%N -> xD k != 0 -> S k.+1 k = 0) ->
  exists R, CombineInverse fuel bs herm N S xD = Ok R /\
    forall i j, R i j = if (i < N)%N && (j <= i)%N then xtdx N (lower true S) (dg S) xD i j else S i j.
Proof.
  move=> Hbs; elim: fuel N S xD => [|f IH] N S xD Hf Hok HL //=.
  have [Hd Hb] := Hok.
  case: ifP => HN1.
    exists S; split=> // i j; case: ifP => // hij.
    have [E1 [-> ->]] : N = 1%N /\ i = 0%N /\ j = 0%N by lia.
    by rewrite E1 /xtdx big_nat1 /pdrow /lower /= cs1 mul1r mulr1 add0r addr0.
  case: eqP => [E2|HN2].
    subst N; have two i j : (i < 2)%N && (j <= i)%N -> (i = 0 /\ j = 0 \/ i = 1 /\ j = 0 \/ i = 1 /\ j = 1)%N by lia.
    have D0 := Hd 0%N isT; have D1 := Hd 1%N isT.
    case: ifP => hx.
      exists (updm S 1 0 (xD 0%N)); split=> // i j; case: ifP => hij; last first.
        by rewrite /updm ifN //; move: hij; case: eqP => // ->; case: eqP => // ->.
      have L0 := HL 0%N isT hx.
      rewrite /xtdx !big_nat_recl // big_geq // /pdrow /lower /updm /dg.
      case: (two i j hij) => [[-> ->]|[[-> ->]|[-> ->]]] /=;
        by rewrite ?L0 ?cs0 ?cs1 ?(mul0r, mulr0, mul1r, mulr1, add0r, addr0).
    move/negbT/negPn/eqP: hx => hx.
    have r0 : 'Re (dg S 1%N) = hre (dg S 1%N) -> True by [].
    have hc : (if herm then Ok (let temp := 'Re (S 1%N 1%N) * S 1%N 0%N in let S1 := updm S 1 0 temp in
                 updm S1 0 0 (S1 0%N 0%N + 'Re ((S 1%N 0%N)^* * temp)))
               else Ok (let temp := S 1%N 1%N * S 1%N 0%N in let S1 := updm S 1 0 temp in
                 updm S1 0 0 (S1 0%N 0%N + S 1%N 0%N * temp))) =
              Ok (let temp := S 1%N 1%N * S 1%N 0%N in let S1 := updm S 1 0 temp in
                 updm S1 0 0 (S1 0%N 0%N + cs (S 1%N 0%N) * temp)).
      move: D1; rewrite /LDL.cs /dg; case: (herm) => // D1.
      have rS : S 1%N 1%N \is Num.real by apply/CrealP.
      rewrite (Creal_ReP _ _) //; congr (Ok (updm _ _ _ (_ + _))).
      apply/Creal_ReP; rewrite mulrCA mulrC [_^* * _]mulrC -normCK; apply: rpredM => //.
      by apply: rpredX; exact: normr_real.
    eexists; split; first exact: hc. move=> i j /=; case: ifP => hij; last first.
      by rewrite /updm ifN; [rewrite ifN //|]; move: hij; case: eqP => // ->; case: eqP => // ->.
    rewrite /xtdx !big_nat_recl // big_geq // /pdrow /lower /updm /dg hx.
    case: (two i j hij) => [[-> ->]|[[-> ->]|[-> ->]]] /=; rewrite ?cs0 ?cs1 ?(mul0r, mulr0, mul1r, mulr1, add0r, addr0) //.
  have [p0 pN hs] : [/\ (0 < half2 N xD)%N, (half2 N xD < N)%N & start N xD (half2 N xD)].
    by apply: (half2P _ _ Hok) => [|E]; lia.
  move: (half2 N xD) p0 pN hs => p p0 pN hs.
  have [S1 [-> e1]] := IH p S xD ltac:(lia) (pdsh_pre Hok (ltnW pN)) ltac:(move=> k Hk; apply: HL; lia).
  rewrite /bindO -/(@AddXtDX C).
  set D : fv C := fun i => S1 (p + i)%N (p + i)%N.
  have S1o i j : (p <= i)%N -> S1 i j = S i j by move=> Hi; rewrite e1 ifN //; lia.
  have DE k : D k = subv p (dg S) k by rewrite /D S1o //; lia.
  have Dok : pdsh (N - p) D (subv p xD).
    by have [h1 h2] := @pdsh_sub N (dg S) xD p (N - p) Hok ltac:(lia); split=> // k Hk; rewrite DE h1.
  have [S2 [-> e2]] := @AddXtDXP bs N p (N - p) (subm p 0 S1) D (subv p xD) S1 Hbs ltac:(lia) ltac:(lia) Dok.
  have S2o i j : (p <= i)%N -> S2 i j = S i j by move=> Hi; rewrite e2 ifN ?S1o //; lia.
  have [X [-> h1 h2]] := @PD_LMultEqP false N.+1 (N - p) p D (subv p xD) 0 (subm p 0 S2) Dok ltac:(lia) ltac:(by []).
  set S3 := putm p 0 (N - p) p S2 _.
  have S33 i j : (p <= i)%N -> (p <= j)%N -> S3 i j = S i j.
    by move=> Hi Hj; rewrite /S3 /putm ifN ?S2o //; lia.
  have [T [-> e3]] := IH (N - p)%N (subm p p S3) (subv p xD) ltac:(lia)
     ltac:(have [g1 g2] := Dok; split=> // k Hk; rewrite -[RHS]/(S3 _ _) /dg /subm S33; [rewrite -(S1o (p + k)%N (p + k)%N); [exact: g1 | lia] | lia | lia])
     ltac:(move=> k Hk hx; rewrite /subm S33 ?addnS; [apply: HL => // | lia | lia]; lia).
  eexists; split; first by []. move=> i j.
  have xs : xtdx N (lower true S) (dg S) xD i j =
     xtdx p (lower true S) (dg S) xD i j + xtdx (N - p) (subm p 0 (lower true S)) (subv p (dg S)) (subv p xD) i j.
    by apply: xtdx_split => //; lia.
  rewrite {1}/putm; case: (boolP (_ && _)) => hT.
    rewrite e3; have -> : ((i - p < N - p) && (j - p <= i - p))%N = ((i < N) && (j <= i))%N by lia.
    case: ifP => hij; last by rewrite /subm S33 ?subnKC //; lia.
    rewrite xs (@xtdx0 p); last by move=> k Hk; apply: low_up; lia.
    rewrite add0r; apply: xtdx_ext => // k Hk.
    - by rewrite /dg /subm S33 //; lia.
    - by apply: low_sub => [|a b]; [lia | rewrite /subm S33 //; lia].
    - by apply: low_sub => [|a b]; [lia | rewrite /subm S33 //; lia].
  have xl k l : (l < p)%N -> lower true S (p + k)%N l = S (p + k)%N l by move=> Hl; apply: low_lo; lia.
  rewrite /S3 /putm; case: (boolP (_ && _)) => hX.
    rewrite ifT; last by lia.
    rewrite xs (@xtdx0 p); last by move=> k Hk; apply: low_up; lia.
    rewrite add0r /xtdx; apply: eq_big_nat => k Hk; rewrite -[X k _]/(vw false X k _) h1; [|lia|lia].
    congr (cs _ * _).
    - by apply: low_sub => [|a b]; [lia | rewrite /subm S2o //; lia].
    - apply: pdrow_ext; [lia | by move=> l _; exact: DE | by [] | move=> l Hl].
      by rewrite /vw /subm !add0n subn0 S2o ?xl //; lia.
  rewrite e2 e1; case: (ltnP i p) => Hip /=; last by rewrite ifN //; lia.
  rewrite (ltn_trans Hip pN) /=; case: (leqP j i) => Hji //; rewrite xs; congr (_ + _).
  apply: xtdx_ext => // k Hk; rewrite ?DE // /subm !add0n S1o ?xl //; lia.
Qed.

(** Division reads the blocks from row i on only. *)
Lemma PD_LDivEq_ext fuel N K D xD D' xD' i m :
  (forall r, (i <= r)%N -> D r = D' r) -> (forall r, (i <= r)%N -> xD r = xD' r) ->
  PD_LDivEq fuel herm false N K D xD i m = PD_LDivEq fuel herm false N K D' xD' i m.
Proof.
  elim: fuel i m => [|f IH] i m h1 h2 /=; first by [].
  rewrite !h1 // !h2 //; case: ifP => // _; case: ifP => // _.
    by apply: IH => r Hr; [apply: h1 | apply: h2]; lia.
  case: (sym2 _ _ _ _) => [[[[x y] z] d]|e|] //=.
  by apply: IH => r Hr; [apply: h1 | apply: h2]; lia.
Qed.

(** The inverted blocks: multiplying by them is dividing by the blocks. *)
Lemma InvDP fuel N D xD i : pdok herm N D xD -> (N <= fuel + i)%N -> start N xD i ->
  exists D' xD', [/\ InvD fuel herm N D xD i = Ok (D', xD'),
    forall r, ~~ (i <= r < N)%N -> D' r = D r,
    forall r, ~~ ((i <= r)%N && (r.+1 < N)%N) -> xD' r = xD r,
    (forall r, (i <= r < N)%N -> cs (D' r) = D' r) /\ (forall r, (xD' r == 0) = (xD r == 0))
  & forall K m, PD_LDivEq fuel herm false N K D xD i m = PD_LMultEq fuel herm false N K D' xD' i m].
Proof.
  elim: fuel i D xD => [|f IH] i D xD Hok Hf Hs; rewrite /PD_LMultEq -/(@PD_LMultEq C) /=.
    by rewrite ifT; last lia; exists D, xD; split=> //; split=> // r; lia.
  case: (leqP N i) => HiN; first by exists D, xD; split=> //; split=> // r; lia.
  have [Hd Hb1 Hb2] := Hok.
  case: ifP => hc.
  - have hs1 := start1 Hok Hs HiN hc.
    set d := 1 / hre (D i).
    have hd : cs d = d by rewrite /d csM cs1 csV hre_id ?Hd.
    have Hok1 : pdok herm N (updv D i d) xD.
      split=> // [r Hr|k Hk hx]; first by rewrite /updv; case: eqP => // _; exact: Hd.
      rewrite /updv; have -> : (k == i) = false.
        apply/eqP => E; move: hc; rewrite -E (negPf hx) orbF => /eqP; lia.
      have -> : (k.+1 == i) = false.
        by apply/eqP => E; move/eqP: hx; apply; apply: Hs => //; lia.
      exact: Hb2.
    have [D' [xD' [-> h1 h2 [h3 h4] h5]]] := IH i.+1 _ _ Hok1 ltac:(lia) hs1.
    exists D', xD'; split=> //.
    + by move=> r Hr; rewrite h1 /updv; [case: eqP => // E; lia | lia].
    + by move=> r Hr; rewrite h2 //; lia.
    + split=> // r Hr; have [->|Hri] := eqVneq r i; last by apply: h3; lia.
      by rewrite h1 ?/updv ?eqxx //; lia.
    + have D'i : D' i = d by rewrite h1 /updv ?eqxx //; lia.
      move=> K m; rewrite h4 hc D'i (hre_id hd) -h5.
      rewrite (@PD_LDivEq_ext f N K D xD (updv D i d) xD) //; last by move=> r Hr; rewrite /updv ifN //; lia.
      by rewrite /d div1r.
  - have [Hi1 hs2] := start2 Hok HiN hc.
    have [hc1 hx] : i != N.-1 /\ xD i != 0 by case/norP: (negbT hc).
    have hdd := Hb2 i Hi1 hx.
    rewrite (sym2P (Hd i HiN) (Hd i.+1 Hi1) hdd) /bindO.
    set dd := D i * D i.+1 - _ in hdd *.
    have hD : cs dd = dd by rewrite /dd csB !csM csK !Hd // [LDL.cs _ _ * xD _]mulrC.
    set x := D i.+1 / dd; set y := D i / dd; set z := - xD i / dd.
    have hx' : cs x = x by rewrite /x csM csV hD Hd.
    have hy' : cs y = y by rewrite /y csM csV hD Hd.
    have hz : (z == 0) = (xD i == 0) by rewrite /z mulf_eq0 oppr_eq0 invr_eq0 (negPf hdd) orbF.
    set D1 := updv (updv D i x) i.+1 y; set xD1 := updv xD i z.
    have xD1z r : (xD1 r == 0) = (xD r == 0) by rewrite /xD1 /updv; case: (eqVneq r i) => [->|].
    have D1o r : r != i -> r != i.+1 -> D1 r = D r by move=> e1 e2; rewrite /D1 /updv (negPf e1) (negPf e2).
    have xD1o r : r != i -> xD1 r = xD r by move=> e1; rewrite /xD1 /updv (negPf e1).
    have D1i : D1 i = x by rewrite /D1 /updv eqxx; have -> : (i == i.+1) = false by lia.
    have D1i1 : D1 i.+1 = y by rewrite /D1 /updv eqxx.
    have Hs1 : start N xD1 i.+2 by move=> q E Hq; apply/eqP; rewrite xD1z (hs2 q).
    have Hok1 : pdok herm N D1 xD1.
      split.
      - move=> r Hr; have [->|e1] := eqVneq r i; first by rewrite D1i.
        have [->|e2] := eqVneq r i.+1; first by rewrite D1i1.
        by rewrite D1o // Hd.
      - by move=> k Hk; rewrite xD1z => hk Hk2; apply/eqP; rewrite xD1z (Hb1 k).
      - move=> k Hk; rewrite xD1z => hk.
        have [E|e1] := eqVneq k i.
          subst k; rewrite D1i D1i1 /xD1 /updv eqxx.
          have -> : x * y - z * cs z = dd^-1.
            rewrite /z csM csN csV hD /x /y.
            transitivity ((D i * D i.+1 - xD i * cs (xD i)) / dd / dd); first by mring.
            by rewrite -/dd divff // mul1r.
          by rewrite invr_eq0.
        have e3 : k != i.+1.
          by apply/eqP => E; subst k; move/eqP: hk; apply; apply: hs2.
        have e2 : k.+1 != i by apply/eqP => E; move/eqP: hk; apply; apply: Hs => //; lia.
        by rewrite xD1o // !D1o ?Hb2 //; lia.
    have [D' [xD' [-> h1 h2 [h3 h4] h5]]] := IH i.+2 _ _ Hok1 ltac:(lia) Hs1.
    have D'i : D' i = x by rewrite h1 ?D1i //; lia.
    have D'i1 : D' i.+1 = y by rewrite h1 ?D1i1 //; lia.
    exists D', xD'; split=> //.
    + by move=> r Hr; rewrite h1 ?D1o //; lia.
    + by move=> r Hr; rewrite h2 ?xD1o //; lia.
    + split=> [r Hr|r]; last by rewrite h4 xD1z.
      have [->|e1] := eqVneq r i; first by rewrite D'i.
      have [->|e2] := eqVneq r i.+1; first by rewrite D'i1.
      by apply: h3; lia.
    + move=> K m; rewrite h4 xD1z hc D'i D'i1 -h5.
      have -> : xD' i = z by rewrite h2 /xD1 /updv ?eqxx //; lia.
      apply: PD_LDivEq_ext => r Hr; first by rewrite D1o //; lia.
      by rewrite xD1o //; lia.
Qed.

Lemma InvD_inv N D xD : pdok herm N D xD -> \det (mx N N (pd herm D xD)) != 0 ->
  exists D' xD', [/\ InvD N.+1 herm N D xD 0 = Ok (D', xD'), pdsh N D' xD',
    forall k, (xD' k == 0) = (xD k == 0) & mx N N (pd herm D xD) *m mx N N (pd herm D' xD') = 1%:M].
Proof.
  move=> Hok Hdet.
  have [D' [xD' [E h1 h2 [h3 h4] h5]]] := @InvDP N.+1 N D xD 0 Hok ltac:(lia) ltac:(by []).
  have [_ Hb _] := Hok.
  have Hsh : pdsh N D' xD'.
    split=> // k Hk; rewrite h4 => hk Hk2; apply/eqP; rewrite h4 (Hb k) //.
  exists D', xD'; split=> //.
  pose Id : fm C := fun i j => (i == j)%:R.
  have [X [EX X1 _]] := @PD_LDivEqP C herm false N.+1 N N D xD 0 Id Hok
     (fun i Hi hc hs => pd1_ne Hdet Hi hc hs) ltac:(lia) ltac:(by []).
  have [Y [EY Y1 _]] := @PD_LMultEqP false N.+1 N N D' xD' 0 Id Hsh ltac:(lia) ltac:(by []).
  have XY : X = Y by move: EX; rewrite h5 EY => [[]].
  apply/matrixP => i j; rewrite !mxE -val_eqE.
  have := X1 i j ltac:(by rewrite ltn_ord) (ltn_ord j); rewrite /vw => e; rewrite -[RHS]/(Id i j) -e big_mkord.
  apply: eq_bigr => k _; rewrite !mxE XY; congr (_ * _).
  have := Y1 k j ltac:(by rewrite ltn_ord) (ltn_ord j); rewrite /vw => ->.
  rewrite -pdrowE // big_mkord (bigD1 j) //= /Id eqxx mulr1 big1 ?addr0 // => l Hl.
  by have -> : ((l : nat) == j) = false; [apply: negbTE | rewrite mulr0].
Qed.

(** The exchanges in reverse order. *)
Lemma revpermsymP N P S : (forall k, (k < N)%N -> (k <= P k < N)%N) ->
  (forall i j, (i < N)%N -> (j < N)%N ->
    symlow herm (revpermsym herm N P S) (psig P 0 N i) (psig P 0 N j) = symlow herm S i j) /\
  (forall i j, ~~ ((i < N)%N && (j <= i)%N) -> revpermsym herm N P S i j = S i j).
Proof.
  move=> hP; rewrite /revpermsym.
  have : forall n, (n <= N)%N -> forall S,
    let R := foldl (fun S k => if P k == k then S else symswap herm N k (P k) S) S (rev (iota 0 n)) in
    (forall i j, (i < N)%N -> (j < N)%N -> symlow herm R (psig P 0 n i) (psig P 0 n j) = symlow herm S i j) /\
    (forall i j, ~~ ((i < N)%N && (j <= i)%N) -> R i j = S i j).
    elim=> [|n IH] Hn S0; first by [].
    rewrite (_ : rev (iota 0 n.+1) = n :: rev (iota 0 n)); last by rewrite -addn1 iotaD rev_cat.
    rewrite [foldl _ _ _]/=.
    set S1 := if _ then _ else _.
    have [h1 h2] := IH ltac:(lia) S1.
    have Hp := hP n ltac:(lia).
    split=> i j Hi.
      move=> Hj; rewrite !psigS add0n h1; [|by apply: tsw_lt; lia|by apply: tsw_lt; lia].
      rewrite /S1; case: eqP => [E|Hne]; first by rewrite E !tsw_same.
      rewrite (@symswap_sym C herm N _ (bkalpha01 C)) ?tswK //; [lia | apply: tsw_lt; lia | apply: tsw_lt; lia].
    rewrite h2 // /S1; case: eqP => // Hne; apply: (@symswap_frame C herm N _ (bkalpha01 C)) => //; lia.
  by move=> /(_ N (leqnn N) S).
Qed.

Lemma trLM N (A B : 'M[C]_N) : trL herm (A *m B) = trL herm B *m trL herm A.
Proof. by rewrite /trL; case: (herm); rewrite trmx_mul ?map_mxM. Qed.
Lemma trL1 N : trL herm (1%:M : 'M[C]_N) = 1%:M.
Proof. by rewrite /trL; case: (herm); rewrite trmx1 ?map_mx1. Qed.
Lemma trLE N (A : 'M[C]_N) i j : trL herm A i j = cs (A j i).
Proof. by rewrite /trL /LDL.cs; case: (herm); rewrite !mxE. Qed.

Lemma pd_sym N D xD i j : pdsh N D xD -> (i < N)%N -> (j < N)%N -> cs (pd herm D xD j i) = pd herm D xD i j.
Proof.
  move=> [h _] Hi Hj; rewrite /pd /pdiag eq_sym.
  have [->|Hij] := eqVneq i j; first by rewrite h.
  case: (eqVneq j i.+1) => [E1|_].
    by subst j; have -> : (i == i.+2) = false by lia.
  by case: eqP => _; rewrite ?csK ?cs0.
Qed.

(** X^dagger D X as matrices. *)
Lemma xtdx_mx N X D xD (i j : 'I_N) :
  xtdx N X D xD i j = (trL herm (mx N N X) *m mx N N (pd herm D xD) *m mx N N X) i j.
Proof.
  rewrite -mulmxA mxE /xtdx big_mkord; apply: eq_bigr => k _; rewrite trLE mxE; congr (_ * _).
  by rewrite -pdrowE // mxE big_mkord; apply: eq_bigr => l _; rewrite !mxE.
Qed.

Local Arguments InvD : simpl never.
Local Arguments CombineInverse : simpl never.
Variables (tb bs : nat) (tbP : (0 < tb)%N) (bsP : (0 < bs)%N).
Lemma LDL_InverseLowP N (cj : bool) H LL xD P raw :
  is_LDL herm N H (symview herm false cj LL) xD P ->
  (herm -> forall i, (i < N)%N -> LL i i \is Num.real) ->
  \det (mx N N H) != 0 ->
  exists R, [/\ LDL_InverseLow tb bs herm cj N LL xD P raw = Ok R,
    mx N N (symlow herm R) *m mx N N H = 1%:M,
    forall i, (i < N)%N -> cs (R i i) = R i i
  & forall i j, ~~ ((i < N)%N && (j <= i)%N) -> R i j = raw i j].
Proof.
  move=> HL Hr Hdet; have [hP [s [Hs E]] hb1 hb2] := HL.
  set V := symview herm false cj LL in HL E hb2 *.
  rewrite /LDL_InverseLow; set S0 : fm C := fun i j => if _ then _ else _.
  have S0V i j : (i < N)%N -> (j <= i)%N -> S0 i j = V i j.
    by move=> Hi Hj; rewrite /S0 Hi Hj /V /symview Hj.
  have := C26_inverse_lower true N S0 tbP; case: (TriInverseL _ _ _ _) => [L1|e|] //=; last by case=> _ [].
  case=> g1 g2.
  have L1d i : L1 i i = S0 i i by apply: g2; lia.
  have D0 i : (i < N)%N -> cs (V i i) = V i i.
    move=> Hi; rewrite /V /symview leqnn /LDL.cs; case h : herm => //.
    by case: (cj); rewrite ?conjCK conj_Creal // Hr.
  set D : fv C := fun i => L1 i i.
  have DV i : (i < N)%N -> D i = V i i by move=> Hi; rewrite /D L1d S0V.
  have Dok : pdok herm N D xD.
    split=> // [i Hi|k Hk hx]; first by rewrite DV // D0.
    by have [_] := hb2 k Hk hx; rewrite !DV //; lia.
  have DE : mx N N (blockdiag herm V xD) = mx N N (pd herm D xD).
    by apply: mx_ext => i j Hi Hj; rewrite /blockdiag /pd /pdiag DV.
  have Dd : \det (mx N N (pd herm D xD)) != 0 by rewrite -DE -(is_LDL_det HL).
  have [D' [xD' [-> Hsh hz DDi]]] := InvD_inv Dok Dd.
  rewrite /bindO /=; set S2 : fm C := fun i j => if _ then _ else _.
  have LV : mx N N (lower true S0) = mx N N (lower true V).
    apply: mx_ext => i j Hi Hj; rewrite /lower; case: (ltngtP j i) => h; rewrite ?S0V //; exact: ltnW.
  have LL1 : mx N N (lower true V) *m mx N N (lower true L1) = 1%:M.
    rewrite -LV; apply/matrixP => i j; rewrite !mxE; have [h _] := g1 i j (ltn_ord i) (ltn_ord j).
    by rewrite -val_eqE -h; apply: eq_bigr => k _; rewrite !mxE.
  have LS2 : mx N N (lower true S2) = mx N N (lower true L1).
    apply: mx_ext => i j Hi Hj; rewrite /lower /S2; case: (eqVneq i j) => // h; by case: ifP.
  have dS2 k : (k < N)%N -> dg S2 k = D' k by move=> Hk; rewrite /dg /S2 eqxx Hk.
  have Hsh2 : pdsh N (dg S2) xD' by have [h1 h2] := Hsh; split=> // k Hk; rewrite dS2 // h1.
  have HX k : (k.+1 < N)%N -> xD' k != 0 -> S2 k.+1 k = 0.
    move=> Hk; rewrite hz => hx; rewrite /S2; have -> : (k.+1 == k) = false by lia.
    have [h _] := g1 k.+1 k Hk (ltnW Hk); have -> : L1 k.+1 k = (k.+1 == k)%:R; last by have -> : (k.+1 == k) = false by lia.
    rewrite /= -h -(big_mkord xpredT (fun l => lower true S0 k.+1 l * lower true L1 l k)).
    transitivity (\sum_(0 <= l < N) (if l == k.+1 then L1 k.+1 k else 0)); first by rewrite sum1 Hk.
    apply: eq_big_nat => l Hl; have [->|e1] := eqVneq l k.+1.
      by rewrite (low_lo _ (ltnSn k)) /lower eqxx mul1r.
    have [E1|e2] := eqVneq l k.
      have [v0 _] := hb2 k Hk hx; by rewrite E1 low_lo // S0V ?v0 ?mul0r //; lia.
    case: (ltnP l k) => hl; first by rewrite (@low_up L1) ?mulr0.
    by rewrite low_up ?mul0r //; lia.
  have [R1 [-> e1]] := CombineInverseP bsP (ltnSn N) Hsh2 HX.
  have [f1 f2] := revpermsymP R1 hP.
  set M := trL herm (mx N N (lower true L1)) *m mx N N (pd herm D' xD') *m mx N N (lower true L1).
  have Msym : trL herm M = M.
    rewrite /M !trLM mulmxA; congr (_ *m _ *m _).
      by apply/matrixP => a b; rewrite trLE !mxE (pd_sym Hsh).
    by apply/matrixP => a b; rewrite !trLE csK.
  have M1 : mx N N (symlow herm R1) = M.
    have DS : mx N N (pd herm (dg S2) xD') = mx N N (pd herm D' xD').
      by apply: mx_ext => a b Ha Hb; rewrite /pd /pdiag dS2.
    have MM (i j : 'I_N) : (j <= i)%N -> R1 i j = M i j.
      by move=> h; rewrite e1 ltn_ord h /= xtdx_mx LS2 DS.
    apply/matrixP => i j; rewrite mxE /symlow; case: leqP => h; first exact: MM.
    by rewrite (MM j i (ltnW h)) -trLE Msym.
  eexists; split; first by [].
  - have M2 : perm_mx s *m (mx N N (symlow herm (revpermsym herm N P R1)) *m perm_mx s^-1) = mx N N (symlow herm R1).
      by rewrite -col_permE -row_permE; apply/matrixP => i j; rewrite !mxE -!Hs f1.
    rewrite row_permE col_permE DE in E.
    have Q1 : perm_mx s^-1 *m perm_mx s = 1%:M :> 'M[C]_N by rewrite -perm_mxM mulVg perm_mx1.
    have Q2 : perm_mx s *m perm_mx s^-1 = 1%:M :> 'M[C]_N by rewrite -perm_mxM mulgV perm_mx1.
    set F := mx N N (symlow herm _) in M2 *.
    have FE : F = perm_mx s^-1 *m mx N N (symlow herm R1) *m perm_mx s.
      by rewrite -M2 !mulmxA Q1 mul1mx -mulmxA Q1 mulmx1.
    have HE : mx N N H = perm_mx s^-1 *m (mx N N (lower true V) *m mx N N (pd herm D xD) *m trL herm (mx N N (lower true V))) *m perm_mx s.
      by rewrite -E !mulmxA Q1 mul1mx -mulmxA Q1 mulmx1.
    have L1L := mulmx1C LL1; have DDi' := mulmx1C DDi.
    have K1 : mx N N (symlow herm R1) *m (mx N N (lower true V) *m mx N N (pd herm D xD) *m trL herm (mx N N (lower true V))) = 1%:M.
      rewrite M1 /M !mulmxA -(mulmxA _ (mx N N (lower true L1))) L1L mulmx1.
      by rewrite -(mulmxA _ (mx N N (pd herm D' xD'))) DDi' mulmx1 -trLM LL1 trL1.
    set W := mx N N (lower true V) *m _ *m _ in HE K1; clearbody W.
    by rewrite FE HE !mulmxA -(mulmxA _ (perm_mx s)) Q2 mulmx1 -(mulmxA (perm_mx s^-1)) K1 mulmx1.
  - move=> i Hi; pose o := Ordinal Hi; pose o' : 'I_N := (s^-1 o)%g.
    have Eo : i = psig P 0 N o' by rewrite Hs /o' permKV.
    have := f1 o' o' (ltn_ord _) (ltn_ord _); rewrite -Eo symlow_le // => ->.
    have -> : symlow herm R1 o' o' = M o' o' by rewrite -M1 mxE.
    by rewrite -trLE Msym.
  - move=> i j hij; rewrite f2 // e1 (negPf hij) /S2 ifN; last by apply: contra hij => /andP [/eqP -> ->]; rewrite leqnn.
    rewrite g2; last by lia.
    by rewrite /S0 (negPf hij).
Qed.

Lemma conj_trL N (A : 'M[C]_N) : map_mx conjC (trL herm A) = trL herm (map_mx conjC A : 'M[C]_N).
Proof. by rewrite /trL; case: (herm); rewrite -map_trmx. Qed.
Lemma mx_conj N (A : fm C) : mx N N (fun i j => (A i j)^*) = map_mx conjC (mx N N A).
Proof. by apply/matrixP => i j; rewrite !mxE. Qed.
Lemma conj_lower (A : fm C) i j : lower true (fun i j => (A i j)^*) i j = (lower true A i j)^*.
Proof. by rewrite /lower; case: ifP => _; [rewrite conjC1 | case: ifP; rewrite ?conjC0]. Qed.

(** The conjugate of a decomposition. *)
Lemma is_LDL_conj N H V xD P : is_LDL herm N H V xD P ->
  is_LDL herm N (fun i j => (H i j)^*) (fun i j => (V i j)^*) (fun i => (xD i)^*) P.
Proof.
  move=> [h1 [s [h2 h3]] h4 h5]; split=> //.
  - exists s; split=> //; rewrite mx_conj.
    have -> : mx N N (lower true (fun i j => (V i j)^*)) = map_mx conjC (mx N N (lower true V)).
      by rewrite -mx_conj; apply: mx_ext => i j _ _; rewrite conj_lower.
    have -> : mx N N (blockdiag herm (fun i j => (V i j)^*) (fun i => (xD i)^*)) = map_mx conjC (mx N N (blockdiag herm V xD)).
      rewrite -mx_conj; apply: mx_ext => i j _ _; rewrite /blockdiag.
      by do 3?[case: ifP => // _]; case: (herm); rewrite ?conjC0.
    by rewrite -conj_trL -!map_mxM -h3; apply/matrixP => i j; rewrite !mxE.
  - by move=> k Hk; rewrite conjC_eq0 => hx Hk2; rewrite (h4 k) // conjC0.
  - move=> k Hk; rewrite conjC_eq0 => hx; have [g1 g2] := h5 k Hk hx.
    rewrite g1 conjC0; split=> //.
    have -> : (if herm then ((xD k)^*)^* else (xD k)^*) = (if herm then (xD k)^* else xD k)^* by case: (herm).
    by rewrite -!rmorphM -rmorphB conjC_eq0.
Qed.

Lemma LDL_InverseP N (cj su sc : bool) H LL xD P raw :
  is_LDL herm N H (symview herm false cj LL) xD P ->
  (herm -> forall i, (i < N)%N -> LL i i \is Num.real) ->
  \det (mx N N H) != 0 ->
  exists R, [/\ LDL_Inverse tb bs herm cj N LL xD P su sc raw = Ok R,
    mx N N (symview herm su sc R) *m mx N N H = 1%:M,
    herm -> forall i, (i < N)%N -> R i i \is Num.real
  & forall i j, ~~ [&& i < N, j < N & if su then i <= j else j <= i]%N -> R i j = raw i j].
Proof.
  move=> HL Hr Hdet; rewrite /LDL_Inverse; set flip := sc (+) (su && herm).
  pose H' : fm C := vw flip H.
  have HL' : is_LDL herm N H' (symview herm false (cj (+) flip) LL) (if flip then fun i => (xD i)^* else xD) P.
    rewrite /H'; case: (flip); last by rewrite addbF.
    have := is_LDL_conj HL; rewrite addbT => -[g1 [s [g2 g3]] g4 g5].
    have VE i j : symview herm false (~~ cj) LL i j = (symview herm false cj LL i j)^*.
      by rewrite /symview; case: (cj); case: (herm); case: ifP; rewrite /= ?conjCK.
    split=> //.
      exists s; split=> //; apply: (etrans g3).
      have e1 : mx N N (lower true (symview herm false (~~ cj) LL)) = mx N N (lower true (fun i j => (symview herm false cj LL i j)^*)).
        by apply: mx_ext => i j _ _; rewrite /lower !VE.
      rewrite e1; congr (_ *m _ *m _); by apply: mx_ext => i j _ _; rewrite /blockdiag !VE.
    by move=> k Hk hx; rewrite !VE; exact: g5.
  have Hdet' : \det (mx N N H') != 0.
    rewrite /H'; case: (flip) => //.
    by rewrite mx_conj det_map_mx conjC_eq0.
  have [R [-> E Rd F]] := LDL_InverseLowP (if su then trm raw else raw) HL' Hr Hdet'.
  have Rr : herm -> forall i, (i < N)%N -> R i i \is Num.real.
    by move=> h i Hi; have := Rd i Hi; rewrite /LDL.cs h => /CrealP.
  eexists; split; first by [].
  - have -> : mx N N (symview herm su sc (if su then trm R else R)) = mx N N (vw flip (symlow herm R)).
      apply: mx_ext => i j Hi Hj; rewrite /symview /vw /symlow /flip /LDL.cs; case: (su) => /=; last first.
        by rewrite addbF; case: (sc); case: leqP => //; case: (herm); rewrite ?conjCK.
      rewrite /trm; case: (ltngtP i j) => h; [| | subst j]; try by case: (herm); case: (sc); rewrite /= ?conjCK.
      by case h : herm; case: (sc) => //=; rewrite conj_Creal // Rr.
    move: E; rewrite /H'; case: (flip) => // E.
    rewrite mx_conj -[mx N N H](_ : map_mx conjC (mx N N (fun i j => (H i j)^*)) = _); last first.
      by apply/matrixP => i j; rewrite !mxE conjCK.
    by rewrite -map_mxM E map_mx1.
  - by move=> h i Hi; case: (su); rewrite /trm Rr.
  - move=> i j; move: F; case: (su) => /= F h; rewrite /trm F //; lia.
Qed.

Lemma LDL_InverseMP N (cj mc : bool) H LL xD P m :
  is_LDL herm N H (symview herm false cj LL) xD P ->
  (herm -> forall i, (i < N)%N -> LL i i \is Num.real) ->
  \det (mx N N H) != 0 ->
  exists R, [/\ LDL_InverseM tb bs herm cj N LL xD P mc m = Ok R,
    mx N N R *m mx N N H = 1%:M & forall i j, ~~ ((i < N)%N && (j < N)%N) -> R i j = m i j].
Proof.
  move=> HL Hr Hdet; rewrite /LDL_InverseM.
  have [R [-> E Rd F]] := LDL_InverseP false mc (vw mc m) HL Hr Hdet.
  eexists; split; first by [].
  - rewrite -E; congr (_ *m _); apply: mx_ext => i j Hi Hj; rewrite Hj andbT /symview /vw /LDL.cs.
    by case: leqP => h //; case: (herm).
  - move=> i j hij /=; rewrite ifN; last by lia.
    by rewrite /vw F; [case: (mc); rewrite ?conjCK | move: hij; rewrite !negb_and; lia].
Qed.
End Proofs.
