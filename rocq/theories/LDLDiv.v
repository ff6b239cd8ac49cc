(** Division through the LDL decomposition: src/TMV_SymLDLPseudo.cpp, src/TMV_SymLDLDiv.cpp,
    src/TMV_SymLDLD.cpp (SymLDLDiv). *)
From Coq Require Import Ring Field.
From Verif Require Import Base FMat TriSolve RowPerm LU LUProofs LUDiv RingTac Cplx LDL LDLProofs Claims_LDL.
From mathcomp Require Import all_ssreflect all_fingroup all_algebra zify.
Set Implicit Arguments. Unset Strict Implicit. Unset Printing Implicit Defensive.
Import GRing.Theory Num.Theory Order.Theory.
Local Open Scope ring_scope.

Section Model.
Variable C : numClosedFieldType.
Implicit Types (m A LL : fm C) (D xD : fv C).

(** Elements through a view that may be conjugated. *)
Definition vw (cj : bool) m : fm C := fun i k => if cj then (m i k)^* else m i k.

(** LMultEq_2x2 on rows i and i+1 of K columns, TMV_SymLDLPseudo.cpp:65-107. *)
Definition LMultEq2 (a b c cc : C) (i K : nat) m : fm C := fun r k =>
  if (k < K)%N then
    if r == i then a * m i k + cc * m i.+1 k
    else if r == i.+1 then b * m i.+1 k + c * m i k else m r k
  else m r k.
(** SymLMultEq_2x2, 109-127, on the stored elements of m; [mc]: m is conjugated. *)
Definition SymLMultEq2 (herm mc : bool) (a b c : C) (i K : nat) m : fm C :=
  if herm then
    if mc then LMultEq2 ('Re a) ('Re b) c^* c i K m
    else LMultEq2 ('Re a) ('Re b) c c^* i K m
  else
    if mc then LMultEq2 a^* b^* c^* c^* i K m
    else LMultEq2 a b c c i K m.

(** PseudoDiag_LDivEq, 149-210, from row i on, on the stored elements of m. *)
Fixpoint PD_LDivEq (fuel : nat) (herm mc : bool) (N K : nat) D xD (i : nat) m : outcome (fm C) :=
  if (N <= i)%N then Ok m else
  match fuel with
  | 0 => UB
  | f.+1 =>
    if (i == N.-1) || (xD i == 0) then
      let d := hre herm (D i) in
      let d := if mc then d^* else d in
      PD_LDivEq f herm mc N K D xD i.+1 (fun r k => if (r == i) && (k < K)%N then m i k / d else m r k)
    else
      do X <- sym2 herm (D i) (D i.+1) (xD i);
      let '(x, y, z, _) := X in
      PD_LDivEq f herm mc N K D xD i.+2 (SymLMultEq2 herm mc x y z i K m)
  end.
(** PseudoDiag_LMultEq, 212-280. *)
Fixpoint PD_LMultEq (fuel : nat) (herm mc : bool) (N K : nat) D xD (i : nat) m : outcome (fm C) :=
  if (N <= i)%N then Ok m else
  match fuel with
  | 0 => UB
  | f.+1 =>
    if (i == N.-1) || (xD i == 0) then
      let d := hre herm (D i) in
      let d := if mc then d^* else d in
      PD_LMultEq f herm mc N K D xD i.+1 (fun r k => if (r == i) && (k < K)%N then m i k * d else m r k)
    else
      PD_LMultEq f herm mc N K D xD i.+2 (SymLMultEq2 herm mc (D i) (D i.+1) (xD i) i K m)
  end.

Variables (tb tb2 : nat) (stA stB : stor).
(** LDL_LDivEq, TMV_SymLDLDiv.cpp:100-152, on the elements of m as the view shows them.  LL is
    the array of a lower triangle, read through a conjugated view if [cj]; its diagonal is
    read by PseudoDiag_LDivEq without that conjugation (D.cptr()). *)
Definition LDL_LDivEq (herm cj mc : bool) (N K : nat) LL xD P m : outcome (fm C) :=
  let m := permrows K P 0 N m in
  do m <- TriLDivEqML tb tb2 stA stB true N K (vw cj LL) m;
  do m <- PD_LDivEq N.+1 herm mc N K (fun i => LL i i) xD 0 (vw mc m);
  do m <- TriLDivEqMU tb tb2 stA stB true N K (fun i j => cs herm (vw cj LL j i)) (vw mc m);
  Ok (revpermrows K P 0 N m).
(** m.adjoint() or m.transpose(), and LDL_RDivEq, 158-172. *)
Definition atr (herm : bool) m : fm C := fun i j => cs herm (m j i).
Definition LDL_RDivEq (herm cj mc : bool) (N K : nat) LL xD P m : outcome (fm C) :=
  do X <- LDL_LDivEq herm cj (if herm then ~~ mc else mc) N K LL xD P (atr herm m);
  Ok (atr herm X).

(** SymLDLDiv::SymLDLDiv, TMV_SymLDLD.cpp:58-91, for a view of the array A.  [inplace] is the
    argument, [contig] whether A is row or column major (with [iscm]); a matrix that is not
    decomposed in place gets a new column major array, holding [junk].  The result: whether
    LLx is conjugated, and the arrays. *)
Variables (alpha : C) (under : C -> bool) (nb : nat).
Definition SymLDLDiv_new (herm upper cj inplace contig iscm : bool) (N : nat) LD A junk xD P : outcome (bool * lst C) :=
  let inpl := inplace && contig in
  let LLx := if inpl then (if upper then trm A else A) else junk in
  let cj1 := inpl && (if upper && herm then ~~ cj else cj) in
  let iscm1 := if inpl then (if upper then ~~ iscm else iscm) else true in
  let LLx : fm C := if inplace then LLx else
    fun i j => if (i < N)%N && (j <= i)%N then symview herm upper cj A i j else LLx i j in
  do s <- LDL_Decompose alpha under nb herm iscm1 false cj1 N LD LLx xD P 1;
  Ok (cj1, s).

(** isSingular(), 166-172. *)
Definition LDL_isSingular (abs2 : C -> C) (eps : C) (N : nat) (s : lst C) : bool :=
  (ld s == 0) || isSingular abs2 eps N (la s).
End Model.

Section Proofs.
Variable C : numClosedFieldType.
Add Field Cf2 : (mc_ft C).
Ltac mfield := mcnorm C; field.
Ltac mring := mcnorm C; ring.
Implicit Types (m A LL : fm C) (D xD : fv C).
Variable herm : bool.
Notation cs := (@cs C herm).
Notation hre := (@hre C herm).

Lemma vwK cj m i k : vw cj (vw cj m) i k = m i k.
Proof. by rewrite /vw; case: cj; rewrite ?conjCK. Qed.

(** ** The block diagonal matrix as a matrix *)
Definition pd D xD : fm C := pdiag herm (fun i _ => D i) xD.

Lemma sum1 n k (f : nat -> C) : \sum_(0 <= l < n) (if l == k then f l else 0) = if (k < n)%N then f k else 0.
Proof.
  elim: n => [|n IH]; first by rewrite big_geq.
  rewrite big_nat_recr //= IH ltnS (leq_eqVlt k) [k == n]eq_sym; case: (eqVneq n k) => [->|_] /=.
    by rewrite ltnn add0r.
  by rewrite addr0.
Qed.

(** One row of the product. *)
Definition pdrow N D xD (v : nat -> C) (r : nat) : C :=
  (if r is q.+1 then xD q * v q else 0) + D r * v r + (if (r.+1 < N)%N then cs (xD r) * v r.+1 else 0).
Lemma pdrowE N D xD v r : (r < N)%N -> \sum_(0 <= l < N) pd D xD r l * v l = pdrow N D xD v r.
Proof.
  move=> Hr.
  transitivity (\sum_(0 <= l < N) ((if l == r.-1 then (if r is q.+1 then xD q * v q else 0) else 0)
      + (if l == r then D r * v r else 0) + (if l == r.+1 then cs (xD r) * v r.+1 else 0))).
    apply: eq_bigr => l _; rewrite /pd /pdiag eq_sym.
    case: (eqVneq l r) => [->|Hlr].
      have -> : (r == r.+1) = false by lia.
      case: r {Hr} => [|r] /=; first by rewrite add0r addr0.
      have -> : (r.+1 == r) = false by lia.
      by rewrite add0r addr0.
    case: r Hr Hlr => [|r] Hr Hlr /=.
      have -> : (l == 0%N) = false by lia.
      by rewrite !add0r; case: eqP => [->|_] //; rewrite mul0r.
    rewrite eqSS eq_sym; case: (eqVneq l r) => [->|Hlr2].
      have -> : (r == r.+2) = false by lia.
      by rewrite !addr0.
    by rewrite !add0r; case: eqP => [->|_] //; rewrite mul0r.
  rewrite !big_split /= !sum1 Hr /pdrow; congr (_ + _ + _).
  by case: r Hr => [|r] Hr /=; rewrite ?if_same // ifT //; lia.
Qed.

(** Blocks are 1x1 or 2x2, and invertible. *)
Definition pdok N D xD : Prop :=
  [/\ forall i, (i < N)%N -> cs (D i) = D i,
      forall k, (k.+1 < N)%N -> xD k != 0 -> (k.+2 < N)%N -> xD k.+1 = 0
    & forall k, (k.+1 < N)%N -> xD k != 0 -> D k * D k.+1 - xD k * cs (xD k) != 0].
(** Row i starts a block. *)
Definition start N xD i : Prop := forall q, q.+1 = i -> (i < N)%N -> xD q = 0.

Lemma start1 N D xD i : pdok N D xD -> start N xD i -> (i < N)%N -> (i == N.-1) || (xD i == 0) -> start N xD i.+1.
Proof.
  move=> _ _ Hi h q [->] Hq; move: h; have -> : (i == N.-1) = false by lia.
  by move/eqP.
Qed.
Lemma start2 N D xD i : pdok N D xD -> (i < N)%N -> (i == N.-1) || (xD i == 0) = false ->
  (i.+1 < N)%N /\ start N xD i.+2.
Proof.
  move=> [_ h _] Hi /norP [h1 h2]; have Hi1 : (i.+1 < N)%N by lia.
  by split=> // q [->] Hq; apply: h.
Qed.

(** What the two steps do to the elements the view shows. *)
Lemma SymLMultEq2P mc a b c i K m r k : cs a = a -> cs b = b ->
  vw mc (SymLMultEq2 herm mc a b c i K m) r k = LMultEq2 a b c (cs c) i K (vw mc m) r k.
Proof.
  move=> ha hb; rewrite /SymLMultEq2 /LMultEq2 /vw; move: ha hb; rewrite /LDL.cs.
  case: herm; case: mc => // ha hb; case: ifP => // _.
  - have e x : x^* = x -> 'Re x = x by move=> h; apply/Creal_ReP; apply/CrealP.
    by rewrite !e //; case: eqP => _; [|case: eqP => _]; rewrite // rmorphD !rmorphM /= ?ha ?hb ?conjCK.
  - have e x : x^* = x -> 'Re x = x by move=> h; apply/Creal_ReP; apply/CrealP.
    by rewrite !e.
  - by case: eqP => _; [|case: eqP => _]; rewrite // rmorphD !rmorphM /= ?conjCK.
Qed.

(** Division by the block diagonal matrix. *)
Lemma PD_LDivEqP mc fuel N K D xD i m : pdok N D xD ->
  (forall i, (i < N)%N -> (i == N.-1) || (xD i == 0) -> start N xD i -> D i != 0) ->
  (N <= fuel + i)%N -> start N xD i ->
  exists X, [/\ PD_LDivEq fuel herm mc N K D xD i m = Ok X,
     forall r k, (i <= r < N)%N -> (k < K)%N -> \sum_(0 <= l < N) pd D xD r l * (if (l < i)%N then 0 else vw mc X l k) = vw mc m r k
   & forall r k, ~~ ((i <= r < N)%N && (k < K)%N) -> X r k = m r k].
Proof.
  move=> Hok Hn; elim: fuel i m => [|f IH] i m Hf Hs /=.
    by rewrite ifT; last lia; exists m; split=> // r k; lia.
  case: (leqP N i) => HiN; first by exists m; split=> // r k; lia.
  have [Hd _ Hb] := Hok.
  have Hsi q : q.+1 = i -> xD q = 0 by move=> h; apply: Hs.
  case: ifP => hc.
  - have hs1 := start1 Hok Hs HiN hc.
    have hD : D i != 0 by exact: Hn.
    rewrite (hre_id (Hd i HiN)); set d := D i.
    set m1 : fm C := fun r k => if _ then _ else _.
    have [X [-> h1 h2]] := IH i.+1 m1 ltac:(lia) hs1.
    exists X; split=> //.
    + move=> r k Hr Hk; rewrite pdrowE; last by lia.
      have [->|Hri] := eqVneq r i.
        rewrite /pdrow ltnn.
        have -> : (i.+1 < i)%N = false by lia.
        have -> : vw mc X i k = vw mc m1 i k by rewrite /vw h2 //; lia.
        have -> : (if (i.+1 < N)%N then cs (xD i) * vw mc X i.+1 k else 0) = 0.
          case: ifP => // Hi1; move: hc; have -> : (i == N.-1) = false by lia.
          by move/eqP => /= ->; rewrite cs0 mul0r.
        have -> : (if i is q.+1 then xD q * (if (q < i)%N then 0 else vw mc X q k) else 0) = 0.
          by case: (i) => // q; rewrite ltnSn mulr0.
        rewrite add0r addr0 /vw /m1 eqxx Hk /=.
        have -> : (if mc then (m i k / (if mc then d^* else d))^* else m i k / (if mc then d^* else d)) =
                  (if mc then (m i k)^* else m i k) / d by case: (mc); rewrite // rmorphM fmorphV conjCK.
        by rewrite mulrC divfK.
      have := h1 r k ltac:(lia) Hk; rewrite pdrowE; last by lia.
      have -> : vw mc m1 r k = vw mc m r k by rewrite /vw /m1 (negPf Hri).
      move=> <-; rewrite /pdrow; congr (_ + _ + _).
      * case: r Hr Hri => // q Hr Hri; have [Eq|Hq] := eqVneq q i; last by congr (_ * _); rewrite ltnS; case: ltngtP Hq.
        subst q; move: hc; have -> : (i == N.-1) = false by lia. by move=> /eqP /= ->; rewrite !mul0r.
      * by congr (_ * _); rewrite !ifN //; lia.
      * by case: ifP => // _; congr (_ * _); rewrite !ifN //; lia.
    + move=> r k Hrk; rewrite h2; last by lia. by rewrite /m1 ifN //; lia.
  - have [Hi1 hs2] := start2 Hok HiN hc.
    have [hc1 hx] : i != N.-1 /\ xD i != 0 by case/norP: (negbT hc).
    have hdd := Hb i Hi1 hx.
    rewrite (sym2P (Hd i HiN) (Hd i.+1 Hi1) hdd) /bindO.
    set dd := D i * D i.+1 - _ in hdd *.
    have hD : LDL.cs herm dd = dd by rewrite /dd csB !csM csK !Hd // [LDL.cs _ _ * xD _]mulrC.
    set x := D i.+1 / dd; set y := D i / dd; set z := - xD i / dd.
    have hx' : cs x = x by rewrite /x csM csV hD Hd.
    have hy' : cs y = y by rewrite /y csM csV hD Hd.
    set m1 := SymLMultEq2 _ _ _ _ _ _ _ _.
    have m1E r k : vw mc m1 r k = LMultEq2 x y z (cs z) i K (vw mc m) r k by exact: SymLMultEq2P.
    have [X [-> h1 h2]] := IH i.+2 m1 ltac:(lia) hs2.
    exists X; split=> //.
    + move=> r k Hr Hk; rewrite pdrowE; last by lia.
      have X0 : vw mc X i k = x * vw mc m i k + cs z * vw mc m i.+1 k.
        by rewrite {1}/vw h2; [rewrite -/(vw mc m1 i k) m1E /LMultEq2 Hk eqxx | lia].
      have X1 : vw mc X i.+1 k = y * vw mc m i.+1 k + z * vw mc m i k.
        rewrite {1}/vw h2; last by lia. rewrite -/(vw mc m1 i.+1 k) m1E /LMultEq2 Hk eqxx.
        by have -> : (i.+1 == i) = false by lia.
      have hz : cs z = - cs (xD i) / dd by rewrite /z csM csN csV hD.
      have [->|Hri] := eqVneq r i.
        rewrite /pdrow Hi1 ltnn (ltnNge i.+1) leqnSn /= X0 X1.
        have -> : (if i is q.+1 then xD q * (if (q < i)%N then 0 else vw mc X q k) else 0) = 0.
          by case: (i) => // q; rewrite ltnSn mulr0.
        rewrite add0r hz /x /y /z.
        transitivity ((D i * D i.+1 - xD i * cs (xD i)) / dd * vw mc m i k); last by rewrite -/dd divff // mul1r.
        mring.
      have [->|Hri1] := eqVneq r i.+1.
        rewrite /pdrow ltnn (ltnNge i.+1) leqnSn /= X0 X1.
        have -> : (if (i.+2 < N)%N then cs (xD i.+1) * (if (i.+2 < i)%N then 0 else vw mc X i.+2 k) else 0) = 0.
          by case: ifP => // h; rewrite (hs2 i.+1) // cs0 mul0r.
        rewrite addr0 hz /x /y /z.
        transitivity ((D i * D i.+1 - xD i * cs (xD i)) / dd * vw mc m i.+1 k); last by rewrite -/dd divff // mul1r.
        mring.
      have := h1 r k ltac:(lia) Hk; rewrite pdrowE; last by lia.
      rewrite m1E /LMultEq2 Hk (negPf Hri) (negPf Hri1) => <-; rewrite /pdrow; congr (_ + _ + _).
      * case: r Hr Hri Hri1 => // q Hr Hri Hri1; have [Eq|Hq] := eqVneq q i.+1.
          by subst q; rewrite (hs2 i.+1) ?mul0r //; lia.
        by congr (_ * _); rewrite !ifN //; lia.
      * by congr (_ * _); rewrite !ifN //; lia.
      * by case: ifP => // _; congr (_ * _); rewrite !ifN //; lia.
    + move=> r k Hrk; rewrite h2; last by lia.
      have := m1E r k; rewrite /LMultEq2; move: (m1) => m2.
      have -> : (if (k < K)%N then if r == i then x * vw mc m i k + cs z * vw mc m i.+1 k
         else if r == i.+1 then y * vw mc m i.+1 k + z * vw mc m i k else vw mc m r k else vw mc m r k) = vw mc m r k.
        by case: ifP => // Hk; case: eqP => [E|_]; [lia|]; case: eqP => [E|_] //; lia.
      by rewrite /vw; case: (mc) => // /(can_inj (@conjCK _)).
Qed.

Local Arguments PD_LDivEq : simpl never.
Lemma framed_rev N K P m i j : (forall k, (k < N)%N -> (P k < N)%N) -> ~~ ((i < N)%N && (j < K)%N) ->
  revpermrows K P 0 N m i j = m i j.
Proof.
  move=> hP h; have := revpermrowsK K P 0 N m i j; rewrite permrowsE.
  case: ifP h => // Hj; rewrite andbT => Hi.
  rewrite (@psig_out N) //; [move=> k Hk; have := hP k; lia | lia].
Qed.

(** A block of size one of an invertible D is not zero. *)
Lemma pd1_ne N D xD i : \det (mx N N (pd D xD)) != 0 -> (i < N)%N ->
  (i == N.-1) || (xD i == 0) -> start N xD i -> D i != 0.
Proof.
  move=> Hd Hi hc hs; apply: contraNneq Hd => h0.
  rewrite (expand_det_row _ (Ordinal Hi)) big1 // => j _; rewrite mxE /pd /pdiag /=.
  case: eqP => _; first by rewrite h0 mul0r.
  case: eqP => [E|_]; first by rewrite (hs j) ?mul0r.
  case: eqP => [E|_]; last by rewrite mul0r.
  move: hc; have -> : (i == N.-1) = false by have := ltn_ord j; lia.
  by move=> /eqP /= ->; rewrite cs0 mul0r.
Qed.

Variables (tb tb2 : nat) (tbP : (0 < tb)%N) (tb2P : (0 < tb2)%N).
Section Div.
Variables (N : nat) (cj : bool) (H LL : fm C) (xD : fv C) (P : nat -> nat).
Hypothesis HL : is_LDL herm N H (symview herm false cj LL) xD P.
Hypothesis Hr : herm -> forall i, (i < N)%N -> LL i i \is Num.real.
Hypothesis Hc : herm || ~~ cj.
Hypothesis Hdet : \det (mx N N H) != 0.

Lemma rawdiag i : (i < N)%N -> symview herm false cj LL i i = LL i i.
Proof.
  move=> Hi; rewrite /symview leqnn; case: (cj) Hc => //; rewrite orbF => h.
  by rewrite conj_Creal // Hr.
Qed.

Lemma LDL_LDivEqP stA stB mc K m :
  exists X, [/\ LDL_LDivEq tb tb2 stA stB herm cj mc N K LL xD P m = Ok X,
    mx N N H *m mx N K X = mx N K m & framed N K X m].
Proof.
  have [hP [s [Hs E]] hb1 hb2] := HL.
  have hP2 k : (k < N)%N -> (P k < N)%N by move=> Hk; have := hP k; lia.
  set D : fv C := fun i => LL i i.
  have DE : mx N N (blockdiag herm (symview herm false cj LL) xD) = mx N N (pd D xD).
    apply: mx_ext => i j Hi Hj; rewrite /blockdiag /pd /pdiag; case: eqP => // _; exact: rawdiag.
  have Dd : \det (mx N N (pd D xD)) != 0 by rewrite -DE -(is_LDL_det HL).
  have Dok : pdok N D xD.
    split=> // [i Hi|k Hk hx]; last by have [_] := hb2 k Hk hx; rewrite !rawdiag //; lia.
    by rewrite /LDL.cs /D; case h : herm => //; rewrite conj_Creal // Hr.
  rewrite /LDL_LDivEq; set m1 := permrows _ _ _ _ _.
  have := TriLDivEqMLP tbP tb2P stA stB true N K (vw cj LL) m1.
  case: (TriLDivEqML _ _ _ _ _ _ _ _ _) => [Y|e|] //=; last by case=> _ [].
  case=> h1 f1.
  have [Z [-> h2 f2]] := @PD_LDivEqP mc N.+1 N K D xD 0 (vw mc Y) Dok
     (fun i Hi hc hs => pd1_ne Dd Hi hc hs) ltac:(lia) ltac:(by []).
  have := TriLDivEqMUP tbP tb2P stA stB true N K (fun i j => cs (vw cj LL j i)) (vw mc Z).
  rewrite /bindO; case: (TriLDivEqMU _ _ _ _ _ _ _ _ _) => [W|e|] //=; last by case=> _ [].
  case=> h3 f3; eexists; split; first by [].
  - have e0 : mx N K m1 = perm_mx s *m mx N K m.
      rewrite -row_permE -(mx_psig K m Hs); apply: mx_ext => i j Hi Hj.
      by rewrite /m1 permrowsE Hj.
    have e4 : perm_mx s *m mx N K (revpermrows K P 0 N W) = mx N K W.
      rewrite -row_permE -(mx_psig K _ Hs); apply: mx_ext => i j Hi Hj.
      by rewrite -[RHS](revpermrowsK K P 0 N) permrowsE Hj.
    have e1 : mx N N (lower true (symview herm false cj LL)) *m mx N K Y = mx N K m1.
      apply/mx_mulP => i j Hi Hj; rewrite -h1 //; apply: eq_bigr => k _; congr (_ * _).
      by rewrite /lower /symview /vw; case: ltngtP.
    have e2 : mx N N (pd D xD) *m mx N K (vw mc Z) = mx N K Y.
      apply/mx_mulP => i j Hi Hj; have := h2 i j ltac:(lia) Hj; rewrite vwK => <-.
      by rewrite big_mkord; apply: eq_bigr => k _.
    have e3 : trL herm (mx N N (lower true (symview herm false cj LL))) *m mx N K W = mx N K (vw mc Z).
      have -> : trL herm (mx N N (lower true (symview herm false cj LL))) = mx N N (upper true (fun i j => cs (vw cj LL j i))).
        apply/matrixP => i j; rewrite /trL; case h : herm; rewrite !mxE /lower /upper /symview /vw /LDL.cs ?h;
          case: ltngtP => // _; by rewrite ?rmorph0 ?rmorph1.
      by apply/mx_mulP => i j Hi Hj; rewrite -h3.
    rewrite row_permE col_permE DE in E.
    have Q1 : perm_mx s^-1 *m perm_mx s = 1%:M :> 'M[C]_N by rewrite -perm_mxM mulVg perm_mx1.
    have Q2 : perm_mx s *m perm_mx s^-1 = 1%:M :> 'M[C]_N by rewrite -perm_mxM mulgV perm_mx1.
    have -> : mx N K m = perm_mx s^-1 *m mx N K m1 by rewrite e0 mulmxA Q1 mul1mx.
    have -> : mx N N H = perm_mx s^-1 *m (perm_mx s *m (mx N N H *m perm_mx s^-1)) *m perm_mx s.
      by rewrite !mulmxA Q1 mul1mx -mulmxA Q1 mulmx1.
    by rewrite E -e1 -e2 -e3 -e4 !mulmxA.
  - move=> i j hij; rewrite framed_rev // f3 // /vw f2 // -/(vw mc (vw mc Y) i j) vwK f1 //.
    rewrite /m1 permrowsE; case: ifP hij => // Hj; rewrite andbT => Hi.
    rewrite (@psig_out N) //; [move=> k Hk; have := hP2 k; lia | lia].
Qed.

Hypothesis Hsym : forall i j, (i < N)%N -> (j < N)%N -> H i j = cs (H j i).
Lemma LDL_RDivEqP stA stB mc K m :
  exists X, [/\ LDL_RDivEq tb tb2 stA stB herm cj mc N K LL xD P m = Ok X,
    mx K N X *m mx N N H = mx K N m & framed K N X m].
Proof.
  rewrite /LDL_RDivEq.
  have [X [-> E F]] := LDL_LDivEqP stA stB (if herm then ~~ mc else mc) K (atr herm m).
  exists (atr herm X); split=> //; last first.
    by move=> i j h; rewrite /atr F ?csK //; rewrite andbC.
  apply/mx_mulP => i j Hi Hj; move/(mx_mulP N N K)/(_ j i Hj Hi): E => /(congr1 cs).
  rewrite /atr csK => <-; rewrite cs_sum; apply: eq_bigr => k _.
  by rewrite csM mulrC -Hsym.
Qed.
End Div.
End Proofs.
