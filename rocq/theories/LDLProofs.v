(** Proofs about the LDL decomposition (model in LDL.v). *)
From Coq Require Import Ring Field.
From Verif Require Import Base FMat TriSolve RowPerm LU LUProofs LUDiv RingTac Cplx LDL.
From mathcomp Require Import all_ssreflect all_fingroup all_algebra zify.
Set Implicit Arguments. Unset Strict Implicit. Unset Printing Implicit Defensive.
Import GRing.Theory Num.Theory Order.Theory.
Local Open Scope ring_scope.

(** * Specification *)
Section Spec.
Variable C : numClosedFieldType.
Implicit Types (A : fm C) (xD : fv C).
(** The symmetric or hermitian matrix whose lower triangle is A. *)
Definition symlow (herm : bool) A : fm C := fun i j => if (j <= i)%N then A i j else cs herm (A j i).
(** The diagonal is real, if the matrix is hermitian. *)
Definition diagok (herm : bool) (N : nat) A : Prop := forall i, (i < N)%N -> cs herm (A i i) = A i i.
(** The block diagonal matrix with diagonal A_ii and subdiagonal xD. *)
Definition pdiag (herm : bool) A xD : fm C := fun l m =>
  if l == m then A l l else if l == m.+1 then xD m else if m == l.+1 then cs herm (xD l) else 0.
(** (L D L^T)_ik or (L D L^dagger)_ik for the first n columns of L, the unit lower
    triangle of A. *)
Definition ldlt (herm : bool) (n : nat) A xD (i k : nat) : C :=
  \sum_(0 <= l < n) \sum_(0 <= m < n) lower true A i l * pdiag herm A xD l m * cs herm (lower true A k m).
(** The blocks are 1x1 or 2x2; a 2x2 block is invertible and L has a zero beside it. *)
Definition blocks (herm : bool) (n : nat) A xD : Prop :=
  forall k, (k.+1 < n)%N -> xD k != 0 ->
    [/\ (k.+2 < n)%N -> xD k.+1 = 0, A k.+1 k = 0 & A k k * A k.+1 k.+1 - xD k * cs herm (xD k) != 0].
End Spec.

Section Det.
Variable F : fieldType.
Lemma det_split n m (B : fm F) : (forall l k, (l < n)%N -> (n <= k < n + m)%N -> B l k = 0) ->
  \det (mx (n + m) (n + m) B) = \det (mx n n B) * \det (mx m m (subm n n B)).
Proof.
  move=> h.
  have -> : mx (n + m) (n + m) B = block_mx (mx n n B) 0 (mx m n (subm n 0 B)) (mx m m (subm n n B)).
    apply/matrixP => i k; rewrite !mxE; case: (split_ordP i) => i' ->; rewrite !mxE; case: (split_ordP k) => k' ->;
      rewrite !mxE /=.
    - by [].
    - by apply: h => //; have := ltn_ord k'; lia.
    - by [].
    - by [].
  by rewrite det_lblock.
Qed.
End Det.

Section Proofs.
Variable C : numClosedFieldType.
Add Field Cf : (mc_ft C).
Ltac mfield := mcnorm C; field.
Ltac mring := mcnorm C; ring.
Implicit Types (A S : fm C) (xD : fv C).
Variable herm : bool.
Notation cs := (@cs C herm).
Notation hre := (@hre C herm).
Notation L A := (lower true A).

(** ** Conjugation *)
Lemma csM x y : cs (x * y) = cs x * cs y. Proof. by rewrite /LDL.cs; case: herm => //; rewrite rmorphM. Qed.
Lemma csD x y : cs (x + y) = cs x + cs y. Proof. by rewrite /LDL.cs; case: herm => //; rewrite rmorphD. Qed.
Lemma csN x : cs (- x) = - cs x. Proof. by rewrite /LDL.cs; case: herm => //; rewrite rmorphN. Qed.
Lemma csB x y : cs (x - y) = cs x - cs y. Proof. by rewrite csD csN. Qed.
Lemma cs0 : cs 0 = 0. Proof. by rewrite /LDL.cs; case: herm => //; rewrite rmorph0. Qed.
Lemma cs1 : cs 1 = 1. Proof. by rewrite /LDL.cs; case: herm => //; rewrite rmorph1. Qed.
Lemma csK x : cs (cs x) = x. Proof. by rewrite /LDL.cs; case: herm => //; rewrite conjCK. Qed.
Lemma csV x : cs (x^-1) = (cs x)^-1. Proof. by rewrite /LDL.cs; case: herm => //; rewrite fmorphV. Qed.
Lemma cs_eq0 x : (cs x == 0) = (x == 0). Proof. by rewrite /LDL.cs; case: herm => //; rewrite conjC_eq0. Qed.
Lemma norm_cs x : `|cs x| = `|x|. Proof. by rewrite /LDL.cs; case: herm => //; rewrite norm_conjC. Qed.
Lemma cs_sum I r (P : pred I) (f : I -> C) : cs (\sum_(i <- r | P i) f i) = \sum_(i <- r | P i) cs (f i).
Proof. by rewrite /LDL.cs; case: herm => //; rewrite rmorph_sum. Qed.
Lemma hre_id x : cs x = x -> hre x = x.
Proof. by rewrite /LDL.cs /LDL.hre; case: herm => // h; apply/Creal_ReP; apply/CrealP. Qed.

(** ** Sums *)
Lemma pdiag_far A xD l m : l != m -> l != m.+1 -> m != l.+1 -> pdiag herm A xD l m = 0.
Proof. by rewrite /pdiag => /negPf -> /negPf -> /negPf ->. Qed.
Lemma pdiag_d A xD l : pdiag herm A xD l l = A l l. Proof. by rewrite /pdiag eqxx. Qed.
Lemma pdiag_l A xD l : pdiag herm A xD l.+1 l = xD l.
Proof. by rewrite /pdiag eqxx; case: eqP => // ?; lia. Qed.
Lemma pdiag_u A xD l : pdiag herm A xD l l.+1 = cs (xD l).
Proof. rewrite /pdiag eqxx; case: eqP => [?|_]; first by lia. by case: eqP => // ?; lia. Qed.

Lemma cross0 A xD i k j j' : (forall l, l.+1 = j -> xD l = 0) -> (j <= j')%N ->
  \sum_(0 <= l < j) L A i l * pdiag herm A xD l j' * cs (L A k j') = 0.
Proof.
  move=> h Hj; rewrite big_nat_cond big1 // => l /andP [Hl _].
  rewrite /pdiag; case: eqP => [?|_]; first by lia.
  case: eqP => [?|_]; first by lia.
  case: eqP => [E|_]; last by rewrite mulr0 mul0r.
  have E' : l.+1 = j by lia.
  by rewrite (h l E') cs0 mulr0 mul0r.
Qed.
Lemma cross0' A xD i k j j' : (forall l, l.+1 = j -> xD l = 0) -> (j <= j')%N ->
  \sum_(0 <= m < j) L A i j' * pdiag herm A xD j' m * cs (L A k m) = 0.
Proof.
  move=> h Hj; rewrite big_nat_cond big1 // => l /andP [Hl _].
  rewrite /pdiag; case: eqP => [?|_]; first by lia.
  case: eqP => [E|_]; last first.
    case: eqP => [?|_]; first by lia. by rewrite mulr0 mul0r.
  have E' : l.+1 = j by lia.
  by rewrite (h l E') mulr0 mul0r.
Qed.

Lemma ldlt_S1 A xD i k j : (forall l, l.+1 = j -> xD l = 0) ->
  ldlt herm j.+1 A xD i k = ldlt herm j A xD i k + L A i j * A j j * cs (L A k j).
Proof.
  move=> h; rewrite /ldlt.
  under eq_bigr => l _ do rewrite big_nat_recr //=.
  rewrite big_split big_nat_recr //= [X in _ + X = _]big_nat_recr //= cross0 // cross0' // pdiag_d.
  mring.
Qed.
Lemma ldlt_S2 A xD i k j : (forall l, l.+1 = j -> xD l = 0) ->
  ldlt herm j.+2 A xD i k = ldlt herm j A xD i k
    + L A i j * (A j j * cs (L A k j) + cs (xD j) * cs (L A k j.+1))
    + L A i j.+1 * (xD j * cs (L A k j) + A j.+1 j.+1 * cs (L A k j.+1)).
Proof.
  move=> h; rewrite /ldlt.
  under eq_bigr => l _ do (rewrite big_nat_recr //= big_nat_recr //=).
  rewrite !big_split /=.
  do 3 rewrite (big_nat_recr j.+1) //= (big_nat_recr j) //=.
  rewrite !cross0 ?cross0' // !pdiag_d pdiag_l pdiag_u.
  rewrite !addr0 !add0r -!addrA; congr (_ + _); mring.
Qed.
Lemma ldlt_ext N n A A' xD xD' i k : (n <= N)%N -> (i < N)%N -> (k < N)%N ->
  (forall r c, (r < N)%N -> (c < n)%N -> (c <= r)%N -> A r c = A' r c) ->
  (forall l, (l.+1 < n)%N -> xD l = xD' l) -> ldlt herm n A xD i k = ldlt herm n A' xD' i k.
Proof.
  move=> Hn Hi Hk hA hx; apply: eq_big_nat => l Hl; apply: eq_big_nat => m Hm.
  have hL r c : (r < N)%N -> (c < n)%N -> L A r c = L A' r c.
    by move=> Hr Hc; rewrite /lower; case: ifP => // _; case: ifP => // h; apply: hA; lia.
  rewrite !hL //; try lia; congr (_ * _ * _).
  rewrite /pdiag; case: eqP => [E|_]; first by subst; apply: hA; lia.
  case: eqP => [E|_]; first by apply: hx; lia.
  by case: eqP => [E|_] //; rewrite hx //; lia.
Qed.

(** ** The invariant: the first j columns are done, S is what remains. *)
Variables (N : nat) (H0 : fm C).
Definition linv (j : nat) (sg : nat -> nat) A xD S : Prop :=
  [/\ forall i k, (i < N)%N -> (k < N)%N ->
        H0 (sg i) (sg k) = ldlt herm j A xD i k + (if (j <= i)%N && (j <= k)%N then S i k else 0),
      forall i k, (j <= i < N)%N -> (j <= k < N)%N -> S k i = cs (S i k),
      forall i, (i < j)%N -> cs (A i i) = A i i,
      forall k, (j <= k.+1 < N)%N -> xD k = 0
    & blocks herm j A xD].

Lemma linv_diag j sg A xD S i : linv j sg A xD S -> (j <= i < N)%N -> cs (S i i) = S i i.
Proof. by move=> [_ h _ _ _] Hi; rewrite -h. Qed.

Lemma linv_ext j sg sg' A A' xD S S' : (j <= N)%N -> linv j sg A xD S ->
  (forall i, (i < N)%N -> sg' i = sg i) ->
  (forall r c, (r < N)%N -> (c < j)%N -> (c <= r)%N -> A' r c = A r c) ->
  (forall i k, (j <= i < N)%N -> (j <= k < N)%N -> S' i k = S i k) -> linv j sg' A' xD S'.
Proof.
  move=> Hj [h1 h2 h3 h4 h5] hs hA hS; split=> //.
  - move=> i k Hi Hk; rewrite !hs // h1 // (ldlt_ext (A' := A) (xD' := xD) Hj) //.
    by case: ifP => // /andP [h h']; rewrite hS //; lia.
  - by move=> i k Hi Hk; rewrite !hS //; exact: h2.
  - by move=> i Hi; rewrite hA //; [exact: h3 | lia].
  - move=> k Hk Hx; have [b1 b2 b3] := h5 k Hk Hx; rewrite !hA //; lia.
Qed.

Lemma linv_swap j sg A xD S a b A1 S1 : linv j sg A xD S -> (j <= a < N)%N -> (j <= b < N)%N ->
  (forall r c, (r < N)%N -> (c < j)%N -> (c <= r)%N -> A1 r c = A (tsw a b r) c) ->
  (forall i k, (j <= i < N)%N -> (j <= k < N)%N -> S1 i k = S (tsw a b i) (tsw a b k)) ->
  linv j (fun i => sg (tsw a b i)) A1 xD S1.
Proof.
  move=> [h1 h2 h3 h4 h5] Ha Hb hA hS.
  have tb i : (i < N)%N -> (tsw a b i < N)%N by move=> Hi; apply: tsw_lt; lia.
  have tg i : (j <= i)%N -> (j <= tsw a b i)%N by move=> Hi; apply: tsw_ge; lia.
  have tf i : (i < j)%N -> tsw a b i = i by move=> Hi; apply: tsw_out; lia.
  have hA' r c : (r < j)%N -> (c <= r)%N -> A1 r c = A r c.
    by move=> Hr Hc; rewrite hA ?tf //; lia.
  have hL r c : (r < N)%N -> (c < j)%N -> L A1 r c = L A (tsw a b r) c.
    move=> Hr Hc; case: (ltnP r j) => Hrj.
    - by rewrite tf // /lower; case: ifP => // _; case: ifP => // ?; apply: hA'; lia.
    - by have h := tg _ Hrj; rewrite !lower_gt ?hA //; lia.
  split=> //.
  - move=> i k Hi Hk; rewrite h1 ?tb //; congr (_ + _).
    + apply: eq_big_nat => l Hl; apply: eq_big_nat => m Hm; rewrite !hL //; try lia.
      congr (_ * _ * _); rewrite /pdiag; case: eqP => // E; subst.
      by rewrite hA' //; lia.
    + have e t : (j <= tsw a b t)%N = (j <= t)%N.
        by apply/idP/idP => [h|]; [rewrite -(tswK a b t); exact: tg | exact: tg].
      by rewrite !e; case: ifP => // /andP [? ?]; rewrite hS //; lia.
  - move=> i k Hi Hk; rewrite !hS //; apply: h2; rewrite tb ?tg //; lia.
  - by move=> i Hi; rewrite hA' //; exact: h3.
  - move=> k Hk Hx; have [b1 b2 b3] := h5 k Hk Hx; rewrite !hA' //; lia.
Qed.

Lemma linv_S1 j sg A xD S A' S' : linv j sg A xD S -> (j < N)%N ->
  (forall r c, (r < N)%N -> (c < j)%N -> (c <= r)%N -> A' r c = A r c) ->
  A' j j = S j j ->
  (forall i, (j < i < N)%N -> S i j = A' i j * S j j) ->
  (forall i k, (j < i < N)%N -> (j < k < N)%N -> S' i k = S i k - A' i j * S j j * cs (A' k j)) ->
  linv j.+1 sg A' xD S'.
Proof.
  move=> I Hj hA hd hc hS; have [h1 h2 h3 h4 h5] := I.
  have hdd := linv_diag I (i := j) ltac:(lia).
  have hx0 l : l.+1 = j -> xD l = 0 by move=> E; apply: h4; lia.
  split=> //.
  - move=> i k Hi Hk; rewrite ldlt_S1 // h1 // (ldlt_ext (A' := A) (xD' := xD) (ltnW Hj)) //.
    rewrite -addrA; congr (_ + _); rewrite hd /lower.
    case: (ltngtP i j) => Hij; case: (ltngtP k j) => Hkj; rewrite /= ?mul0r ?cs0 ?mulr0 ?add0r ?addr0 //.
    + rewrite hS //; try lia. by rewrite addrC subrK.
    + rewrite Hkj cs1 mulr1; apply: hc; lia.
    + rewrite Hij (h2 k j); try lia. rewrite (hc k); last by lia. by rewrite csM hdd mul1r mulrC.
    + by rewrite Hij Hkj cs1 mulr1 mul1r.
  - move=> i k Hi Hk; rewrite !hS //; try lia.
    rewrite csB !csM csK hdd -h2; try lia. mring.
  - move=> i Hi; case: (ltngtP i j) => Hij; try lia.
    + by rewrite hA //; [exact: h3 | lia].
    + by rewrite Hij hd.
  - by move=> k Hk; apply: h4; lia.
  - move=> k Hk Hx; have Hk' : (k.+1 < j)%N.
      by case: (ltngtP k.+1 j) => // E; try lia; rewrite hx0 ?eqxx in Hx.
    have [b1 b2 b3] := h5 k Hk' Hx; rewrite !hA //; try lia; split=> //.
    by move=> ?; case: (ltngtP k.+2 j) => E; [exact: b1 | lia | apply: hx0].
Qed.

Lemma linv_S2 j sg A xD S A' xD' S' : linv j sg A xD S -> (j.+1 < N)%N ->
  (forall r c, (r < N)%N -> (c < j)%N -> (c <= r)%N -> A' r c = A r c) ->
  (forall k, k != j -> xD' k = xD k) -> xD' j = S j.+1 j ->
  A' j j = S j j -> A' j.+1 j.+1 = S j.+1 j.+1 -> A' j.+1 j = 0 ->
  S j j * S j.+1 j.+1 - S j.+1 j * cs (S j.+1 j) != 0 ->
  (forall i, (j.+1 < i < N)%N -> S i j = A' i j * S j j + A' i j.+1 * S j.+1 j) ->
  (forall i, (j.+1 < i < N)%N -> S i j.+1 = A' i j * cs (S j.+1 j) + A' i j.+1 * S j.+1 j.+1) ->
  (forall i k, (j.+1 < i < N)%N -> (j.+1 < k < N)%N ->
     S' i k = S i k - (S i j * cs (A' k j) + S i j.+1 * cs (A' k j.+1))) ->
  linv j.+2 sg A' xD' S'.
Proof.
  move=> I Hj hA hx hxj hd hd1 hz hdet hc hc1 hS; have [h1 h2 h3 h4 h5] := I.
  have hdd := linv_diag I (i := j) ltac:(lia).
  have hdd1 := linv_diag I (i := j.+1) ltac:(lia).
  have hx0 l : l.+1 = j -> xD l = 0 by move=> E; apply: h4; lia.
  have hx0' l : l.+1 = j -> xD' l = 0 by move=> E; rewrite hx ?hx0 //; lia.
  have HjN : (j <= N)%N by lia.
  have h01 : S j j.+1 = cs (S j.+1 j) by apply: h2; lia.
  split=> //.
  - move=> i k Hi Hk; rewrite ldlt_S2 // h1 // (ldlt_ext (A' := A) (xD' := xD) HjN) //; last first.
      by move=> l Hl; apply: hx; lia.
    rewrite -!addrA; congr (_ + _); rewrite hd hd1 hxj.
    have Lj0 : L A' j j = 1 by rewrite lower_diag.
    have Lj1 : L A' j j.+1 = 0 by rewrite lower_lt.
    have Lj2 : L A' j.+1 j = 0 by rewrite lower_gt.
    have Lj3 : L A' j.+1 j.+1 = 1 by rewrite lower_diag.
    have Llo a : (a < j)%N -> L A' a j = 0 /\ L A' a j.+1 = 0.
      by move=> Ha; rewrite !lower_lt //; lia.
    have Lhi a : (j.+1 < a)%N -> L A' a j = A' a j /\ L A' a j.+1 = A' a j.+1.
      by move=> Ha; rewrite !lower_gt //; lia.
    case: (ltnP i j) => Hij; first by have [-> ->] := Llo _ Hij; rewrite ifN ?mul0r ?addr0 //; lia.
    case: (ltnP k j) => Hkj.
      by have [-> ->] := Llo _ Hkj; rewrite /= !cs0 !mulr0 ifN ?addr0 ?mulr0 ?addr0 //; lia.
    rewrite [LHS]/=.
    have R a : (j <= a < N)%N ->
        S a j = L A' a j * S j j + L A' a j.+1 * S j.+1 j /\
        S a j.+1 = L A' a j * cs (S j.+1 j) + L A' a j.+1 * S j.+1 j.+1.
      move=> Ha; have [E|[E|E]] : a = j \/ a = j.+1 \/ (j.+1 < a)%N by lia.
      - by subst a; rewrite Lj0 Lj1 !mul0r !mul1r !addr0.
      - by subst a; rewrite Lj2 Lj3 !mul0r !mul1r !add0r.
      - by have [-> ->] := Lhi _ E; split; [apply: hc; lia | apply: hc1; lia].
    have [Ri0 Ri1] := R i ltac:(lia); have [Rk0 Rk1] := R k ltac:(lia).
    set tail := if _ then S' i k else 0.
    suff -> : S i k = S i j * cs (L A' k j) + S i j.+1 * cs (L A' k j.+1) + tail.
      rewrite Ri0 Ri1; mring.
    have [E|[E|E]] : k = j \/ k = j.+1 \/ (j.+1 < k)%N by lia.
    + by subst k; rewrite /tail Lj0 Lj1 cs0 cs1 mulr1 mulr0 addr0 ifN ?addr0 //; lia.
    + by subst k; rewrite /tail Lj2 Lj3 cs0 cs1 mulr1 mulr0 add0r ifN ?addr0 //; lia.
    have [E'|[E'|E']] : i = j \/ i = j.+1 \/ (j.+1 < i)%N by lia.
    + subst i; rewrite /tail ifN ?addr0; last by lia.
      rewrite (h2 k j) ?Rk0 ?h01; try lia. rewrite csD !csM hdd; mring.
    + subst i; rewrite /tail ifN ?addr0; last by lia.
      rewrite (h2 k j.+1) ?Rk1; try lia. rewrite csD !csM csK hdd1; mring.
    + have [-> ->] := Lhi _ E; rewrite /tail ifT; last by lia.
      rewrite hS //; try lia. by rewrite addrC subrK.
  - have Q i : (j.+1 < i < N)%N -> forall k, (j.+1 < k < N)%N ->
      S i j * cs (A' k j) + S i j.+1 * cs (A' k j.+1) =
      A' i j * S j j * cs (A' k j) + A' i j.+1 * S j.+1 j * cs (A' k j) +
      (A' i j * cs (S j.+1 j) * cs (A' k j.+1) + A' i j.+1 * S j.+1 j.+1 * cs (A' k j.+1)).
      move=> Hi k Hk; rewrite hc // hc1 //; mring.
    move=> i k Hi Hk; rewrite !hS //; try lia. rewrite !Q //; try lia.
    rewrite csB !csD !csM !csK hdd hdd1 -(h2 i k); try lia. mring.
  - move=> i Hi; have [E|[E|E]] : i = j \/ i = j.+1 \/ (i < j)%N by lia.
    + by subst i; rewrite hd.
    + by subst i; rewrite hd1.
    + by rewrite hA //; [exact: h3 | lia].
  - by move=> k Hk; rewrite hx; [apply: h4; lia | lia].
  - move=> k Hk Hx; have [E|[E|E]] : k = j \/ k.+1 = j \/ (k.+1 < j)%N by lia.
    + by subst k; rewrite hxj hd hd1; split=> // ?; lia.
    + by rewrite hx0' ?eqxx in Hx.
    + have Hx' : xD k != 0 by rewrite -hx //; lia.
      have [b1 b2 b3] := h5 k E Hx'; rewrite !hA //; try lia.
      rewrite (hx k); last by lia. split=> // _.
      case: (ltngtP k.+2 j) => E'; [|lia|exact: hx0'].
      by rewrite hx; [exact: b1 | lia].
Qed.

(** ** The choice of the pivot *)
Variables (alpha : C) (under : C -> bool).
Hypothesis Halpha : 0 < alpha < 1.
Hypothesis Hunder : forall x, under x -> x = 0.

Definition choice_ok (j : nat) S (c : bk) : Prop :=
  match c with
  | Stay => S j j = 0 -> forall i, (j < i < N)%N -> S i j = 0
  | Bring p => (j < p < N)%N /\ S p p != 0
  | Two p => [/\ (j < p < N)%N, S p j != 0 & S j j * S p p - S p j * cs (S p j) != 0]
  end.

Lemma choice_ext j S S' c : (j < N)%N -> (forall i k, (j <= i < N)%N -> (j <= k < N)%N -> S i k = S' i k) ->
  choice_ok j S c -> choice_ok j S' c.
Proof.
  move=> Hj h; case: c => [|p|p] /=.
  - move=> H E i Hi; rewrite -(h i j); try lia. apply: H => //; rewrite h //; lia.
  - by move=> [Hp H]; split=> //; rewrite -(h p p) //; lia.
  - by move=> [Hp H H']; split=> //; rewrite -?(h p j) -?(h j j) -?(h p p) //; lia.
Qed.

Lemma stay1 j p S : (j <= p < N)%N -> (forall i, (j <= i < N)%N -> `|S i j| <= `|S p j|) ->
  (p == j) || (alpha * `|S p j| <= `|S j j|) -> choice_ok j S Stay.
Proof.
  move=> Hp hm hc E i Hi; apply/eqP; rewrite -normr_le0; apply: le_trans (hm i _) _; first by lia.
  case/orP: hc => [/eqP Ep|]; first by rewrite Ep E normr0.
  rewrite E normr0; case/andP: Halpha => ha _; by rewrite pmulr_rle0.
Qed.

Lemma bkchooseP j p S apq : (j < p < N)%N -> `|S j j| < alpha * `|S p j| -> `|S p j| <= apq ->
  choice_ok j S (bkchoose alpha `|S j j| `|S p j| `|S p p| apq p).
Proof.
  move=> Hp h1 h2; case/andP: (Halpha) => ha ha1.
  have h0 : 0 < `|S p j|.
    have : 0 < alpha * `|S p j| by apply: le_lt_trans h1.
    by rewrite pmulr_rgt0.
  have h0q : 0 < apq by exact: lt_le_trans h2.
  have Rq : apq \is Num.real by exact: gtr0_real.
  have Ra : alpha \is Num.real by exact: gtr0_real.
  rewrite /bkchoose; case: ifP => [h|/negbT h].
  - move=> E; exfalso; move: h; rewrite E normr0 mul0r lt_geF //.
    by rewrite !mulr_gt0.
  - case: ifP => [h'|/negbT h'].
    + split=> //.
      by rewrite -normr_gt0; apply: lt_le_trans h'; rewrite mulr_gt0.
    + split=> //; first by rewrite -normr_gt0.
      apply/negP => /eqP E.
      have E2 : `|S j j| * `|S p p| = `|S p j| * `|S p j|.
        by rewrite -normrM; have/eqP := E; rewrite subr_eq0 => /eqP ->; rewrite normrM norm_cs.
      have h3 : `|S j j| * apq < alpha * `|S p j| * `|S p j|.
        by rewrite real_ltNge //; rewrite ?rpredM ?normr_real.
      have h4 : `|S p p| < alpha * apq by rewrite real_ltNge //; rewrite ?rpredM ?normr_real.
      have : `|S p j| * `|S p j| < `|S p j| * `|S p j|; last by rewrite ltxx.
      rewrite -{1}E2; apply: le_lt_trans (_ : `|S j j| * (alpha * apq) < _).
        by apply: ler_wpmul2l => //; exact: ltW.
      rewrite mulrCA; apply: lt_trans (_ : alpha * (alpha * `|S p j| * `|S p j|) < _).
        by rewrite ltr_pmul2l.
      rewrite -mulrA mulrA -[X in _ < X]mul1r ltr_pmul2r; last by rewrite mulr_gt0.
      by rewrite mulr_ilt1 // ltW.
Qed.

Lemma vmaxP v lo n i : (lo <= i < lo + n)%N -> `|v i| <= vmax v lo n :> C.
Proof. by move=> Hi; have [_ h] := @amaxP _ v lo n ltac:(lia); exact: h. Qed.
Lemma vmax_real (v : fv C) lo n : vmax v lo n \is Num.real. Proof. by rewrite /vmax normr_real. Qed.

Lemma maxoffP v w j p : (j < p)%N -> `|v j| <= maxoff v w j p N :> C.
Proof.
  move=> Hp; rewrite /maxoff.
  have h : `|v j| <= vmax v j (p - j) by apply: vmaxP; lia.
  case: ifP => // _; rewrite /tMAX; case: ifP => // h2; apply: le_trans h _.
  by rewrite real_leNgt ?vmax_real // h2.
Qed.

(** ** The inverse of a 2x2 block *)
Lemma sym2P a b c : cs a = a -> cs b = b -> a * b - c * cs c != 0 ->
  sym2 herm a b c = Ok (b / (a * b - c * cs c), a / (a * b - c * cs c), - c / (a * b - c * cs c), a * b - c * cs c).
Proof.
  move=> ha hb hd; rewrite /sym2.
  set mx := tMAX _ _.
  have hm : mx != 0.
    have Ra (x : C) : tABS2 x \is Num.real by rewrite /tABS2 rpredD // normr_real.
    have Rm (x y : C) : x \is Num.real -> y \is Num.real -> tMAX x y \is Num.real by rewrite /tMAX; case: ifP.
    have P (x : C) : 0 <= tABS2 x by rewrite /tABS2 addr_ge0.
    have M1 (x y : C) : x \is Num.real -> y \is Num.real -> x <= tMAX x y /\ y <= tMAX x y.
      move=> Rx Ry; rewrite /tMAX; case: ifP => h; first by rewrite lexx ltW.
      by rewrite lexx real_leNgt // h.
    apply/negP => /eqP E.
    have [m1 m2] := M1 (tABS2 a) (tMAX (tABS2 b) (tABS2 c)) (Ra a) (Rm _ _ (Ra b) (Ra c)).
    have [m3 m4] := M1 _ _ (Ra b) (Ra c).
    rewrite -/mx E in m1 m2.
    have Z (x : C) : tABS2 x <= 0 -> x = 0.
      by move=> h; apply/eqP; rewrite -tABS2_eq0; rewrite eq_le h P.
    move: hd; rewrite (Z a m1) (Z b (le_trans m3 m2)) (Z c (le_trans m4 m2)).
    by rewrite !mul0r subrr eqxx.
  rewrite (negPf hm).
  have -> : (if herm then 'Re (a / mx) * 'Re (b / mx) - tNORM (c / mx)
             else a / mx * (b / mx) - c / mx * (c / mx)) = (a * b - c * cs c) / mx / mx.
    have Rmx : mx \is Num.real.
      by rewrite /mx /tMAX; repeat case: ifP => _; rewrite /tABS2 rpredD // normr_real.
    move: ha hb; rewrite /LDL.cs; case: herm => [ha hb|_ _]; last by rewrite /=; mfield; apply/eqP.
    have Rx (x : C) : x^* = x -> 'Re (x / mx) = x / mx.
      move=> h; apply/Creal_ReP; apply: rpredM; first by apply/CrealP.
      by rewrite rpredV.
    rewrite !Rx // tNORM_conj rmorphM fmorphV (CrealP Rmx) /=.
    by mfield; apply/eqP.
  have E : (a * b - c * cs c) / mx / mx * mx = (a * b - c * cs c) / mx by rewrite divfK.
  rewrite E mulf_eq0 invr_eq0 (negPf hm) (negPf hd) /=.
  move: hd hm; set dd := _ - _ => hd hm.
  have e x : x / mx / (dd / mx) = x / dd by rewrite invf_div mulrA divfK.
  by rewrite !e invrN mulrN mulNr e divfK.
Qed.

(** ** Exchange of two rows and columns of the stored triangle *)
Lemma symlow_cs A i k : i != k -> symlow herm A i k = cs (symlow herm A k i).
Proof. rewrite /symlow => h; case: (ltngtP i k) => E; rewrite ?csK //. by rewrite E eqxx in h. Qed.
Lemma symlow_le A i k : (k <= i)%N -> symlow herm A i k = A i k.
Proof. by rewrite /symlow => ->. Qed.

Ltac ifs := repeat match goal with
  | |- context [if ?b then _ else _] => first
      [ have -> : b = true by lia | have -> : b = false by lia ]; rewrite /= end.

Lemma symswap_left i1 i2 A r c : (i1 < i2)%N -> (c < i1)%N -> symswap herm N i1 i2 A r c = A (tsw i1 i2 r) c.
Proof.
  move=> H12 Hc; rewrite /symswap.
  have t0 : tsw i1 i2 c = c by apply: tsw_out; lia.
  have [->|Hrc] := eqVneq r c.
  - by rewrite t0; case: herm; ifs; rewrite ?t0.
  - case: (ltnP i2 r) => h1; case: (ltnP r N) => h2; rewrite ?t0; case: herm; ifs => //.
Qed.

Lemma tsw_l a b : tsw a b a = b. Proof. by rewrite /tsw eqxx. Qed.
Lemma tsw_r a b : tsw a b b = a. Proof. by rewrite /tsw eqxx; case: eqP. Qed.


Lemma symswap_low i1 i2 A i k : (i1 < i2 < N)%N -> (i < N)%N -> (k <= i)%N ->
  symswap herm N i1 i2 A i k = symlow herm A (tsw i1 i2 i) (tsw i1 i2 k).
Proof.
  move=> H12 Hi Hki.
  have [Hk|Hk] := ltnP k i1.
    rewrite symswap_left //; last by lia.
    have -> : tsw i1 i2 k = k by apply: tsw_out; lia.
    rewrite symlow_le //; rewrite /tsw; case: eqP => ?; [lia | case: eqP => ?; lia].
  have hto x : x != i1 -> x != i2 -> tsw i1 i2 x = x by move=> *; apply: tsw_out.
  have e1 := tsw_l i1 i2; have e2 := tsw_r i1 i2.
  have [Ei|[Ei|[Ei1 Ei2]]] : i = i1 \/ i = i2 \/ (i != i1) /\ (i != i2) by lia.
  - have Ek : k = i1 by lia. subst i k; rewrite e1 symlow_le // /symswap eqxx e1.
    by case: herm; ifs; rewrite ?e1 ?e2; ifs.
  - subst i; have [Ek|[Ek|[Ek1 Ek2]]] : k = i1 \/ k = i2 \/ (k != i1) /\ (k != i2) by lia.
    + subst k; rewrite e1 e2 /symlow /symswap /LDL.cs.
      case: herm; ifs; rewrite ?e1 ?e2; ifs => //.
    + subst k; rewrite e2 /symlow /symswap /LDL.cs.
      by case: herm; ifs; rewrite ?e1 ?e2; ifs.
    + rewrite e2 (hto k) // /symlow /symswap /LDL.cs.
      by case: herm; ifs; rewrite ?e1 ?e2 ?(hto k) //; ifs.
  - rewrite (hto i) //; have [Ek|[Ek|[Ek1 Ek2]]] : k = i1 \/ k = i2 \/ (k != i1) /\ (k != i2) by lia.
    + subst k; rewrite e1 /symlow /symswap /LDL.cs.
      case: (ltnP i i2) => Hi2; case: herm; ifs; rewrite ?e1 ?e2 ?(hto i) //; ifs => //.
    + subst k; rewrite e2 /symlow /symswap /LDL.cs.
      case: herm; ifs; rewrite ?e1 ?e2 ?(hto i) //; ifs => //.
    + rewrite (hto k) // /symlow /symswap /LDL.cs.
      case: (ltnP i2 i) => Hi2; (have [Eik|Eik] := eqVneq i k; first by subst k; case: herm; ifs; rewrite ?(hto i) //; ifs).
      all: by case: herm; ifs; rewrite ?(hto k) //; ifs.
Qed.

Lemma symswap_sym i1 i2 A i k : (i1 < i2 < N)%N -> (i < N)%N -> (k < N)%N ->
  symlow herm (symswap herm N i1 i2 A) i k = symlow herm A (tsw i1 i2 i) (tsw i1 i2 k).
Proof.
  move=> H12 Hi Hk; case: (leqP k i) => h; first by rewrite symlow_le // symswap_low.
  rewrite symlow_cs; last by lia. rewrite symlow_le ?symswap_low //; try lia.
  have E : tsw i1 i2 i != tsw i1 i2 k.
    by apply/eqP => E; move: h; rewrite -(tswK i1 i2 i) E tswK ltnn.
  by rewrite -symlow_cs.
Qed.

Lemma symswap_frame i1 i2 A i k : (i1 < i2 < N)%N -> ~~ ((i < N)%N && (k <= i)%N) ->
  symswap herm N i1 i2 A i k = A i k.
Proof.
  move=> H12 h.
  have t1 : (N <= i)%N -> tsw i1 i2 i = i by move=> ?; apply: tsw_out; lia.
  have t2 : (i2 < k)%N -> tsw i1 i2 k = k by move=> ?; apply: tsw_out; lia.
  have [E|Ene] := eqVneq i k.
    by subst k; rewrite /symswap eqxx t1; last lia; case: herm; ifs; rewrite ?if_same ?t1 //; lia.
  rewrite /symswap (negPf Ene).
  case: (ltnP k i1) => hk.
    have t3 : tsw i1 i2 i = i by apply: tsw_out; lia.
    by case: (boolP (i2 < i < N)%N) => h2; rewrite ?t2; try lia; case: herm; ifs; rewrite ?t3.
  case: (boolP (i2 < i < N)%N) => h2; first by rewrite t2; [case: herm; ifs | lia].
  by case: herm; ifs.
Qed.

(** ** Non-blocked version *)
Lemma nbsearchP j A : (j < N.-1)%N ->
  (forall i k, (j <= i < N)%N -> (j <= k < N)%N -> symlow herm A k i = cs (symlow herm A i k)) ->
  (forall r c, (nbsearch alpha under herm N j A).2 r c = A r c) /\
  choice_ok j (symlow herm A) (nbsearch alpha under herm N j A).1.
Proof.
  move=> Hj hS.
  have hd i : (j <= i < N)%N -> hre (A i i) = A i i.
    by move=> Hi; apply: hre_id; have := hS i i Hi Hi; rewrite symlow_le.
  rewrite /nbsearch.
  have [] := @amaxP _ (fun i => A i j) j (N - j) ltac:(lia).
  set p := amax _ _ _; rewrite subnKC; last by lia. move=> Hp hm.
  have hm' i : (j <= i < N)%N -> `|symlow herm A i j| <= `|symlow herm A p j|.
    by move=> Hi; rewrite !symlow_le; try lia; exact: hm.
  rewrite hd; last by lia.
  case: ifP => [hu|_].
    have h0 : `|A p j| = 0 by exact: Hunder.
    rewrite eqxx /=; split.
    - move=> r c; rewrite /zerocol; case: ifP => // /andP [/eqP -> Hr].
      by apply/esym/eqP; rewrite -normr_le0 -h0; apply: hm; lia.
    - move=> _ i Hi; rewrite symlow_le; last by lia.
      by apply/eqP; rewrite -normr_le0 -h0; apply: hm; lia.
  case: ifP => [h|/negbT]; first by split=> //; apply: (stay1 Hp hm'); rewrite !symlow_le //; lia.
  rewrite negb_or => /andP [hpj hlt]; split=> //=.
  have Hp' : (j < p < N)%N by lia.
  have e1 : A j j = symlow herm A j j by rewrite symlow_le.
  have e2 : A p j = symlow herm A p j by rewrite symlow_le //; lia.
  have e3 : A p p = symlow herm A p p by rewrite symlow_le.
  rewrite hd; last by lia. rewrite e1 e2 e3; apply: bkchooseP => //.
  - rewrite -e1 -e2 real_ltNge ?rpredM ?normr_real //; case/andP: Halpha => /gtr0_real -> //.
  - by rewrite -e2; apply: (@maxoffP (fun k => A p k)); lia.
Qed.

Lemma seq1P j sg A xD : linv j sg A xD (symlow herm A) -> (j < N)%N ->
  (symlow herm A j j = 0 -> forall i, (j < i < N)%N -> symlow herm A i j = 0) ->
  [/\ linv j.+1 sg (seq1 herm N j A).1 xD (symlow herm (seq1 herm N j A).1),
      (seq1 herm N j A).2 = A j j, forall i, (i <= j)%N -> (seq1 herm N j A).1 i i = A i i
    & forall r c, ~~ ((r < N)%N && (c <= r)%N) -> (seq1 herm N j A).1 r c = A r c].
Proof.
  move=> I Hj hz.
  have hdj : hre (A j j) = A j j.
    by apply: hre_id; have := linv_diag I (i := j) ltac:(lia); rewrite symlow_le.
  rewrite /seq1 hdj.
  case: eqP => [E|/eqP E] /=.
  - split=> //; apply: (linv_S1 I) => //; first by rewrite symlow_le.
    + by move=> i Hi; rewrite [X in _ * X]symlow_le // E mulr0; apply: hz => //; rewrite symlow_le.
    + by move=> i k Hi Hk; rewrite [X in _ * X * _]symlow_le // E mulr0 mul0r subr0.
  - set A1 := divcol _ _ _ _ _; set A2 : fm C := fun r c => _.
    have hjj : A2 j j = A j j by rewrite /A2 ltnn /= /A1 /divcol ltnn andbF.
    have hl r c : (r < N)%N -> (c < j)%N -> A2 r c = A r c.
      move=> Hr Hc; rewrite /A2 /A1 /divcol ifN; last by lia. by rewrite ifN //; lia.
    have hc i : (j < i < N)%N -> A2 i j = A i j / A j j.
      by move=> Hi; rewrite /A2 ltnn /= /A1 /divcol eqxx Hi.
    have h1 i : (j < i < N)%N -> A1 i j = A2 i j by move=> Hi; rewrite /A2 ltnn.
    have hlow r c : (j < c)%N -> (c <= r < N)%N -> A2 r c = A r c - A j j * (A2 r j * cs (A2 c j)).
      move=> Hc Hr; rewrite /A2 Hc Hr /= ltnn /= {1}/A1 /divcol ifN //; lia.
    split=> //.
    + apply: (linv_S1 I) => //; rewrite ?[symlow herm A j j]symlow_le //.
      * by move=> r c Hr Hc _; exact: hl.
      * by move=> i Hi; rewrite !symlow_le ?hc ?divfK //; lia.
      * move=> i k Hi Hk; case: (leqP k i) => h.
          rewrite !symlow_le //; rewrite hlow //; try lia. mring.
        have hne : i != k by lia.
        rewrite (symlow_cs A2 hne) (symlow_cs A hne) !(symlow_le A2, symlow_le A); try lia.
        rewrite hlow; try lia. rewrite csB !csM csK.
        have -> : cs (A j j) = A j j by have := linv_diag I (i := j) ltac:(lia); rewrite symlow_le.
        mring.
    + move=> i Hi; change (A2 i i = A i i); case: (ltngtP i j) => Hij; try lia; last by rewrite Hij hjj.
      by rewrite hl //; lia.
    + move=> r c Hrc; change (A2 r c = A r c); rewrite /A2 ifN; last by lia.
      by rewrite /A1 /divcol ifN //; lia.
Qed.

Lemma cmloopP j x y z A t r c : (j.+2 + t <= N)%N ->
  foldl (cmstep herm N j x y z) A (iota j.+2 t) r c =
  if (j.+2 <= r < j.+2 + t)%N && (c == j) then A r j * x + A r j.+1 * z
  else if (j.+2 <= r < j.+2 + t)%N && (c == j.+1) then A r j * cs z + A r j.+1 * y
  else if (j.+2 <= c < j.+2 + t)%N && (c <= r < N)%N then
    A r c - A r j * cs (A c j * x + A c j.+1 * z) - A r j.+1 * cs (A c j * cs z + A c j.+1 * y)
  else A r c.
Proof.
  elim: t r c => [|t IH] r c Ht; first by rewrite addn0 /=; ifs.
  rewrite -[t.+1]addn1 iotaD foldl_cat /=.
  move: (fun r c => IH r c ltac:(lia)) => {}IH; set G := foldl _ _ _ in IH *.
  set q := (j.+2 + t)%N in IH *.
  have -> : (j.+2 + (t + 1))%N = q.+1 by lia.
  have Hq : (j.+2 <= q < N)%N by lia.
  have G0 a : (q <= a)%N -> G a j = A a j by move=> Ha; rewrite IH; ifs.
  have G1 a : (q <= a)%N -> G a j.+1 = A a j.+1 by move=> Ha; rewrite IH; ifs.
  rewrite /cmstep /updm (G0 q) ?(G1 q); try lia.
  have [Er|Er] := eqVneq r q.
    subst r; rewrite ?eqxx /=.
    have [Ec|[Ec|[Ec1 Ec2]]] : c = j \/ c = j.+1 \/ (c != j) /\ (c != j.+1) by lia.
    - by subst c; ifs.
    - by subst c; ifs.
    - ifs; have [Ec|Ec] := eqVneq c q.
        by subst c; ifs; rewrite ?G0 ?G1 ?IH; try lia; ifs.
      ifs; rewrite IH. case: (boolP ((j.+2 <= c < q)%N)) => h; ifs => //.
  rewrite /=.
  have [Ec|Ec] := eqVneq c q.
    subst c; have [Hr|Hr] := boolP (q <= r < N)%N.
    - by ifs; rewrite G0 ?G1 ?IH; try lia; ifs.
    - by rewrite IH; ifs.
  ifs; rewrite IH.
  have -> : (r < q.+1)%N = (r < q)%N by lia.
  by have -> : (c < q.+1)%N = (c < q)%N by lia.
Qed.

Lemma rmloopP j x y z A t r c : (j.+2 + t <= N)%N ->
  foldl (rmstep herm j x y z) A (rev (iota (N - t) t)) r c =
  if (N - t <= r < N)%N && (c == j) then A r j * x + A r j.+1 * z
  else if (N - t <= r < N)%N && (c == j.+1) then A r j * cs z + A r j.+1 * y
  else if (N - t <= r < N)%N && (j.+2 <= c <= r)%N then
    A r c - (A r j * x + A r j.+1 * z) * cs (A c j) - (A r j * cs z + A r j.+1 * y) * cs (A c j.+1)
  else A r c.
Proof.
  elim: t r c => [|t IH] r c Ht; first by rewrite subn0 /=; ifs.
  have -> : iota (N - t.+1) t.+1 = (N - t.+1)%N :: iota (N - t) t by rewrite /=; congr (_ :: iota _ _); lia.
  rewrite rev_cons -cats1 foldl_cat /=.
  move: (fun r c => IH r c ltac:(lia)) => {}IH; set G := foldl _ _ _ in IH *.
  have Eq' : (N - t = (N - t.+1).+1)%N by lia. rewrite Eq' in IH.
  set q := (N - t.+1)%N in IH *.
  have Hq : (j.+2 <= q < N)%N by lia.
  have G0 a : (a <= q)%N -> G a j = A a j by move=> Ha; rewrite IH; ifs.
  have G1 a : (a <= q)%N -> G a j.+1 = A a j.+1 by move=> Ha; rewrite IH; ifs.
  rewrite /rmstep /updm (G0 q) ?(G1 q); try lia.
  have [Er|Er] := eqVneq r q.
    subst r; rewrite ?eqxx /=.
    have [Ec|[Ec|[Ec1 Ec2]]] : c = j \/ c = j.+1 \/ (c != j) /\ (c != j.+1) by lia.
    - by subst c; ifs.
    - by subst c; ifs.
    - ifs; case: (boolP (j.+2 <= c < q.+1)%N) => h; ifs.
        by rewrite ?G0 ?G1 ?IH; try lia; ifs.
      by rewrite IH; ifs.
  rewrite /= IH.
  by have -> : (q <= r)%N = (q < r)%N by lia.
Qed.

(** ** The 2x2 step *)
Lemma inv2 a b c u v : cs a = a -> cs b = b -> a * b - c * cs c != 0 ->
  let dd := a * b - c * cs c in
  let L0 := u * (b / dd) + v * (- c / dd) in
  let L1 := u * cs (- c / dd) + v * (a / dd) in
  [/\ u = L0 * a + L1 * c & v = L0 * cs c + L1 * b].
Proof.
  move=> ha hb hd dd L0 L1.
  have hdd : cs dd = dd by rewrite /dd csB !csM csK ha hb [cs c * c]mulrC.
  rewrite /L0 /L1 csM csN csV hdd.
  have h : dd / dd = 1 by rewrite divff.
  split.
  - transitivity (u * (dd / dd)); first by rewrite h mulr1.
    rewrite {1}/dd; mring.
  - transitivity (v * (dd / dd)); first by rewrite h mulr1.
    rewrite {1}/dd; mring.
Qed.

Lemma bil2 x y z a b c d : cs x = x -> cs y = y ->
  (a * x + b * z) * cs c + (a * cs z + b * y) * cs d = a * cs (c * x + d * z) + b * cs (c * cs z + d * y).
Proof. by move=> hx hy; rewrite !csD !csM csK hx hy; mring. Qed.

Lemma seq2P iscm j sg A xD : linv j sg A xD (symlow herm A) -> (j.+1 < N)%N ->
  let dd := A j j * A j.+1 j.+1 - A j.+1 j * cs (A j.+1 j) in dd != 0 ->
  exists A', [/\ seq2 herm iscm N j A xD = Ok (A', updv xD j (A j.+1 j), dd),
      linv j.+2 sg A' (updv xD j (A j.+1 j)) (symlow herm A'),
      forall i, (i <= j.+1)%N -> A' i i = A i i
    & forall r c, ~~ ((r < N)%N && (c <= r)%N) -> A' r c = A r c].
Proof.
  move=> I Hj dd hdd; set xD' := updv _ _ _.
  have hd0 : cs (A j j) = A j j by have := linv_diag I (i := j) ltac:(lia); rewrite symlow_le.
  have hd1 : cs (A j.+1 j.+1) = A j.+1 j.+1.
    by have := linv_diag I (i := j.+1) ltac:(lia); rewrite symlow_le.
  rewrite /seq2 -/xD' (sym2P hd0 hd1 hdd) -/dd /=.
  set x := _ / dd; set y := A j j / dd; set z := _ / dd.
  set A1 := updm A j.+1 j 0.
  set G := (if iscm then _ else _).
  have hD : cs dd = dd by rewrite /dd csB !csM csK hd0 hd1 [cs _ * A _ _]mulrC.
  have hx : cs x = x by rewrite /x csM csV hD hd1.
  have hy : cs y = y by rewrite /y csM csV hD hd0.
  pose L0 i := A i j * x + A i j.+1 * z.
  pose L1 i := A i j * cs z + A i j.+1 * y.
  have A1E r c : (r != j.+1) || (c != j) -> A1 r c = A r c.
    by rewrite /A1 /updm; case: ifP => // /andP [/eqP -> /eqP ->]; rewrite !eqxx.
  have hG r c : G r c =
    if (j.+2 <= r < N)%N && (c == j) then L0 r
    else if (j.+2 <= r < N)%N && (c == j.+1) then L1 r
    else if (j.+2 <= c)%N && (c <= r < N)%N then A r c - (A r j * cs (L0 c) + A r j.+1 * cs (L1 c))
    else A1 r c.
    have HN : (j.+2 + (N - j.+2) = N)%N by lia.
    have ha t : (j.+2 <= t)%N -> A1 t j = A t j /\ A1 t j.+1 = A t j.+1.
      by move=> Ht; rewrite !A1E //; lia.
    rewrite {}/G; case: (iscm).
    - rewrite cmloopP HN //.
      case: (boolP (j.+2 <= r < N)%N) => hr /=.
        have [-> ->] := ha r ltac:(lia).
        case: eqP => // _; case: eqP => // _.
        have -> : ((j.+2 <= c < N)%N && (c <= r < N)%N) = ((j.+2 <= c)%N && (c <= r < N)%N) by lia.
        case: ifP => // hc; have [-> ->] := ha c ltac:(lia).
        rewrite A1E; last by lia. by rewrite opprD addrA.
      by rewrite !ifN //; lia.
    - have -> : iota j.+2 (N - j.+2) = iota (N - (N - j.+2)) (N - j.+2) by congr iota; lia.
      rewrite rmloopP ?HN //.
      have -> : (N - (N - j.+2) = j.+2)%N by lia.
      case: (boolP (j.+2 <= r < N)%N) => hr /=.
        have [-> ->] := ha r ltac:(lia).
        case: eqP => // _; case: eqP => // _.
        have -> : (j.+2 <= c <= r)%N = ((j.+2 <= c)%N && (c <= r < N)%N) by lia.
        case: ifP => // hc; have [-> ->] := ha c ltac:(lia).
        rewrite A1E; last by lia.
        by rewrite -addrA -opprD bil2.
      by rewrite !ifN //; lia.
  have HI : linv j.+2 sg G xD' (symlow herm G).
    have Gl r : (j.+2 <= r < N)%N -> G r j = L0 r /\ G r j.+1 = L1 r.
      move=> Hr; split; first by rewrite hG Hr eqxx.
      by rewrite hG Hr eqxx ifN //; lia.
    have Gd r c : (j.+2 <= c)%N -> (c <= r < N)%N ->
        G r c = A r c - (A r j * cs (L0 c) + A r j.+1 * cs (L1 c)).
      by move=> H1 H2; rewrite hG ifN ?[X in _ = X]/=; [rewrite ifN; [rewrite ifT //; lia|lia]|lia].
    apply: (linv_S2 I) => //; rewrite ?symlow_le //; try lia.
    - move=> r c Hr Hc _; rewrite hG !ifN; try lia. by rewrite A1E //; lia.
    - by move=> k Hk; rewrite /xD' /updv (negPf Hk).
    - by rewrite /xD' /updv eqxx.
    - by rewrite hG !ifN ?A1E //; lia.
    - by rewrite hG !ifN ?A1E //; lia.
    - by rewrite hG !ifN; try lia; rewrite /A1 /updm !eqxx.
    - move=> i Hi; rewrite !symlow_le; try lia.
      have [-> ->] := Gl i Hi.
      by have [h _] := inv2 (A i j) (A i j.+1) hd0 hd1 hdd.
    - move=> i Hi; rewrite !symlow_le; try lia.
      have [-> ->] := Gl i Hi.
      by have [_ h] := inv2 (A i j) (A i j.+1) hd0 hd1 hdd.
    - move=> i k Hi Hk.
      have [-> ->] := Gl k Hk.
      rewrite [symlow _ _ i j]symlow_le ?[symlow _ _ i j.+1]symlow_le; try lia.
      case: (leqP k i) => h.
        by rewrite !symlow_le // Gd //; lia.
      have hne : i != k by lia.
      rewrite (symlow_cs G hne) (symlow_cs A hne) !(symlow_le G, symlow_le A); try lia.
      rewrite Gd; try lia.
      rewrite csB; congr (_ - _).
      rewrite -[RHS](bil2 z (A i j) (A i j.+1) (A k j) (A k j.+1) hx hy) -/(L0 i) -/(L1 i).
      by move: (L0 i) (L1 i) => u v; rewrite csD !csM !csK; mring.
  set A' : fm C := if herm then _ else _.
  have hA' r c : A' r c = G r c.
    rewrite /A'; case E : herm => //; case: ifP => // /andP [/eqP <- Hr].
    have := linv_diag HI (i := r) ltac:(lia); rewrite symlow_le // /LDL.cs E => /CrealP h.
    by apply/Creal_ReP.
  exists A'; split=> //.
  - apply: (linv_ext _ HI) => // i k Hi Hk; rewrite /symlow !hA'.
    by [].
  - move=> i Hi; rewrite hA' hG !ifN; try lia. by rewrite A1E //; lia.
  - move=> r c Hrc; rewrite hA' hG !ifN; try lia. by rewrite A1E //; lia.
Qed.

(** ** The determinant *)
Lemma pdiag_det1 j A xD A' xD' : (forall l, l.+1 = j -> xD' l = 0) ->
  (forall i, (i < j)%N -> A' i i = A i i) -> (forall k, (k.+1 < j)%N -> xD' k = xD k) ->
  (forall l k, (l < j)%N -> (k < j)%N -> pdiag herm A' xD' l k = pdiag herm A xD l k) /\
  (forall l k, (l < j)%N -> (j <= k)%N -> pdiag herm A' xD' l k = 0).
Proof.
  move=> h0 hA hx; split=> l k Hl Hk; rewrite /pdiag.
  - case: eqP => [E|_]; first by exact: hA.
    case: eqP => [E|_]; first by rewrite hx //; lia.
    by case: eqP => [E|_] //; rewrite hx //; lia.
  - case: eqP => [E|_]; first by lia.
    case: eqP => [E|_]; first by lia.
    by case: eqP => [E|_] //; rewrite h0 ?cs0 //; lia.
Qed.

Lemma det_S1 j A xD A' xD' : (forall l, l.+1 = j -> xD' l = 0) ->
  (forall i, (i < j)%N -> A' i i = A i i) -> (forall k, (k.+1 < j)%N -> xD' k = xD k) ->
  \det (mx j.+1 j.+1 (pdiag herm A' xD')) = \det (mx j j (pdiag herm A xD)) * A' j j.
Proof.
  move=> h0 hA hx; have [e1 e2] := pdiag_det1 h0 hA hx.
  have := @det_split _ j 1 (pdiag herm A' xD') ltac:(by move=> l k Hl Hk; apply: e2 => //; lia).
  rewrite addn1 => ->; rewrite (mx_ext e1) det_mx11 mxE /subm /= addn0; congr (_ * _).
  by rewrite /pdiag eqxx.
Qed.

Lemma det_S2 j A xD A' xD' : (forall l, l.+1 = j -> xD' l = 0) ->
  (forall i, (i < j)%N -> A' i i = A i i) -> (forall k, (k.+1 < j)%N -> xD' k = xD k) ->
  \det (mx j.+2 j.+2 (pdiag herm A' xD')) =
  \det (mx j j (pdiag herm A xD)) * (A' j j * A' j.+1 j.+1 - xD' j * cs (xD' j)).
Proof.
  move=> h0 hA hx; have [e1 e2] := pdiag_det1 h0 hA hx.
  have := @det_split _ j 2 (pdiag herm A' xD') ltac:(by move=> l k Hl Hk; apply: e2 => //; lia).
  rewrite addn2 => ->; rewrite (mx_ext e1); congr (_ * _).
  rewrite (expand_det_row _ ord0) !big_ord_recl big_ord0 addr0 /cofactor !det_mx11 !mxE /= /subm !addn0 !addn1.
  rewrite expr0 expr1 mul1r !pdiag_d pdiag_u pdiag_l; mring.
Qed.

(** ** The state between turns *)
Variable det0 : C.
Definition sinv (j : nat) (s : lst C) S : Prop :=
  [/\ linv j (psig (lp s) 0 j) (la s) (lx s) S,
      forall k, (k < j)%N -> (k <= lp s k < N)%N
    & ld s = det0 * \det (mx j j (pdiag herm (la s) (lx s)))].
(** What lies outside the lower triangle, the subdiagonal and the permutation is kept. *)
Definition sframe (s s' : lst C) : Prop :=
  [/\ forall r c, ~~ ((r < N)%N && (c <= r)%N) -> la s' r c = la s r c,
      forall k, (N <= k.+1)%N -> lx s' k = lx s k & forall k, (N <= k)%N -> lp s' k = lp s k].

Lemma sframe_trans s1 s2 s3 : sframe s1 s2 -> sframe s2 s3 -> sframe s1 s3.
Proof.
  move=> [a1 a2 a3] [b1 b2 b3]; split=> *; [rewrite b1 ?a1|rewrite b2 ?a2|rewrite b3 ?a3] => //.
Qed.

Lemma sinv_1 j s S p A' S' dj : (j <= p < N)%N -> sinv j s S ->
  linv j.+1 (fun i => psig (lp s) 0 j (tsw j p i)) A' (lx s) S' ->
  (forall i, (i < j)%N -> A' i i = la s i i) -> dj = A' j j ->
  sinv j.+1 (Lst A' (lx s) (updv (lp s) j p) (ld s * dj)) S'.
Proof.
  move=> Hp [I hP hd] I' hA ->; split=> /=.
  - apply: (linv_ext _ I') => // [|i Hi]; first by lia.
    rewrite psigS add0n {2}/updv eqxx; apply: psig_ext => k Hk; rewrite /updv ifN //; lia.
  - by move=> k Hk; rewrite /updv; case: eqP => [->//|/eqP Hk']; apply: hP; lia.
  - rewrite hd (det_S1 (A := la s) (xD := lx s)) ?mulrA //.
    by move=> l El; have [_ _ _ h _] := I; apply: h; lia.
Qed.

Lemma sinv_2 j s S p A' xD' S' dd : (j.+1 <= p < N)%N -> sinv j s S ->
  linv j.+2 (fun i => psig (lp s) 0 j (tsw j.+1 p i)) A' xD' S' ->
  (forall i, (i < j)%N -> A' i i = la s i i) -> (forall k, k != j -> xD' k = lx s k) ->
  dd = A' j j * A' j.+1 j.+1 - xD' j * cs (xD' j) ->
  sinv j.+2 (Lst A' xD' (updv (updv (lp s) j j) j.+1 p) (ld s * dd)) S'.
Proof.
  move=> Hp [I hP hd] I' hA hx ->; split=> /=.
  - apply: (linv_ext _ I') => // [|i Hi]; first by lia.
    have e1 : updv (updv (lp s) j j) j.+1 p j.+1 = p by rewrite /updv eqxx.
    have e2 : updv (updv (lp s) j j) j.+1 p j = j by rewrite /updv ifN ?eqxx //; lia.
    rewrite !psigS !add0n e1 e2 tsw_same.
    apply: psig_ext => k Hk; rewrite /updv !ifN //; lia.
  - move=> k Hk; rewrite /updv; case: eqP => [->|/eqP Hk']; first by lia.
    case: eqP => [->|/eqP Hk2]; first by lia. by apply: hP; lia.
  - rewrite hd (det_S2 (A := la s) (xD := lx s)) ?mulrA //.
    + by move=> l El; have [_ _ _ h _] := I; rewrite hx; [apply: h; lia | lia].
    + by move=> k Hk; apply: hx; lia.
Qed.

Theorem NonBlockLDLP iscm fuel j s : (N <= fuel + j)%N -> (j <= N)%N -> sinv j s (symlow herm (la s)) ->
  exists s', [/\ NonBlockLDL alpha under fuel herm iscm N j s = Ok s', sinv N s' (symlow herm (la s')) & sframe s s'].
Proof.
  elim: fuel j s => [|f IH] j s Hf Hj I /=.
    have E : j = N by lia. by subst j; rewrite leqnn; exists s; split=> //; split.
  case: leqP => HjN; first by have E : j = N by [lia|]; subst j; exists s; split=> //; split.
  have [I0 _ _] := I.
  have [_ hsym _ _ _] := I0.
  set R := (if j == N.-1 then _ else _).
  have [hR2 hR1] : (forall r c, R.2 r c = la s r c) /\ choice_ok j (symlow herm (la s)) R.1.
    rewrite /R; case: eqP => [E|/eqP E] /=; first by split=> // _ i; lia.
    by apply: nbsearchP => //; lia.
  case: R hR1 hR2 => c A /= hc hA.
  have I1 : linv j (psig (lp s) 0 j) A (lx s) (symlow herm A).
    by apply: (linv_ext _ I0) => // i k Hi Hk; rewrite /symlow !hA.
  have {}hc : choice_ok j (symlow herm A) c.
    by apply: (choice_ext _ _ hc) => // i k Hi Hk; rewrite /symlow !hA.
  (* one 1x1 step after the exchange of j and p *)
  have step1 A1 p : (j <= p < N)%N -> linv j (fun i => psig (lp s) 0 j (tsw j p i)) A1 (lx s) (symlow herm A1) ->
      (symlow herm A1 j j = 0 -> forall i, (j < i < N)%N -> symlow herm A1 i j = 0) ->
      (forall i, (i < j)%N -> A1 i i = la s i i) ->
      (forall r c, ~~ ((r < N)%N && (c <= r)%N) -> A1 r c = la s r c) ->
      exists s', [/\ (let '(A, dj) := seq1 herm N j A1 in
         NonBlockLDL alpha under f herm iscm N j.+1 (Lst A (lx s) (updv (lp s) j p) (ld s * dj))) = Ok s',
         sinv N s' (symlow herm (la s')) & sframe s s'].
    move=> Hp I2 hz hd hfr; have := seq1P I2 HjN hz; case: (seq1 _ _ _ _) => A2 dj /= [I3 Edj hd2 hfr2].
    have Hsi := @sinv_1 j s _ p A2 _ dj Hp I I3 ltac:(by move=> i Hi; rewrite hd2 ?hd //; lia)
                 ltac:(by rewrite Edj hd2).
    have [s' [-> Is' Fs']] := IH j.+1 _ ltac:(lia) HjN Hsi.
    exists s'; split=> //; apply: sframe_trans Fs'; split=> //= [r c1 Hrc|k Hk].
      by rewrite hfr2 // hfr.
    by rewrite /updv ifN //; lia.
  have step2 A1 p : (j.+1 <= p < N)%N -> linv j (fun i => psig (lp s) 0 j (tsw j.+1 p i)) A1 (lx s) (symlow herm A1) ->
      A1 j j * A1 j.+1 j.+1 - A1 j.+1 j * cs (A1 j.+1 j) != 0 ->
      (forall i, (i < j)%N -> A1 i i = la s i i) ->
      (forall r c, ~~ ((r < N)%N && (c <= r)%N) -> A1 r c = la s r c) ->
      exists s', [/\ (do R <- seq2 herm iscm N j A1 (lx s);
        NonBlockLDL alpha under f herm iscm N j.+2 (Lst R.1.1 R.1.2 (updv (updv (lp s) j j) j.+1 p) (ld s * R.2))) = Ok s',
         sinv N s' (symlow herm (la s')) & sframe s s'].
    move=> Hp I2 hz hd hfr; have [A2 [-> I3 hd2 hfr2]] := seq2P iscm I2 ltac:(lia) hz.
    rewrite /bindO /=.
    have Hsi := @sinv_2 j s _ p A2 _ _ (A1 j j * A1 j.+1 j.+1 - A1 j.+1 j * cs (A1 j.+1 j)) Hp I I3 ltac:(by move=> i Hi; rewrite hd2 ?hd //; lia)
      ltac:(by move=> k Hk; rewrite /updv (negPf Hk))
      ltac:(by rewrite !hd2 //; rewrite /updv eqxx).
    have [s' [-> Is' Fs']] := IH j.+2 _ ltac:(lia) ltac:(lia) Hsi.
    exists s'; split=> //; apply: sframe_trans Fs'; split=> //= [r c' Hrc|k Hk|k Hk].
    - by rewrite hfr2 // hfr.
    - by rewrite /updv ifN //; lia.
    - by rewrite /updv !ifN //; lia.
  case: c hc => [|p|p] /= hc.
  - apply: (step1 A j) => //; first by lia.
    by apply: (linv_ext _ I1) => // i Hi; rewrite tsw_same.
  - have [Hp hpp] := hc.
    apply: (step1 _ p) => //; first by lia.
    + apply: (linv_swap I1); try lia.
      * by move=> r c Hr Hc Hcr; rewrite symswap_left //; lia.
      * by move=> i k Hi Hk; rewrite symswap_sym //; lia.
    + by rewrite symswap_sym ?tsw_l //; try lia; move=> E; rewrite E eqxx in hpp.
    + by move=> i Hi; rewrite symswap_left ?tsw_out //; lia.
    + by move=> r c Hrc; rewrite symswap_frame //; lia.
  - have [Hp hpj hpp] := hc.
    apply: (step2 _ p).
    + by lia.
    + case: eqP => /= [->|/eqP Hpj].
        by apply: (linv_ext _ I1) => // i Hi; rewrite tsw_same.
      apply: (linv_swap I1); try lia.
      * by move=> r c Hr Hc Hcr; rewrite symswap_left //; lia.
      * by move=> i k Hi Hk; rewrite symswap_sym //; lia.
    + case: (eqVneq p j.+1) => /= [E|Hpj].
        by move: hpp; rewrite E !symlow_le.
      have Hs i k : (k <= i)%N -> (i < N)%N -> symswap herm N j.+1 p A i k = symlow herm A (tsw j.+1 p i) (tsw j.+1 p k).
        by move=> *; rewrite symswap_low //; lia.
      have tj : tsw j.+1 p j = j by apply: tsw_out; lia.
      by rewrite !Hs; try lia; rewrite !tsw_l tj.
    + by move=> i Hi; case: (eqVneq p j.+1) => //= Hpj; rewrite symswap_left ?tsw_out ?hA //; lia.
    + by move=> r c Hrc; case: (eqVneq p j.+1) => //= Hpj; rewrite symswap_frame ?hA //; lia.
Qed.

(** ** The blocked version *)
Definition TT (j1 j : nat) A (LD : fm C) (i k : nat) : C :=
  \sum_(0 <= t < j - j1) A i (j1 + t)%N * cs (LD k t).
Definition rem (j1 j : nat) A (LD : fm C) : fm C := fun i k => symlow herm A i k - TT j1 j A LD i k.

Lemma TT_S j1 j A LD i k : (j1 <= j)%N -> TT j1 j.+1 A LD i k = TT j1 j A LD i k + A i j * cs (LD k (j - j1)%N).
Proof. by move=> H; rewrite /TT subSn // big_nat_recr //= subnKC. Qed.

Lemma TT_ext j1 j A A' LD LD' i k i' k' :
  (forall t, (t < j - j1)%N -> A' i' (j1 + t)%N = A i (j1 + t)%N) ->
  (forall t, (t < j - j1)%N -> LD' k' t = LD k t) -> TT j1 j A' LD' i' k' = TT j1 j A LD i k.
Proof.
  move=> hA hL; rewrite /TT big_nat_cond [RHS]big_nat_cond; apply: eq_bigr => t /andP [Ht _].
  by rewrite hA ?hL.
Qed.

Lemma bseq1P j1 j sg A xD S LD : (j1 <= j < N)%N -> linv j sg A xD S ->
  (forall r, (j <= r < N)%N -> LD r (j - j1)%N = S r j) ->
  (forall i k, (j < i < N)%N -> (j < k < N)%N -> S i k = rem j1 j A LD i k) ->
  (S j j = 0 -> forall i, (j < i < N)%N -> S i j = 0) ->
  let R := bseq1 herm N j (j - j1) A LD in
  [/\ linv j.+1 sg R.1 xD (rem j1 j.+1 R.1 LD), R.2 = R.1 j j, forall i, (i < j)%N -> R.1 i i = A i i
    & forall r c, ~~ ((r < N)%N && (c <= r)%N) -> R.1 r c = A r c].
Proof.
  move=> Hj I hL hS hz.
  have hd := linv_diag I (i := j) ltac:(lia).
  rewrite /bseq1.
  set A1 : fm C := fun r c => if _ then _ else _.
  have E1 : A1 j j = S j j by rewrite /A1 eqxx ifT ?hL //; lia.
  set A2 := updm A1 j j _.
  have E2 r c : A2 r c = A1 r c.
    rewrite /A2 /updm; case: ifP => // /andP [/eqP Er /eqP Ec].
    by rewrite Er Ec -[X in hre X]/(A1 j j) E1 hre_id.
  rewrite E2 E1 (hre_id hd).
  set R := (_, _).
  have hR r c : R.1 r c = if (c == j) && (j <= r < N)%N then
       (if (S j j == 0) || (r == j) then S r j else S r j / S j j) else A r c.
    rewrite /R /=; case: eqP => [E|/eqP E] /=.
      by rewrite E2 /A1; case: ifP => // /andP [_ Hr]; rewrite hL.
    rewrite /divcol E2; case: (boolP (_ && _)) => h.
      have [h1 h2] : c == j /\ (j < r < N)%N by case/andP: h => h1 h2; split.
      rewrite /A1 h1 ifT; last by lia. by rewrite /= ifT ?ifN ?hL //; lia.
    rewrite /A1; case: ifP => // /andP [h1 h2].
    have -> : r == j by move: h; rewrite h1 /=; lia.
    by rewrite ?orbT hL.
  have h0 r c : c != j -> R.1 r c = A r c by move=> h; rewrite hR (negPf h).
  have hj : R.1 j j = S j j by rewrite hR !eqxx orbT ifT //; lia.
  have hc i : (j < i < N)%N -> S i j = R.1 i j * S j j.
    move=> Hi; rewrite hR eqxx ifT; last by lia.
    case: eqP => [E|/eqP E] /=; first by rewrite E mulr0; exact: hz.
    by rewrite ifN ?divfK //; lia.
  split.
  - apply: (linv_S1 I) => //.
    + by lia.
    + by move=> r c Hr Hc _; rewrite h0 //; lia.
    + move=> i k Hi Hk; rewrite hS // /rem TT_S; last by lia.
      rewrite hL; last by lia. rewrite hc // csM hd opprD addrA; congr (_ - _ - _).
      * by rewrite /symlow !h0 //; lia.
      * by apply: TT_ext => // t Ht; rewrite h0 //; lia.
      * by rewrite -mulrA; congr (_ * _); rewrite mulrC.
  - by rewrite hj /R.
  - by move=> i Hi; rewrite h0 //; lia.
  - move=> r c Hrc; rewrite hR ifN //; apply: contra Hrc => /andP [/eqP -> Hr]; lia.
Qed.

Lemma bseq2P j1 j sg A xD S LD : (j1 <= j)%N -> (j.+1 < N)%N -> linv j sg A xD S ->
  (forall r, (j <= r < N)%N -> LD r (j - j1)%N = S r j) ->
  (forall r, (j <= r < N)%N -> LD r (j - j1).+1 = S r j.+1) ->
  (forall i k, (j.+1 < i < N)%N -> (j.+1 < k < N)%N -> S i k = rem j1 j A LD i k) ->
  let dd := S j j * S j.+1 j.+1 - S j.+1 j * cs (S j.+1 j) in dd != 0 ->
  exists A', [/\ bseq2 herm N j (j - j1) A LD xD = Ok (A', updv xD j (S j.+1 j), dd),
      linv j.+2 sg A' (updv xD j (S j.+1 j)) (rem j1 j.+2 A' LD),
      A' j j = S j j /\ A' j.+1 j.+1 = S j.+1 j.+1, forall i, (i < j)%N -> A' i i = A i i
    & forall r c, ~~ ((r < N)%N && (c <= r)%N) -> A' r c = A r c].
Proof.
  move=> Hj1 Hj I hL hL1 hS dd hdd; set xD' := updv _ _ _.
  have hd0 := linv_diag I (i := j) ltac:(lia).
  have hd1 := linv_diag I (i := j.+1) ltac:(lia).
  have jn : (j == j.+1) = false by lia.
  have jn' : (j.+1 == j) = false by lia.
  rewrite /bseq2.
  have e1 : hre (LD j (j - j1)%N) = S j j by rewrite hL ?hre_id //; lia.
  have e2 : hre (LD j.+1 (j - j1).+1) = S j.+1 j.+1 by rewrite hL1 ?hre_id //; lia.
  have e3 : LD j.+1 (j - j1)%N = S j.+1 j by rewrite hL //; lia.
  rewrite e1 e2 e3 -/xD'.
  set A1 := updm A j j _; set A2 := updm A1 j.+1 j.+1 _; set A3 := updm A2 j.+1 j _.
  have e4 : A1 j j = S j j by rewrite /A1 /updm !eqxx.
  have e5 : A2 j.+1 j.+1 = S j.+1 j.+1 by rewrite /A2 /updm !eqxx.
  rewrite e4 e5 (sym2P hd0 hd1 hdd) -/dd /bindO.
  set x := _ / dd; set y := S j j / dd; set z := _ / dd.
  have hD : cs dd = dd by rewrite /dd csB !csM csK hd0 hd1 [cs _ * S _ _]mulrC.
  have hx : cs x = x by rewrite /x csM csV hD hd1.
  have hy : cs y = y by rewrite /y csM csV hD hd0.
  set A' : fm C := fun r c => if _ then _ else _.
  pose L0 i := S i j * x + S i j.+1 * z.
  pose L1 i := S i j * cs z + S i j.+1 * y.
  have Gl r : (j.+2 <= r < N)%N -> A' r j = L0 r /\ A' r j.+1 = L1 r.
    by move=> Hr; rewrite /A' Hr !eqxx jn' hL ?hL1 //; lia.
  have h0 r c : c != j -> c != j.+1 -> A' r c = A r c.
    by move=> /negPf h1 /negPf h2; rewrite /A' /A3 /A2 /A1 /updm h1 h2 !andbF if_same.
  have hlo r c : (r < j.+2)%N -> A' r c = A3 r c by move=> Hr; rewrite /A' ifN //; lia.
  have A3j : A' j j = S j j by rewrite hlo // /A3 /updm eqxx jn /= /A2 /updm jn.
  have A3j1 : A' j.+1 j.+1 = S j.+1 j.+1 by rewrite hlo // /A3 /updm jn' andbF.
  have A3z : A' j.+1 j = 0 by rewrite hlo // /A3 /updm !eqxx.
  exists A'; split=> //.
  - apply: (linv_S2 I) => //.
    + by move=> r c Hr Hc _; rewrite h0 //; lia.
    + by move=> k Hk; rewrite /xD' /updv (negPf Hk).
    + by rewrite /xD' /updv eqxx.
    + move=> i Hi; have [-> ->] := Gl i Hi.
      by have [h _] := inv2 (S i j) (S i j.+1) hd0 hd1 hdd.
    + move=> i Hi; have [-> ->] := Gl i Hi.
      by have [_ h] := inv2 (S i j) (S i j.+1) hd0 hd1 hdd.
    + move=> i k Hi Hk; rewrite hS // /rem !TT_S; try lia.
      have [-> ->] := Gl k Hk; have [-> ->] := Gl i Hi.
      have -> : (j.+1 - j1 = (j - j1).+1)%N by lia.
      rewrite hL ?hL1; try lia.
      rewrite -[in RHS](bil2 z (S i j) (S i j.+1) (S k j) (S k j.+1) hx hy) -/(L0 i) -/(L1 i).
      rewrite -addrA opprD addrA; congr (_ - _ - _).
      * by rewrite /symlow !h0 //; lia.
      * by apply: TT_ext => // t Ht; rewrite h0 //; lia.
  - by move=> i Hi; rewrite h0 //; lia.
  - move=> r c Hrc; case: (boolP (j.+2 <= r < N)%N) => Hr; first by apply: h0; lia.
    by rewrite /A' (negPf Hr) /A3 /A2 /A1 /updm !ifN //; lia.
Qed.

Lemma ldcolP j1 j c k A LD r : (j <= r < N)%N -> ldcol herm N j1 j c k A LD r k = rem j1 j A LD r c.
Proof. by move=> Hr; rewrite /ldcol eqxx Hr /= /rem /symlow /TT; case: (ltnP r c). Qed.
Lemma ldcol_ne j1 j c k A LD r q : q != k -> ldcol herm N j1 j c k A LD r q = LD r q.
Proof. by move=> /negPf h; rewrite /ldcol h. Qed.

Lemma bsearchP j1 j A LD : (j1 <= j < N)%N ->
  (forall i k, (j <= i < N)%N -> (j <= k < N)%N -> rem j1 j A LD k i = cs (rem j1 j A LD i k)) ->
  let R := bsearch alpha under herm N j1 j A LD in
  [/\ choice_ok j (rem j1 j A LD) R.1,
      forall r, (j <= r < N)%N -> R.2 r (j - j1)%N = rem j1 j A LD r j,
      forall p, R.1 = Bring p \/ R.1 = Two p -> forall r, (j <= r < N)%N -> R.2 r (j - j1).+1 = rem j1 j A LD r p
    & forall r t, (t < j - j1)%N -> R.2 r t = LD r t].
Proof.
  move=> Hj; set S := rem j1 j A LD => hS.
  have hd i : (j <= i < N)%N -> hre (S i i) = S i i by move=> Hi; apply: hre_id; rewrite -hS.
  rewrite /bsearch; set jj := (j - j1)%N; set LD1 := ldcol _ _ _ _ j jj _ _.
  have E1 r : (j <= r < N)%N -> LD1 r jj = S r j by move=> Hr; rewrite /LD1 ldcolP.
  have E0 r t : (t < jj)%N -> LD1 r t = LD r t by move=> Ht; rewrite /LD1 ldcol_ne //; lia.
  case: eqP => [Ej|_].
    split=> //=; first by move=> _ i; lia.
    by move=> p [].
  have [] := @amaxP _ (fun i => LD1 i jj) j (N - j) ltac:(lia).
  set p := amax _ _ _; rewrite subnKC; last by lia. move=> Hp hm.
  have hm' i : (j <= i < N)%N -> `|S i j| <= `|S p j| by move=> Hi; rewrite -!E1 //; exact: hm.
  rewrite !E1 //; last by lia. rewrite hd; last by lia.
  case: ifP => [hu|_].
    have h0 : `|S p j| = 0 by exact: Hunder.
    have hz i : (j <= i < N)%N -> S i j = 0 by move=> Hi; apply/eqP; rewrite -normr_le0 -h0; exact: hm'.
    rewrite eqxx /=; split=> //.
    - by move=> _ i Hi; apply: hz; lia.
    - by move=> r Hr; rewrite /zerocol eqxx Hr hz.
    - by move=> q [].
    - by move=> r t Ht; rewrite /zerocol ifN ?E0 //; lia.
  case: ifP => [h|/negbT].
    by split=> //=; [exact: (stay1 Hp hm' h) | move=> q []].
  rewrite negb_or => /andP [hpj hlt].
  have Hp' : (j < p < N)%N by lia.
  set LD2 := ldcol _ _ _ _ _ _ _ LD1.
  have E2 r : (j <= r < N)%N -> LD2 r jj.+1 = S r p.
    move=> Hr; rewrite /LD2 ldcolP // /S /rem; congr (_ - _); apply: TT_ext => // t Ht.
    exact: E0.
  have E3 r t : (t <= jj)%N -> LD2 r t = LD1 r t by move=> Ht; rewrite /LD2 ldcol_ne //; lia.
  rewrite E2 ?hd; try lia.
  split=> /=.
  - apply: bkchooseP => //.
    + rewrite real_ltNge ?rpredM ?normr_real //; case/andP: Halpha => /gtr0_real -> //.
    + have -> : `|S p j| = `|S j p| by rewrite (hS j p) ?norm_cs //; lia.
      rewrite -E2; last by lia. by apply: (@maxoffP (fun i => LD2 i jj.+1)); lia.
  - by move=> r Hr; rewrite E3 ?E1.
  - move=> q hq r Hr; have -> : q = p.
      move: hq; rewrite /bkchoose; case: ifP => _; first by case. by case: ifP => _; case=> // -[].
    exact: E2.
  - by move=> r t Ht; rewrite E3 ?E0 //; lia.
Qed.

Lemma partswap_left j a p A r c : (c < j)%N -> (j <= a < p)%N -> partswap herm N j a p A r c = A (tsw a p r) c.
Proof.
  move=> Hc Ha; rewrite /partswap Hc /updm !ifN //; lia.
Qed.

Lemma partswap_sym j a p A i k : (j <= a < p)%N -> (p < N)%N -> (a < i < N)%N -> (a < k < N)%N ->
  symlow herm (partswap herm N j a p A) i k = symlow herm A (tsw a p i) (tsw a p k).
Proof.
  move=> Ha Hp.
  have low i0 k0 : (a < i0 < N)%N -> (a < k0 <= i0)%N ->
      partswap herm N j a p A i0 k0 = symlow herm A (tsw a p i0) (tsw a p k0).
    move=> Hi Hk; rewrite /partswap [(k0 < j)%N]ltnNge (_ : (j <= k0)%N) //=; last by lia.
    have ti : i0 != p -> tsw a p i0 = i0 by move=> h; apply: tsw_out; lia.
    have tk : k0 != p -> tsw a p k0 = k0 by move=> h; apply: tsw_out; lia.
    case: (eqVneq k0 p) => [Ek|Ek] /=.
    - subst k0; rewrite tsw_r; case: (eqVneq i0 p) => [Ei|Ei].
        subst i0; rewrite tsw_r symlow_le // ifN; last by lia. rewrite ifN; last by lia.
        by rewrite /updm !eqxx.
      rewrite ifT; last by lia.
      by rewrite /updm ifN ?ti ?symlow_le //; lia.
    - rewrite tk //; case: (eqVneq i0 p) => [Ei|Ei] /=.
        subst i0; rewrite tsw_r ifT; last by lia.
        rewrite /updm ifN; last by lia.
        by rewrite /symlow ifN //; lia.
      by rewrite ti // symlow_le; try lia; rewrite /updm ifN //; lia.
  move=> Hi Hk; case: (leqP k i) => h; first by rewrite symlow_le // low //; lia.
  rewrite symlow_cs; last by lia. rewrite symlow_le ?low //; try lia.
  have E : tsw a p i != tsw a p k.
    by apply/eqP => E; move: h; rewrite -(tswK a p i) E tswK ltnn.
  by rewrite -symlow_cs.
Qed.

Lemma partswap_frame j a p A r c : (j <= a < p)%N -> (p < N)%N -> ~~ ((r < N)%N && (c <= r)%N) ->
  partswap herm N j a p A r c = A r c.
Proof.
  move=> Ha Hp h; rewrite /partswap.
  case: ifP => Hc.
    rewrite tsw_out /updm; try lia. by rewrite !ifN //; lia.
  by rewrite /updm !ifN //; lia.
Qed.

Definition bsinv (j1 j : nat) (LD : fm C) (s : lst C) : Prop := sinv j s (rem j1 j (la s) LD).

Arguments bseq1 : simpl never.
Arguments bseq2 : simpl never.
Arguments bsearch : simpl never.
Lemma blockcolsP fuel j1 j2 j LD s : (N <= fuel + j)%N -> (j1 <= j <= N)%N -> (j2 < N)%N -> bsinv j1 j LD s ->
  exists j' LD' s', [/\ blockcols alpha under fuel herm N j1 j2 j LD s = Ok (j', LD', s'), (j2 <= j' <= N)%N,
     (j <= j')%N, bsinv j1 j' LD' s' & sframe s s'].
Proof.
  elim: fuel j LD s => [|f IH] j LD s Hf Hj Hj2 I /=.
    by rewrite ifT; last lia; exists j, LD, s; split=> //; try lia; split.
  case: (leqP j2 j) => Hjj; first by exists j, LD, s; split=> //; try lia; split.
  have HjN : (j < N)%N by lia.
  have [I0 _ _] := I.
  have [_ hsym _ _ _] := I0.
  have := @bsearchP j1 j (la s) LD ltac:(lia) hsym.
  case: (bsearch _ _ _ _ _ _ _ _) => c LD1 /= [hc h1 h2 h3].
  set S := rem j1 j (la s) LD in I0 hsym hc h1 h2.
  set jj := (j - j1)%N in h1 h2 h3.
  have TT1 i k : TT j1 j (la s) LD1 i k = TT j1 j (la s) LD i k.
    by apply: TT_ext => // t Ht; rewrite h3.
  (* a 1x1 step after the exchange of j and p *)
  have step1 A1 LD2 p S1 : (j <= p < N)%N -> linv j (fun i => psig (lp s) 0 j (tsw j p i)) A1 (lx s) S1 ->
      (forall r, (j <= r < N)%N -> LD2 r jj = S1 r j) ->
      (forall i k, (j < i < N)%N -> (j < k < N)%N -> S1 i k = rem j1 j A1 LD2 i k) ->
      (S1 j j = 0 -> forall i, (j < i < N)%N -> S1 i j = 0) ->
      (forall i, (i < j)%N -> A1 i i = la s i i) ->
      (forall r c, ~~ ((r < N)%N && (c <= r)%N) -> A1 r c = la s r c) ->
      exists j' LD' s', [/\ (let '(A, dj) := bseq1 herm N j jj A1 LD2 in
         blockcols alpha under f herm N j1 j2 j.+1 LD2 (Lst A (lx s) (updv (lp s) j p) (ld s * dj))) = Ok (j', LD', s'),
         (j2 <= j' <= N)%N, (j <= j')%N, bsinv j1 j' LD' s' & sframe s s'].
    move=> Hp I2 hL hS hz hd hfr; have := bseq1P (_ : (j1 <= j < N)%N) I2 hL hS hz.
    case/(_ ltac:(lia)); case: (bseq1 _ _ _ _ _ _) => A2 dj /= I3 Edj hd2 hfr2.
    have Hsi := @sinv_1 j s _ p A2 _ dj Hp I I3 ltac:(by move=> i Hi; rewrite hd2 ?hd //; lia) Edj.
    have [j' [LD' [s' [-> Hj' Hjj' Is' Fs']]]] := IH j.+1 LD2 _ ltac:(lia) ltac:(lia) Hj2 Hsi.
    exists j', LD', s'; split=> //; first by lia.
    apply: sframe_trans Fs'; split=> //= [r c1 Hrc|k Hk].
      by rewrite hfr2 // hfr.
    by rewrite /updv ifN //; lia.
  have step2 A1 LD2 p S1 : (j.+1 <= p < N)%N -> linv j (fun i => psig (lp s) 0 j (tsw j.+1 p i)) A1 (lx s) S1 ->
      (forall r, (j <= r < N)%N -> LD2 r jj = S1 r j) ->
      (forall r, (j <= r < N)%N -> LD2 r jj.+1 = S1 r j.+1) ->
      (forall i k, (j.+1 < i < N)%N -> (j.+1 < k < N)%N -> S1 i k = rem j1 j A1 LD2 i k) ->
      S1 j j * S1 j.+1 j.+1 - S1 j.+1 j * cs (S1 j.+1 j) != 0 ->
      (forall i, (i < j)%N -> A1 i i = la s i i) ->
      (forall r c, ~~ ((r < N)%N && (c <= r)%N) -> A1 r c = la s r c) ->
      exists j' LD' s', [/\ (do R <- bseq2 herm N j jj A1 LD2 (lx s);
         blockcols alpha under f herm N j1 j2 j.+2 LD2
           (Lst R.1.1 R.1.2 (updv (updv (lp s) j j) j.+1 p) (ld s * R.2))) = Ok (j', LD', s'),
         (j2 <= j' <= N)%N, (j <= j')%N, bsinv j1 j' LD' s' & sframe s s'].
    move=> Hp I2 hL hL1 hS hz hd hfr.
    have [A2 [-> I3 [ej ej1] hd2 hfr2]] := bseq2P (ltac:(lia) : (j1 <= j)%N) (ltac:(lia) : (j.+1 < N)%N) I2 hL hL1 hS hz.
    rewrite /bindO /=.
    have Hsi := @sinv_2 j s _ p A2 _ _ (S1 j j * S1 j.+1 j.+1 - S1 j.+1 j * cs (S1 j.+1 j)) Hp I I3
      ltac:(by move=> i Hi; rewrite hd2 ?hd //; lia)
      ltac:(by move=> k Hk; rewrite /updv (negPf Hk))
      ltac:(by rewrite ej ej1 /updv eqxx).
    have [j' [LD' [s' [-> Hj' Hjj' Is' Fs']]]] := IH j.+2 LD2 _ ltac:(lia) ltac:(lia) Hj2 Hsi.
    exists j', LD', s'; split=> //; first by lia.
    apply: sframe_trans Fs'; split=> //= [r c1 Hrc|k Hk|k Hk].
    - by rewrite hfr2 // hfr.
    - by rewrite /updv ifN //; lia.
    - by rewrite /updv !ifN //; lia.
  have tr a p r : (j <= a < N)%N -> (j <= p < N)%N -> (j <= r < N)%N -> (j <= tsw a p r < N)%N.
    by move=> Ha Hp Hr; rewrite tsw_ge ?tsw_lt //; lia.
  have remsw a p (LD2 : fm C) : (j <= a < p)%N -> (p < N)%N ->
      (forall r t, (t < jj)%N -> LD2 r t = LD1 (tsw a p r) t) ->
      forall i k, (a < i < N)%N -> (a < k < N)%N ->
      S (tsw a p i) (tsw a p k) = rem j1 j (partswap herm N j a p (la s)) LD2 i k.
    move=> Ha Hp hLD i k Hi Hk; rewrite /S /rem partswap_sym //; congr (_ - _).
    apply/esym/TT_ext => t Ht; first by rewrite partswap_left //; lia.
    by rewrite hLD // h3.
  case: c hc h2 => [|p|p] /= hc h2.
  - apply: (step1 _ _ j S) => //; first by lia.
    + by apply: (linv_ext (ltnW HjN) I0) => // i Hi; rewrite tsw_same.
    + by move=> i k Hi Hk; rewrite /S /rem TT1.
  - have [Hp hpp] := hc.
    have {}h2 := h2 p (or_introl (erefl _)).
    apply: (step1 _ _ p (fun i k => S (tsw j p i) (tsw j p k))) => //.
    + by lia.
    + apply: (linv_swap I0); try lia.
        by move=> r c Hr Hc Hcr; rewrite partswap_left //; lia.
      by [].
    + move=> r Hr; rewrite ltnSn eqxx tr; try lia. by rewrite /= h2 ?tsw_l //; apply: tr; lia.
    + apply: remsw; try lia. move=> r t Ht; rewrite ifT; last by lia. by rewrite ifN //; lia.
    + by rewrite tsw_l => E; rewrite E eqxx in hpp.
    + by move=> i Hi; rewrite partswap_left ?tsw_out //; lia.
    + by move=> r c Hrc; rewrite partswap_frame //; lia.
  - have [Hp hpj hpp] := hc.
    have {}h2 := h2 p (or_intror (erefl _)).
    case: (eqVneq p j.+1) => [E|Hpj] /=.
    + subst p; apply: (step2 _ _ _ S) => //.
      * by apply: (linv_ext (ltnW HjN) I0) => // i Hi; rewrite tsw_same.
      * by move=> i k Hi Hk; rewrite /S /rem TT1.
    + have tj : tsw j.+1 p j = j by apply: tsw_out; lia.
      apply: (step2 _ _ p (fun i k => S (tsw j.+1 p i) (tsw j.+1 p k))) => //; try lia.
      * apply: (linv_swap I0); try lia.
          by move=> r c Hr Hc Hcr; rewrite partswap_left //; lia.
        by [].
      * move=> r Hr; rewrite ifT; last by lia. by rewrite tj h1 //; apply: tr; lia.
      * move=> r Hr; rewrite ifT; last by lia. by rewrite tsw_l h2 //; apply: tr; lia.
      * by apply: remsw; try lia; move=> r t Ht; rewrite ifT //; lia.
      * by rewrite !tj !tsw_l.
      * by move=> i Hi; rewrite partswap_left ?tsw_out //; lia.
      * by move=> r c Hrc; rewrite partswap_frame //; lia.
Qed.

Lemma blockupdP j1 j LD s : (j1 <= j <= N)%N -> bsinv j1 j LD s ->
  let s' := Lst (blockupd herm N j1 j (la s) LD) (lx s) (lp s) (ld s) in
  sinv j s' (symlow herm (la s')) /\ sframe s s'.
Proof.
  move=> Hj [I hP hd] /=.
  have [_ hsym _ _ _] := I.
  have hl r c : (c < j)%N -> blockupd herm N j1 j (la s) LD r c = la s r c.
    by move=> Hc; rewrite /blockupd ifN //; lia.
  have low i k : (j <= k)%N -> (k <= i < N)%N -> blockupd herm N j1 j (la s) LD i k = rem j1 j (la s) LD i k.
    by move=> H1 H2; rewrite /blockupd ifT ?H1 // /rem symlow_le //; lia.
  split; last first.
    by split=> //= r c Hrc; rewrite /blockupd ifN //; lia.
  split=> //=.
  - apply: (linv_ext (proj2 (andP Hj)) I) => //.
      by move=> *; apply: hl.
    move=> i k Hi Hk; rewrite /symlow; case: leqP => h; first by rewrite low //; lia.
    by rewrite low -?hsym //; lia.
  - rewrite hd; congr (_ * \det _); apply: mx_ext => l m Hl Hm.
    by rewrite /pdiag hl.
Qed.

Arguments NonBlockLDL : simpl never.
Arguments blockcols : simpl never.
Variable nb : nat.
Hypothesis Hnb : (0 < nb)%N.
Theorem BlockLDLP iscm fuel j1 LD s : (N <= fuel + j1)%N -> (j1 <= N)%N -> sinv j1 s (symlow herm (la s)) ->
  exists s', [/\ BlockLDL alpha under nb fuel herm iscm N j1 LD s = Ok s', sinv N s' (symlow herm (la s')) & sframe s s'].
Proof.
  elim: fuel j1 LD s => [|f IH] j1 LD s Hf Hj I /=.
    have E : j1 = N by lia. by subst j1; rewrite leqnn; exists s; split=> //; split.
  case: (leqP N j1) => HjN; first by have E : j1 = N by [lia|]; subst j1; exists s; split=> //; split.
  set j2 := minn _ _; case: ifP => Hj2; last by apply: NonBlockLDLP => //; lia.
  have I' : bsinv j1 j1 LD s.
    have [I0 hP hd] := I; split=> //; apply: (linv_ext Hj I0) => // i k Hi Hk.
    by rewrite /rem /TT subnn big_nil subr0.
  have [j' [LD' [s1 [-> H1 H2 I1 F1]]]] := @blockcolsP N.+1 j1 j2 j1 LD s ltac:(lia) ltac:(lia) Hj2 I'.
  rewrite /bindO /=.
  have [I2 F2] := blockupdP (ltac:(lia) : (j1 <= j' <= N)%N) I1.
  have Hlt : (j1 < j2)%N by rewrite /j2 leq_min HjN andbT -addn1 leq_add2l.
  have [s' [-> I3 F3]] := IH j' LD' _ ltac:(lia) ltac:(lia) I2.
  by exists s'; split=> //; apply: sframe_trans F1 _; apply: sframe_trans F2 F3.
Qed.

Theorem NonLapLDLP iscm LD s : sinv 0 s (symlow herm (la s)) ->
  exists s', [/\ NonLapLDL alpha under nb herm iscm N LD s = Ok s', sinv N s' (symlow herm (la s')) & sframe s s'].
Proof.
  by move=> I; rewrite /NonLapLDL; case: ifP => _; [apply: BlockLDLP|apply: NonBlockLDLP] => //; lia.
Qed.
End Proofs.
