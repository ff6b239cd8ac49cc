(** Inverse of triangular matrices in place: src/TMV_TriInverse.cpp. *)
From Verif Require Import Base FMat TriSolve.
From mathcomp Require Import all_ssreflect all_fingroup all_algebra zify.
Set Implicit Arguments. Unset Strict Implicit. Unset Printing Implicit Defensive.
Import GRing.Theory.
Local Open Scope ring_scope.

Section Model.
Variable F : fieldType.
Implicit Types (U : fm F).
Variable nb : nat.

(** U01 = -U00 * U01 and U01 *= U11 (91-92), where U00 and U11 are the diagonal
    blocks [o,o+k) and [o+k,o+N) and U01 the block between them.  The products
    are those of MultUM with the left operand aliased; their results are the
    mathematical products of the old values. *)
Definition negmulL (unit : bool) (o k N : nat) U : fm F :=
  fun r c => if (o <= r < o + k)%N && (o + k <= c < o + N)%N
             then - \sum_(o <= j < o + k) upper unit U r j * U j c else U r c.
Definition mulR (unit : bool) (o k N : nat) U : fm F :=
  fun r c => if (o <= r < o + k)%N && (o + k <= c < o + N)%N
             then \sum_(o + k <= j < o + N) U r j * upper unit U j c else U r c.

(** RecursiveInverse, 51-94. *)
Fixpoint recinv (fuel : nat) (unit : bool) (o N : nat) U : outcome (fm F) :=
  match fuel with
  | 0 => UB
  | f.+1 =>
    if N == 1%N then
      if unit then Ok U else if U o o == 0 then Throw Singular else Ok (updm U o o (U o o)^-1)
    else
      let k := halve nb N in
      bindO (recinv f unit o k U) (fun U1 =>
      bindO (recinv f unit (o + k) (N - k) U1) (fun U2 =>
      Ok (mulR unit o k N (negmulL unit o k N U2))))
  end.

(** NonLapInverse and TriInverse, 97-110, 171-190 (a Singular thrown inside is
    rethrown as Singular). *)
Definition TriInverse (unit : bool) (N : nat) U : outcome (fm F) :=
  if (0 < N)%N then recinv N unit 0 N U else Ok U.

(** LowerTriMatrixView::invertSelf: TMV_TriMatrix.h, transpose().invertSelf(). *)
Definition TriInverseL (unit : bool) (N : nat) U : outcome (fm F) :=
  bindO (TriInverse unit N (trm U)) (fun V => Ok (trm V)).
End Model.

Section Proofs.
Variable F : fieldType.
Implicit Types (A B C U X : fm F).

Lemma mulA lo1 hi1 lo2 hi2 A B C i j :
  \sum_(lo2 <= l < hi2) (\sum_(lo1 <= k < hi1) A i k * B k l) * C l j =
  \sum_(lo1 <= k < hi1) A i k * (\sum_(lo2 <= l < hi2) B k l * C l j).
Proof.
  have -> : \sum_(lo2 <= l < hi2) (\sum_(lo1 <= k < hi1) A i k * B k l) * C l j =
    \sum_(lo2 <= l < hi2) \sum_(lo1 <= k < hi1) A i k * B k l * C l j.
    by apply: eq_bigr => l _; rewrite mulr_suml.
  rewrite exchange_big; apply: eq_bigr => k _; rewrite mulr_sumr.
  by apply: eq_bigr => l _; rewrite mulrA.
Qed.

Lemma sum_delta (lo hi i : nat) (f : nat -> F) : (lo <= i < hi)%N ->
  \sum_(lo <= k < hi) (i == k)%:R * f k = f i.
Proof.
  move=> h; rewrite (@big_cat_nat _ _ _ i) //=; try lia.
  rewrite big1_seq ?add0r; last by move=> k /=; rewrite mem_index_iota => Hk; rewrite (_ : (i == k) = false) ?mul0r //; lia.
  rewrite big_ltn; last by lia. rewrite eqxx mul1r.
  rewrite big1_seq ?addr0 // => k /=; rewrite mem_index_iota => Hk; rewrite (_ : (i == k) = false) ?mul0r //; lia.
Qed.

(** U X = 1 on [o,o+N), everything not in the upper triangle kept. *)
Definition binv (unit : bool) (o N : nat) X U : Prop :=
  (forall i j, (o <= i < o + N)%N -> (o <= j < o + N)%N ->
     \sum_(o <= k < o + N) upper unit U i k * upper unit X k j = (i == j)%:R) /\
  (forall i j, ~~ [&& (o <= i)%N, (if unit then i < j else i <= j)%N & (j < o + N)%N] -> X i j = U i j).

Section Blocks.
Variable nb : nat.
Hypothesis nbP : (0 < nb)%N.

(** A zero met while inverting the second block was there before. *)
Lemma zero_step unit o k N U U1 e : (0 < k < N)%N -> binv unit o k U1 U ->
  zero_diag unit (o + k + (N - k)) U1 e -> zero_diag unit (o + N) U e.
Proof.
  move=> Hk [a1 a2] [-> [Eu [i [Hi Ei]]]]; split=> //; split=> //.
         case: (leqP (o + k) i) => Hik; first by (exists i; split; first by lia); rewrite -Ei a2 //; lia.
         (* a zero that appeared in the inverse of the first block was there before *)
         exists i; split; first by lia.
         case: (leqP o i) => Hoi; last by rewrite -Ei a2 //; lia.
         have := a1 i i; rewrite eqxx => h; exfalso.
         have {h} := h ltac:(lia) ltac:(lia).
         rewrite big1_seq; first by move/eqP; rewrite eq_sym oner_eq0.
         move=> j /=; rewrite mem_index_iota => Hj.
         case: (ltngtP i j) => h; first by rewrite [upper unit U1 j i]upper_gt ?mulr0.
         - by rewrite [upper unit U i j]upper_gt ?mul0r.
         - by rewrite -h [upper unit U1 i i]upper_diag Eu Ei mulr0.
Qed.

(** Joining the inverses of the two diagonal blocks. *)
Lemma inv_step unit o k N U U1 U2 : (0 < k < N)%N -> binv unit o k U1 U ->
  binv unit (o + k) (N - k) U2 U1 ->
  binv unit o N (mulR unit o k N (negmulL unit o k N U2)) U.
Proof.
    move=> Hk [a1 a2] [b1 b2].
    have EN : (o + k + (N - k) = o + N)%N by lia.
    rewrite EN in b1 b2.
    have b2' i j : (i < o + k)%N -> U2 i j = U1 i j by move=> h; apply: b2; case: (unit); lia.
    have a2' i j : (o + k <= j)%N -> U1 i j = U i j by move=> h; apply: a2; case: (unit); lia.
    set U3 := negmulL unit o k N U2. set X := mulR unit o k N U3.
    (* the entries of X by block *)
    have upE i j (V W : fm F) : V i j = W i j -> upper unit V i j = upper unit W i j.
      by move=> h; rewrite /upper h.
    have X00 i j : (o <= i < o + k)%N -> (o <= j < o + k)%N -> upper unit X i j = upper unit U1 i j.
      move=> Hi Hj; apply: upE; rewrite /X /mulR ifN; last by lia.
      rewrite /U3 /negmulL ifN; last by lia. by apply: b2'; lia.
    have X11 i j : (o + k <= i < o + N)%N -> (o + k <= j < o + N)%N -> upper unit X i j = upper unit U2 i j.
      move=> Hi Hj; apply: upE; rewrite /X /mulR ifN; last by lia.
      by rewrite /U3 /negmulL ifN //; lia.
    have U3_11 i j : (o + k <= i < o + N)%N -> (o + k <= j < o + N)%N -> upper unit U3 i j = upper unit U2 i j.
      by move=> Hi Hj; apply: upE; rewrite /U3 /negmulL ifN //; lia.
    have U2_00 i j : (o <= i < o + k)%N -> (o <= j < o + k)%N -> upper unit U2 i j = upper unit U1 i j.
      by move=> Hi Hj; apply: upE; apply: b2'; lia.
    have U_11 i j : (o + k <= i < o + N)%N -> (o + k <= j < o + N)%N -> upper unit U1 i j = upper unit U i j.
      by move=> Hi Hj; apply: upE; apply: a2'; lia.
    have U2_01 i j : (o <= i < o + k)%N -> (o + k <= j < o + N)%N -> U2 i j = U i j.
      by move=> Hi Hj; rewrite b2' ?a2' //; lia.
    have X01 i j : (o <= i < o + k)%N -> (o + k <= j < o + N)%N -> upper unit X i j =
       - \sum_(o + k <= l < o + N) (\sum_(o <= m < o + k) upper unit U1 i m * U m l) * upper unit U2 l j.
      move=> Hi Hj; rewrite upper_lt; last by lia. rewrite /X /mulR ifT; last by lia.
      rewrite -sumrN; apply: eq_big_nat => l Hl; rewrite U3_11 // {1}/U3 /negmulL ifT; last by lia.
      rewrite mulNr; congr (- (_ * _)); apply: eq_big_nat => m Hm; rewrite U2_00 // U2_01 //.
    split.
    + move=> i j Hi Hj; rewrite (@big_cat_nat _ _ _ (o + k)%N) //=; [|lia..].
      case: (ltnP i (o + k)%N) => Hik.
      * case: (ltnP j (o + k)%N) => Hjk.
        -- rewrite [X in _ + X]big1_seq ?addr0; last first.
             by move=> l /=; rewrite mem_index_iota => Hl; rewrite [upper unit X l j]upper_gt ?mulr0 //; lia.
           rewrite -(a1 i j); [|lia..]; apply: eq_big_nat => l Hl; rewrite X00 //; lia.
        -- have E1 : \sum_(o <= m < o + k) upper unit U i m * upper unit X m j =
             - \sum_(o + k <= l < o + N) U i l * upper unit U2 l j.
             transitivity (- \sum_(o <= m < o + k) upper unit U i m *
                (\sum_(o + k <= l < o + N) (\sum_(o <= p < o + k) upper unit U1 m p * U p l) * upper unit U2 l j)).
               rewrite -sumrN; apply: eq_big_nat => m Hm; rewrite X01 ?mulrN //; lia.
             congr (- _).
             rewrite -(@mulA o (o + k) (o + k) (o + N) (upper unit U) (fun m l => \sum_(o <= p < o + k) upper unit U1 m p * U p l) (upper unit U2)).
             apply: eq_big_nat => l Hl; congr (_ * _).
             rewrite -(@mulA o (o + k) o (o + k) (upper unit U) (upper unit U1) U).
             rewrite -(@sum_delta o (o + k) i (fun m => U m l)); last by lia.
             by apply: eq_big_nat => m Hm; rewrite a1 //; lia.
           rewrite E1 [X in - _ + X](_ : _ = \sum_(o + k <= l < o + N) U i l * upper unit U2 l j).
             by rewrite addNr (_ : (i == j) = false) //; lia.
           by apply: eq_big_nat => l Hl; rewrite X11 ?[upper unit U i l]upper_lt //; lia.
      * rewrite big1_seq ?add0r; last first.
          by move=> l /=; rewrite mem_index_iota => Hl; rewrite [upper unit U i l]upper_gt ?mul0r //; lia.
        case: (ltnP j (o + k)%N) => Hjk.
        -- have -> : (i == j) = false by lia. rewrite big1_seq //.
           by move=> l /=; rewrite mem_index_iota => Hl; rewrite [upper unit X l j]upper_gt ?mulr0 //; lia.
        -- rewrite -(b1 i j); [|lia..]; apply: eq_big_nat => l Hl; rewrite X11 ?U_11 //; lia.
    + move=> i j Hij; rewrite /X /mulR ifN; last by case: (unit) Hij; lia.
      rewrite /U3 /negmulL ifN; last by case: (unit) Hij; lia.
      rewrite b2 ?a2 //; case: (unit) Hij; lia.
Qed.

Lemma recinvP fuel unit o N U : (0 < N <= fuel)%N ->
  post (fun X => binv unit o N X U) (zero_diag unit (o + N) U) (recinv nb fuel unit o N U).
Proof.
  elim: fuel o N U => [|f IH] o N U Hf; first by lia.
  rewrite /=; case: eqP => [E1|N1].
  - subst N; rewrite /binv addn1; clear IH; case: unit => /=.
      split=> // i j Hi Hj; have -> : i = o by lia. have -> : j = o by lia.
      by rewrite big_nat1 upper_diag mul1r eqxx.
    case: eqP => [E0|/eqP N0] /=; first by split=> //; split=> //; exists o.
    split.
      move=> i j Hi Hj; have -> : i = o by lia. have -> : j = o by lia.
      by rewrite big_nat1 !upper_diag /updm !eqxx divff.
    by move=> i j Hij; rewrite /updm ifN //; lia.
  - have Hk := @halveP nb 1 nbP isT N ltac:(lia); move: Hk; set k := halve nb N => Hk.
    apply: post_bind; apply: (@post_imp _ (fun X => binv unit o k X U) _ (zero_diag unit (o + k) U)); last by apply: IH; lia.
    2: by move=> e; apply: zero_diag_le; lia.
    move=> U1 Ha; apply: post_bind.
    apply: (@post_imp _ (fun X => binv unit (o + k) (N - k) X U1) _ (zero_diag unit (o + k + (N - k)) U1)); last by apply: IH; lia.
    2: by move=> e; apply: zero_step => //; lia.
    by move=> U2 Hb /=; apply: (inv_step _ Ha Hb); lia.
Qed.

Lemma TriInverseP unit N U :
  post (fun X => binv unit 0 N X U) (zero_diag unit N U) (TriInverse nb unit N U).
Proof.
  rewrite /TriInverse; case: ifP => h; last by split=> // i j; lia.
  by apply: recinvP; lia.
Qed.
End Blocks.
End Proofs.
