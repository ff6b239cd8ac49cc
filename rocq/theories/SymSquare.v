(** Squaring a symmetric or hermitian matrix in place (src/TMV_SymSquare.cpp) and its use
    for (A^dagger A)^-1 by the LDL and Cholesky dividers. *)
From mathcomp Require Import all_ssreflect all_fingroup all_algebra all_field zify.
From Verif Require Import Base FMat TriSolve LUDiv Cplx Chol CholDiv LDL LDLDiv LDLInv.
Set Implicit Arguments. Unset Strict Implicit. Unset Printing Implicit Defensive.
Import GRing.Theory Num.Theory Order.Theory.
Local Open Scope ring_scope.

Section Model.
Variable C : numClosedFieldType.
Implicit Types A : fm C.
(** SymSquare<herm>(A) (src/TMV_SymSquare.cpp:30-70) on the leading N x N block.  The recursion
    is cut off by [fuel]: running out of it stands for a recursion that never ends (the stack
    overflows).  Simplified: the three matrix products are the mathematical ones, and the view
    is taken to be unconjugated (elements as shown). *)
Fixpoint SymSquare (fuel : nat) (herm : bool) (N : nat) A : outcome (fm C) :=
  match fuel with
  | 0 => UB
  | f.+1 =>
    if N == 1%N then Ok (updm A 0 0 (if herm then 'Re (A 0%N 0%N) * 'Re (A 0%N 0%N) else A 0%N 0%N * A 0%N 0%N))
    else
      let K := (N %/ 2)%N in
      let A10t : fm C := fun i j => cs herm (A (K + j)%N i) in
      let A01 : fm C := fun i j => \sum_(0 <= k < K) A i k * A10t k j + \sum_(0 <= k < N - K) A10t i k * A (K + k)%N (K + j)%N in
      do B00 <- SymSquare f herm K A;
      let C00 : fm C := fun i j => B00 i j + \sum_(0 <= k < N - K) A10t i k * A (K + k)%N j in
      do B11 <- SymSquare f herm (N - K) (subm K K A);
      let C11 : fm C := fun i j => B11 i j + \sum_(0 <= k < K) A (K + i)%N k * A10t k j in
      Ok (fun i j =>
        if (i < N)%N && (j < N)%N then
          if (i < K)%N then if (j < K)%N then C00 i j else A01 i (j - K)%N
          else if (j < K)%N then cs herm (A01 j (i - K)%N) else C11 (i - K)%N (j - K)%N
        else A i j)
  end.

(** ata.diag().imagPart().setZero() *)
Definition realdiag N A : fm C := fun i j => if (i == j) && (i < N)%N then 'Re (A i j) else A i j.

(** SymLDLDiv::doMakeInverseATA (src/TMV_SymLDLD.cpp:148-163). *)
Definition LDL_InverseATA (fuel tb bs : nat) (herm cjL : bool) (N : nat) (LL : fm C) (xD : fv C) (P : nat -> nat)
    (ata : fm C) : outcome (fm C) :=
  let ata1 := if herm then realdiag N ata else ata in
  do R <- LDL_Inverse tb bs herm cjL N LL xD P false false ata1;
  SymSquare fuel herm N R.

(** HermCHDiv::doMakeInverseATA (src/TMV_SymCHD.cpp:175-185): the inverse is written into the
    lower triangle of ata. *)
Definition CH_InverseATA (fuel tb : nat) (up cj : bool) (N : nat) (LLx : fm C) (ata : fm C) : outcome (fm C) :=
  let ata1 := realdiag N ata in
  do X <- CH_Inverse tb up cj N LLx;
  SymSquare fuel true N (fun i j => if (i < N)%N && (j <= i)%N then X i j else ata1 i j).
End Model.

Section Proofs.
Variable C : numClosedFieldType.
Implicit Types A : fm C.
Local Arguments SymSquare : simpl never.

Lemma SymSquareS f herm N A : SymSquare f.+1 herm N A =
    if N == 1%N then Ok (updm A 0 0 (if herm then 'Re (A 0%N 0%N) * 'Re (A 0%N 0%N) else A 0%N 0%N * A 0%N 0%N))
    else
      let K := (N %/ 2)%N in
      let A10t : fm C := fun i j => cs herm (A (K + j)%N i) in
      let A01 : fm C := fun i j => \sum_(0 <= k < K) A i k * A10t k j + \sum_(0 <= k < N - K) A10t i k * A (K + k)%N (K + j)%N in
      do B00 <- SymSquare f herm K A;
      let C00 : fm C := fun i j => B00 i j + \sum_(0 <= k < N - K) A10t i k * A (K + k)%N j in
      do B11 <- SymSquare f herm (N - K) (subm K K A);
      let C11 : fm C := fun i j => B11 i j + \sum_(0 <= k < K) A (K + i)%N k * A10t k j in
      Ok (fun i j =>
        if (i < N)%N && (j < N)%N then
          if (i < K)%N then if (j < K)%N then C00 i j else A01 i (j - K)%N
          else if (j < K)%N then cs herm (A01 j (i - K)%N) else C11 (i - K)%N (j - K)%N
        else A i j).
Proof. by []. Qed.

(** No amount of stack is enough for an empty matrix. *)
Lemma SymSquare0 f herm A : SymSquare f herm 0 A = UB.
Proof. by elim: f A => // f IH A; rewrite SymSquareS /= div0n IH. Qed.

Lemma csK herm (x : C) : cs herm (cs herm x) = x.
Proof. by rewrite /cs; case: herm; rewrite ?conjCK. Qed.

Lemma cs_sum herm (F : nat -> C) n : cs herm (\sum_(0 <= k < n) F k) = \sum_(0 <= k < n) cs herm (F k).
Proof. by rewrite /cs; case: herm => //; rewrite rmorph_sum. Qed.
Lemma csD herm (x y : C) : cs herm (x + y) = cs herm x + cs herm y.
Proof. by rewrite /cs; case: herm => //; rewrite rmorphD. Qed.
Lemma csM herm (x y : C) : cs herm (x * y) = cs herm x * cs herm y.
Proof. by rewrite /cs; case: herm => //; rewrite rmorphM. Qed.

Lemma sum_split (F : nat -> C) K N : (K <= N)%N ->
  \sum_(0 <= k < N) F k = \sum_(0 <= k < K) F k + \sum_(0 <= k < N - K) F (K + k)%N.
Proof.
  move=> H; rewrite (big_cat_nat _ _ _ (leq0n K) H) /=; congr (_ + _).
  rewrite -{1}(add0n K) -{1}(subnK H) big_addn addnK.
  by apply: eq_bigr => k _; rewrite addnC.
Qed.

(** On a matrix whose two triangles are both there, the result is the square. *)
Lemma SymSquareP herm f N A : (0 < N <= f)%N ->
  (forall i j, (i < N)%N -> (j < N)%N -> A i j = cs herm (A j i)) ->
  exists R, [/\ SymSquare f herm N A = Ok R,
    (forall i j, (i < N)%N -> (j < N)%N -> R i j = \sum_(0 <= k < N) A i k * A k j)
  & (forall i j, ~~ ((i < N)%N && (j < N)%N) -> R i j = A i j)].
Proof.
  elim: f N A => [|f IH] N A HN Hs; first by lia.
  rewrite SymSquareS; case: eqP => [E|/eqP E].
    subst N; eexists; split; [by [] | | ].
      move=> i j Hi Hj; have -> : i = 0%N by lia. have -> : j = 0%N by lia.
      rewrite /updm !eqxx big_nat1 /=; case: (herm) Hs => // Hs.
      by have /CrealP/Creal_ReP -> : (A 0%N 0%N)^* = A 0%N 0%N by have := Hs 0%N 0%N isT isT.
    by case=> [|i] [|j] // _; rewrite /updm ?andbF.
  cbv zeta; set K := (N %/ 2)%N.
  have HK : (0 < K < N)%N by rewrite /K; lia.
  have [|i j Hi Hj|B00 [-> P00 F00]] := IH K A; first by lia.
    by apply: Hs; lia.
  have [|i j Hi Hj|B11 [-> P11 F11]] := IH (N - K)%N (subm K K A); first by lia.
    by rewrite /subm; apply: Hs; lia.
  eexists; split; [by [] | | by move=> i j /negPf ->].
  have up i j : (i < K)%N -> (j < N - K)%N ->
     \sum_(0 <= k < K) A i k * cs herm (A (K + j)%N k) +
     \sum_(0 <= k < N - K) cs herm (A (K + k)%N i) * A (K + k)%N (K + j)%N = \sum_(0 <= k < N) A i k * A k (K + j)%N.
    move=> Hi Hj; rewrite (sum_split _ (_ : (K <= N)%N)); last by lia.
    congr (_ + _); apply: eq_big_nat => k /andP [_ Hk].
      by rewrite [A k (K + j)%N]Hs //; lia.
    by rewrite [A i (K + k)%N]Hs //; lia.
  move=> i j Hi Hj; rewrite Hi Hj /=; case: ltnP => HiK; case: ltnP => HjK.
  - rewrite P00 // (sum_split _ (_ : (K <= N)%N)); last by lia.
    by congr (_ + _); apply: eq_big_nat => k /andP [_ Hk]; rewrite [A i (K + k)%N]Hs //; lia.
  - by rewrite up ?subnKC //; lia.
  - rewrite up //; last by lia.
    rewrite subnKC // cs_sum; apply: eq_big_nat => k /andP [_ Hk].
    by rewrite csM -Hs // -[cs _ (A k i)]Hs // mulrC.
  - rewrite P11; try by lia.
    rewrite (sum_split _ (_ : (K <= N)%N)); last by lia.
    rewrite addrC /subm; congr (_ + _); apply: eq_big_nat => k /andP [_ Hk]; rewrite ?subnKC //.
    by rewrite [A k j]Hs //; lia.
Qed.

(** The strict upper triangle is not read when N <= 2. *)
Lemma SymSquare2 herm f N A A' : (0 < N <= 2)%N -> (N <= f)%N ->
  (forall i j, (j <= i)%N -> (i < N)%N -> A i j = A' i j) ->
  forall R', SymSquare f herm N A' = Ok R' ->
  exists R, SymSquare f herm N A = Ok R /\ forall i j, (i < N)%N -> (j < N)%N -> R i j = R' i j.
Proof.
  case: f => [|[|f]]; try by lia.
    move=> HN Hf H R'; have -> : N = 1%N by lia.
    rewrite !SymSquareS eqxx => -[<-]; eexists; split; [by [] | move=> i j Hi Hj].
    have -> : i = 0%N by lia. have -> : j = 0%N by lia.
    by rewrite /updm /= H //; lia.
  move=> HN Hf H R'; rewrite !SymSquareS; case: eqP => [E|/eqP E].
    move=> [<-]; eexists; split; [by [] | move=> i j Hi Hj].
    have -> : i = 0%N by lia. have -> : j = 0%N by lia.
    by rewrite /updm /= H //; lia.
  have -> : (N %/ 2 = 1)%N by lia.
  have E2 : N = 2%N by lia.
  subst N; cbv zeta; rewrite subn1 !SymSquareS /= => -[<-]; eexists; split; [by [] | move=> i j Hi Hj].
  rewrite Hi Hj /= !big_nat1 /subm /updm /=.
  by case: i Hi => [|[|i]] // _; case: j Hj => [|[|j]] // _; rewrite /= ?big_nat1 ?add1n ?add0n ?H.
Qed.
End Proofs.
