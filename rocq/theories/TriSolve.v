(** Division by triangular matrices: src/TMV_TriDiv_V.cpp (vectors),
    src/TMV_TriDiv_M.cpp (matrices), src/TMV_TriInverse.cpp (inverse).
    The non-BLAS code, exact arithmetic. *)
From Verif Require Import Base FMat.
From mathcomp Require Import all_ssreflect all_fingroup all_algebra zify.
Set Implicit Arguments. Unset Strict Implicit. Unset Printing Implicit Defensive.
Import GRing.Theory.
Local Open Scope ring_scope.

(** Storage of a triangular matrix view: isrm(), iscm(), or neither. *)
Inductive stor := RM | CM | XM.

Section Model.
Variable F : fieldType.
Implicit Types (A B : fm F) (b : fv F).

(** x = x / d, after the zero test that throws SingularUpperTriMatrix or
    SingularLowerTriMatrix; nothing when the diagonal is a unit one. *)
Definition divdiag (unit : bool) A (i : nat) b : outcome (fv F) :=
  if unit then Ok b else if A i i == 0 then Throw Singular else Ok (updv b i (b i / A i i)).

(** ** Vectors *)

(** DoRowTriLDivEq, upper: TMV_TriDiv_V.cpp:58-119.  (The last row, whose inner
    loop is empty, is done before the loop there.) *)
Definition rowU (unit : bool) (N : nat) A b : outcome (fv F) :=
  loop (down N) (fun i b =>
    divdiag unit A i
      (foldl (fun b j => updv b i (b i - b j * A i j)) b (iota i.+1 (N - i.+1)))) b.

(** DoColTriLDivEq, upper: 136-205.  (Column 0, whose inner loop is empty, is
    done after the loop there.) *)
Definition colU (unit : bool) (N : nat) A b : outcome (fv F) :=
  loop (down N) (fun j b =>
    if b j == 0 then Ok b else
    bindO (divdiag unit A j b) (fun b =>
    Ok (foldl (fun b i => updv b i (b i - b j * A i j)) b (iota 0 j)))) b.

(** DoRowTriLDivEq, lower: 222-288. *)
Definition rowL (unit : bool) (N : nat) A b : outcome (fv F) :=
  loop (up N) (fun i b =>
    divdiag unit A i
      (foldl (fun b j => updv b i (b i - b j * A i j)) b (iota 0 i))) b.

(** DoColTriLDivEq, lower: 305-367. *)
Definition colL (unit : bool) (N : nat) A b : outcome (fv F) :=
  loop (up N) (fun j b =>
    if b j == 0 then Ok b else
    bindO (divdiag unit A j b) (fun b =>
    Ok (foldl (fun b i => updv b i (b i - b j * A i j)) b (iota j.+1 (N - j.+1))))) b.

(** DoTriLDivEq: 384-400. *)
Definition doU (st : stor) := match st with RM => rowU | CM => colU | XM => rowU end.
Definition doL (st : stor) := match st with RM => rowL | CM => colL | XM => rowL end.

(** The first zeros of b from below (i2, 427-428) or from above (i1, 446-447). *)
Fixpoint trimU (n : nat) b : nat :=
  match n with 0 => 0 | n'.+1 => if b n' == 0 then trimU n' b else n end.
Fixpoint trimL (n lo : nat) b : nat :=
  match n with 0 => lo | n'.+1 => if b lo == 0 then trimL n' lo.+1 b else lo end.

(** NonBlasTriLDivEq and TriLDivEq: 419-456, 761-848.  (A vector of non-unit step is
    copied, solved and copied back, which is not visible here; likewise the
    exchange of conjugations for a conjugated b.) *)
Definition TriLDivEqU (st : stor) (unit : bool) (N : nat) A b : outcome (fv F) :=
  let i2 := trimU N b in
  if i2 == 0%N then Ok b else bindO (doU st unit i2 A b) (fun r => Ok (putv 0 i2 b r)).
Definition TriLDivEqL (st : stor) (unit : bool) (N : nat) A b : outcome (fv F) :=
  let i1 := trimL N 0 b in
  if i1 == N then Ok b else
  bindO (doL st unit (N - i1) (subm i1 i1 A) (subv i1 b)) (fun r => Ok (putv i1 (N - i1) b r)).

(** ** Matrices *)

(** B.row(i) -= A.row(i,lo,hi) * B.rowRange(lo,hi), K columns. *)
Definition rowsub (i lo hi K : nat) A B : fm F :=
  fun r c => if (r == i) && (c < K)%N then B i c - \sum_(lo <= k < hi) A i k * B k c else B r c.
(** B.rowRange(lo,hi) -= A.col(j,lo,hi) ^ B.row(j). *)
Definition outersub (j lo hi K : nat) A B : fm F :=
  fun r c => if (lo <= r < hi)%N && (c < K)%N then B r c - A r j * B j c else B r c.
(** B.row(i) /= A(i,i), with the zero test. *)
Definition rowdiv (unit : bool) (i K : nat) A B : outcome (fm F) :=
  if unit then Ok B else if A i i == 0 then Throw Singular
  else Ok (fun r c => if (r == i) && (c < K)%N then B i c / A i i else B r c).

(** RowTriLDivEq and ColTriLDivEq for matrices: TMV_TriDiv_M.cpp:58-183. *)
Definition mrowU (unit : bool) (N K : nat) A B : outcome (fm F) :=
  loop (down N) (fun i B => rowdiv unit i K A (rowsub i i.+1 N K A B)) B.
Definition mcolU (unit : bool) (N K : nat) A B : outcome (fm F) :=
  loop (down N) (fun j B => bindO (rowdiv unit j K A B) (fun B => Ok (outersub j 0 j K A B))) B.
Definition mrowL (unit : bool) (N K : nat) A B : outcome (fm F) :=
  loop (up N) (fun i B => rowdiv unit i K A (rowsub i 0 i K A B)) B.
Definition mcolL (unit : bool) (N K : nat) A B : outcome (fm F) :=
  loop (up N) (fun j B => bindO (rowdiv unit j K A B) (fun B => Ok (outersub j j.+1 N K A B))) B.

(** for (j<K) TriLDivEq(A, B.col(j)). *)
Definition percol (solve : fv F -> outcome (fv F)) (N K : nat) B : outcome (fm F) :=
  loop (up K) (fun j B =>
    bindO (solve (fun i => B i j)) (fun r => Ok (setcol j N B r))) B.

(** B0 -= A01*B1 : rows [r0,r0+m) minus A times rows [k0,k0+n). *)
Definition blocksub (r0 m k0 n K : nat) A B : fm F :=
  fun r c => if (r0 <= r < r0 + m)%N && (c < K)%N
             then B r c - \sum_(k0 <= k < k0 + n) A r k * B k c else B r c.

(** Blocking constants: TRI_DIV_BLOCKSIZE and TRI_DIV_BLOCKSIZE2, 47-53. *)
Variables nb nb2 : nat.
Definition halve (N : nat) : nat := let k := (N %/ 2)%N in if (nb < k)%N then (k %/ nb * nb)%N else k.

(** NonBlasTriLDivEq, 186-261, on the rows [o,o+N) of B and the diagonal block
    of A starting at o.  [fuel] bounds the recursion depth: UB when it runs out. *)
Fixpoint solveU (fuel : nat) (stA stB : stor) (unit : bool) (o N K : nat) A B : outcome (fm F) :=
  match fuel with
  | 0 => UB
  | f.+1 =>
    if (N <= nb2)%N then
      bindO
        (match stB, stA with
         | RM, RM => mrowU unit N K (subm o o A) (subm o 0 B)
         | RM, _ => mcolU unit N K (subm o o A) (subm o 0 B)
         | _, _ => percol (TriLDivEqU stA unit N (subm o o A)) N K (subm o 0 B)
         end)
        (fun S => Ok (putm o 0 N K B S))
    else
      let k := halve N in
      bindO (solveU f stA stB unit (o + k) (N - k) K A B) (fun B1 =>
      solveU f stA stB unit o k K A (blocksub o k (o + k) (N - k) K A B1))
  end.
Fixpoint solveL (fuel : nat) (stA stB : stor) (unit : bool) (o N K : nat) A B : outcome (fm F) :=
  match fuel with
  | 0 => UB
  | f.+1 =>
    if (N <= nb2)%N then
      bindO
        (match stB, stA with
         | RM, RM => mrowL unit N K (subm o o A) (subm o 0 B)
         | RM, _ => mcolL unit N K (subm o o A) (subm o 0 B)
         | _, _ => percol (TriLDivEqL stA unit N (subm o o A)) N K (subm o 0 B)
         end)
        (fun S => Ok (putm o 0 N K B S))
    else
      let k := halve N in
      bindO (solveL f stA stB unit o k K A B) (fun B0 =>
      solveL f stA stB unit (o + k) (N - k) K A (blocksub (o + k) (N - k) o k K A B0))
  end.

(** TriLDivEq for a matrix: 577-630, 643-710.  (When A and B share storage A is
    copied first; A is a value here, see TriAlias.v for storage sharing.) *)
Definition TriLDivEqMU (stA stB : stor) (unit : bool) (N K : nat) A B : outcome (fm F) :=
  if (0 < N)%N && (0 < K)%N then
    if K == 1%N then bindO (TriLDivEqU stA unit N A (fun i => B i 0%N)) (fun r => Ok (setcol 0 N B r))
    else solveU N.+1 stA stB unit 0 N K A B
  else Ok B.
Definition TriLDivEqML (stA stB : stor) (unit : bool) (N K : nat) A B : outcome (fm F) :=
  if (0 < N)%N && (0 < K)%N then
    if K == 1%N then bindO (TriLDivEqL stA unit N A (fun i => B i 0%N)) (fun r => Ok (setcol 0 N B r))
    else solveL N.+1 stA stB unit 0 N K A B
  else Ok B.

End Model.

(** * Specification vocabulary *)
Section Spec.
Variable F : fieldType.
Implicit Types (A B : fm F) (b x : fv F).

(** The matrices a triangular view denotes. *)
Definition upper (unit : bool) A : fm F :=
  fun i j => if i == j then (if unit then 1 else A i j) else if (i < j)%N then A i j else 0.
Definition lower (unit : bool) A : fm F :=
  fun i j => if i == j then (if unit then 1 else A i j) else if (j < i)%N then A i j else 0.

(** T x = b, and T X = B on K columns. *)
Definition solvesV (N : nat) (T : fm F) x b : Prop :=
  forall i, (i < N)%N -> \sum_(k < N) T i k * x k = b i.
Definition solvesM (N K : nat) (T X B : fm F) : Prop :=
  forall i c, (i < N)%N -> (c < K)%N -> \sum_(k < N) T i k * X k c = B i c.

(** Why a division may throw. *)
Definition zero_diag (unit : bool) (N : nat) A (e : exn) : Prop :=
  e = Singular /\ unit = false /\ exists i, (i < N)%N /\ A i i = 0.
End Spec.

(** * Proofs *)
Section Proofs.
Variable F : fieldType.
Implicit Types (A B : fm F) (b x : fv F).

Lemma sumN (f : nat -> F) N : \sum_(k < N) f k = \sum_(0 <= k < N) f k.
Proof. by rewrite big_mkord. Qed.

Lemma upper_lt unit A i j : (i < j)%N -> upper unit A i j = A i j.
Proof. by move=> h; rewrite /upper h; case: eqP h => // ->; rewrite ltnn. Qed.
Lemma upper_gt unit A i j : (j < i)%N -> upper unit A i j = 0.
Proof. by move=> h; rewrite /upper ifN ?ifN //; lia. Qed.
Lemma lower_gt unit A i j : (j < i)%N -> lower unit A i j = A i j.
Proof. by move=> h; rewrite /lower h; case: eqP h => // ->; rewrite ltnn. Qed.
Lemma lower_lt unit A i j : (i < j)%N -> lower unit A i j = 0.
Proof. by move=> h; rewrite /lower ifN ?ifN //; lia. Qed.
Lemma upper_diag unit A i : upper unit A i i = if unit then 1 else A i i.
Proof. by rewrite /upper eqxx. Qed.
Lemma lower_diag unit A i : lower unit A i i = if unit then 1 else A i i.
Proof. by rewrite /lower eqxx. Qed.

(** What divdiag does. *)
Lemma divdiagP unit A i N b : (i < N)%N ->
  post (fun b' => (forall k, k != i -> b' k = b k) /\ (if unit then 1 else A i i) * b' i = b i /\ (unit || (A i i != 0)))
    (zero_diag unit N A) (divdiag unit A i b).
Proof.
  move=> Hi; rewrite /divdiag; case: unit => /=; first by rewrite mul1r.
  case: eqP => [E|/eqP NE] /=; first by split=> //; split=> //; exists i.
  split; first by move=> k Hk; rewrite /updv (negbTE Hk).
  by rewrite /updv eqxx mulrC divfK.
Qed.

Lemma rowUP unit N A b :
  post (fun x => solvesV N (upper unit A) x b /\ forall k, (N <= k)%N -> x k = b k)
       (zero_diag unit N A) (rowU unit N A b).
Proof.
  rewrite /rowU.
  apply: (@post_imp _ (fun x : fv F => (forall r, (0 <= r < N)%N -> \sum_(0 <= k < N) upper unit A r k * x k = b r) /\
     forall k, ~~ (0 <= k < N)%N -> x k = b k) _ (zero_diag unit N A)) => //.
    move=> x [h1 h2]; split=> [i Hi|k Hk]; first by rewrite (@sumN (fun k => upper unit A i k * x k)); apply: h1.
    by apply: h2; lia.
  apply: (@loop_down_inv _ (fun i (x : fv F) =>
     (forall r, (i <= r < N)%N -> \sum_(i <= k < N) upper unit A r k * x k = b r) /\
     forall k, ~~ (i <= k < N)%N -> x k = b k)).
  - by split=> // r Hr; lia.
  - move=> i x Hi [h1 h2].
    have Hn : ~~ (i.+1 <= i < i.+1 + (N - i.+1))%N by lia.
    move: (fold_dot x (fun j => A i j) Hn).
    set y := foldl _ _ _ => Ey.
    have E1 : (i.+1 + (N - i.+1) = N)%N by lia.
    apply: post_imp (divdiagP unit A y Hi) => // x' [g1 [g2 _]]; split.
    + move=> r Hr; rewrite big_ltn //.
      have E2 : forall r', \sum_(i.+1 <= k < N) upper unit A r' k * x' k = \sum_(i.+1 <= k < N) upper unit A r' k * x k.
        move=> r'; apply: eq_big_nat => k Hk; rewrite g1; last by lia.
        by rewrite Ey ifN //; lia.
      rewrite E2; case: (r =P i) => [->|Nr].
      * rewrite upper_diag g2 Ey eqxx E1 (h2 i); last by lia.
        rewrite [X in _ + X = _](_ : _ = \sum_(i.+1 <= j < N) x j * A i j) ?subrK //.
        by apply: eq_big_nat => k Hk; rewrite upper_lt 1?mulrC //; lia.
      * rewrite upper_gt; last by lia. by rewrite mul0r add0r; apply: h1; lia.
    + move=> k Hk; rewrite g1; last by lia. rewrite Ey ifN; last by lia. by apply: h2; lia.
Qed.

Lemma colUP unit N A b :
  post (fun x => solvesV N (upper unit A) x b /\ forall k, (N <= k)%N -> x k = b k)
       (zero_diag unit N A) (colU unit N A b).
Proof.
  rewrite /colU.
  apply: (@post_imp _ (fun x : fv F => (forall r, (r < N)%N -> (if (r < 0)%N then x r else 0) + \sum_(0 <= k < N) upper unit A r k * x k = b r) /\
     forall k, (N <= k)%N -> x k = b k) _ (zero_diag unit N A)) => //.
    move=> x [h1 h2]; split=> // i Hi; rewrite (@sumN (fun k => upper unit A i k * x k)).
    by rewrite -(h1 i Hi) /= add0r.
  apply: (@loop_down_inv _ (fun j (x : fv F) =>
     (forall r, (r < N)%N -> (if (r < j)%N then x r else 0) + \sum_(j <= k < N) upper unit A r k * x k = b r) /\
     forall k, (N <= k)%N -> x k = b k)).
  - by split=> // r Hr; rewrite Hr big_geq // addr0.
  - move=> j x Hj [h1 h2].
    case: eqP => [E0|/eqP N0].
    + split=> // r Hr; rewrite big_ltn // E0 mulr0 add0r -(h1 r Hr); congr (_ + _).
      by case: (ltngtP r j) => [h|h|->]; rewrite ?ltnS ?leqnn ?(ltnW h) ?E0 //; rewrite ifN //; lia.
    + apply: post_bind; apply: post_imp (divdiagP unit A x Hj) => // y [g1 [g2 _]] /=.
      have Hn : ~~ (0 <= j < 0 + j)%N by lia.
      move: (fold_axpy y (fun i => A i j) Hn).
      set z := foldl _ _ _ => Ez; rewrite add0n in Ez.
      split; last by move=> k Hk; rewrite Ez ifN ?g1; [apply: h2| |]; lia.
      move=> r Hr; rewrite -(h1 r Hr) big_ltn //.
      have E2 : \sum_(j.+1 <= k < N) upper unit A r k * z k = \sum_(j.+1 <= k < N) upper unit A r k * x k.
        by apply: eq_big_nat => k Hk; rewrite Ez ifN ?g1 //; lia.
      rewrite E2 addrA; congr (_ + _).
      have Ezj : z j = y j by rewrite Ez ifN //; lia.
      rewrite Ezj; case: (ltngtP r j) => h.
      * rewrite ifT; last by lia. rewrite Ez ifT; last by lia. rewrite g1; last by lia.
        by rewrite upper_lt // (mulrC (A r j)) subrK.
      * rewrite ifN; last by lia. by rewrite upper_gt // mul0r addr0.
      * by rewrite h ltnSn add0r upper_diag g2.
Qed.

Lemma rowLP unit N A b :
  post (fun x => solvesV N (lower unit A) x b /\ forall k, (N <= k)%N -> x k = b k)
       (zero_diag unit N A) (rowL unit N A b).
Proof.
  rewrite /rowL.
  apply: (@post_imp _ (fun x : fv F => (forall r, (r < N)%N -> \sum_(0 <= k < N) lower unit A r k * x k = b r) /\
     forall k, (N <= k)%N -> x k = b k) _ (zero_diag unit N A)) => //.
    by move=> x [h1 h2]; split=> // i Hi; rewrite (@sumN (fun k => lower unit A i k * x k)); apply: h1.
  apply: (@loop_up_inv _ (fun i (x : fv F) =>
     (forall r, (r < i)%N -> \sum_(0 <= k < i) lower unit A r k * x k = b r) /\
     forall k, (i <= k)%N -> x k = b k)) => //.
  - move=> i x Hi [h1 h2].
    have Hn : ~~ (0 <= i < 0 + i)%N by lia.
    move: (fold_dot x (fun j => A i j) Hn).
    set y := foldl _ _ _ => Ey; rewrite add0n in Ey.
    apply: post_imp (divdiagP unit A y Hi) => // x' [g1 [g2 _]]; split.
    + move=> r Hr; rewrite big_nat_recr //=.
      have E2 : \sum_(0 <= k < i) lower unit A r k * x' k = \sum_(0 <= k < i) lower unit A r k * x k.
        apply: eq_big_nat => k Hk; rewrite g1; last by lia.
        by rewrite Ey ifN //; lia.
      rewrite E2; case: (r =P i) => [->|Nr].
      * rewrite lower_diag g2 Ey eqxx (h2 i) // addrC.
        rewrite [X in _ + X = _](_ : _ = \sum_(0 <= j < i) x j * A i j) ?subrK //.
        by apply: eq_big_nat => k Hk; rewrite lower_gt 1?mulrC //; lia.
      * rewrite lower_lt; last by lia. by rewrite mul0r addr0; apply: h1; lia.
    + move=> k Hk; rewrite g1; last by lia. rewrite Ey ifN; last by lia. by apply: h2; lia.
Qed.

Lemma colLP unit N A b :
  post (fun x => solvesV N (lower unit A) x b /\ forall k, (N <= k)%N -> x k = b k)
       (zero_diag unit N A) (colL unit N A b).
Proof.
  rewrite /colL.
  apply: (@post_imp _ (fun x : fv F => (forall r, (r < N)%N -> (if (N <= r)%N then x r else 0) + \sum_(0 <= k < N) lower unit A r k * x k = b r) /\
     forall k, (N <= k)%N -> x k = b k) _ (zero_diag unit N A)) => //.
    move=> x [h1 h2]; split=> // i Hi; rewrite (@sumN (fun k => lower unit A i k * x k)).
    by rewrite -(h1 i Hi) ifN ?add0r //; lia.
  apply: (@loop_up_inv _ (fun j (x : fv F) =>
     (forall r, (r < N)%N -> (if (j <= r)%N then x r else 0) + \sum_(0 <= k < j) lower unit A r k * x k = b r) /\
     forall k, (N <= k)%N -> x k = b k)).
  - by split=> // r Hr; rewrite big_geq // addr0.
  - move=> j x Hj [h1 h2].
    case: eqP => [E0|/eqP N0].
    + split=> // r Hr; rewrite big_nat_recr //= E0 mulr0 addr0 -(h1 r Hr); congr (_ + _).
      by case: (ltngtP r j) => [h|h|->]; rewrite ?leqnn ?(ltnW h) ?E0 //; rewrite ifN //; lia.
    + apply: post_bind; apply: post_imp (divdiagP unit A x Hj) => // y [g1 [g2 _]] /=.
      have Hn : ~~ (j.+1 <= j < j.+1 + (N - j.+1))%N by lia.
      move: (fold_axpy y (fun i => A i j) Hn).
      set z := foldl _ _ _ => Ez. have E1 : (j.+1 + (N - j.+1) = N)%N by lia. rewrite E1 in Ez.
      split; last by move=> k Hk; rewrite Ez ifN ?g1; [apply: h2| |]; lia.
      move=> r Hr; rewrite -(h1 r Hr) big_nat_recr //=.
      have E2 : \sum_(0 <= k < j) lower unit A r k * z k = \sum_(0 <= k < j) lower unit A r k * x k.
        by apply: eq_big_nat => k Hk; rewrite Ez ifN ?g1 //; lia.
      rewrite E2 addrCA [RHS]addrC; congr (_ + _).
      have Ezj : z j = y j by rewrite Ez ifN //; lia.
      rewrite Ezj; case: (ltngtP r j) => h.
      * by rewrite lower_lt // mul0r addr0.
      * rewrite Ez ifT; last by lia. rewrite g1; last by lia.
        by rewrite lower_gt // (mulrC (A r j)) subrK.
      * by rewrite h add0r lower_diag g2.
Qed.

Lemma doUP st unit N A b :
  post (fun x => solvesV N (upper unit A) x b /\ forall k, (N <= k)%N -> x k = b k)
       (zero_diag unit N A) (doU st unit N A b).
Proof. by case: st; [exact: rowUP | exact: colUP | exact: rowUP]. Qed.
Lemma doLP st unit N A b :
  post (fun x => solvesV N (lower unit A) x b /\ forall k, (N <= k)%N -> x k = b k)
       (zero_diag unit N A) (doL st unit N A b).
Proof. by case: st; [exact: rowLP | exact: colLP | exact: rowLP]. Qed.

Lemma trimUP n b : (trimU n b <= n)%N /\ forall k, (trimU n b <= k < n)%N -> b k = 0.
Proof.
  elim: n => [|n [IH1 IH2]] /=; first by split=> // k; lia.
  case: eqP => [E|_]; last by split=> // k; lia.
  split; first by lia. move=> k Hk; case: (k =P n) => [->//|Nk]; apply: IH2; lia.
Qed.
Lemma trimLP n lo b : (lo <= trimL n lo b <= lo + n)%N /\ forall k, (lo <= k < trimL n lo b)%N -> b k = 0.
Proof.
  elim: n lo => [|n IH] lo /=; first by split=> [|k]; lia.
  case: eqP => [E|_]; last by split=> [|k]; lia.
  case: (IH lo.+1) => h1 h2; split; first by lia.
  move=> k Hk; case: (k =P lo) => [->//|Nk]; apply: h2; lia.
Qed.

Lemma TriLDivEqUP st unit N A b :
  post (fun x => solvesV N (upper unit A) x b /\ forall k, (N <= k)%N -> x k = b k)
       (zero_diag unit N A) (TriLDivEqU st unit N A b).
Proof.
  rewrite /TriLDivEqU; case: (trimUP N b) => h1 h2.
  move: h1 h2; set i2 := trimU N b => h1 h2.
  case: eqP => [E|_].
    split=> // i Hi; rewrite big1 ?h2 //; first by lia.
    by move=> k _; rewrite h2 ?mulr0 //; have := ltn_ord k; lia.
  apply: post_bind; apply: post_imp (doUP st unit i2 A b).
  - move=> r [g1 g2] /=; split; last by move=> k Hk; rewrite /putv ifN //; lia.
    move=> i Hi.
    rewrite (@sumN (fun k => upper unit A i k * putv 0 i2 b r k)) (@big_cat_nat _ _ _ i2) //=.
    rewrite [X in _ + X]big1_seq ?addr0; last first.
      move=> k /=; rewrite mem_index_iota => Hk; rewrite /putv ifN; last by lia. by rewrite h2 ?mulr0.
    have -> : \sum_(0 <= i0 < i2) upper unit A i i0 * putv 0 i2 b r i0 = \sum_(0 <= k < i2) upper unit A i k * r k.
      by apply: eq_big_nat => k Hk; rewrite /putv ifT ?subn0 //; lia.
    case: (ltnP i i2) => Hi2; first by rewrite -(g1 i Hi2) (@sumN (fun k => upper unit A i k * r k)).
    rewrite h2; last by lia. by rewrite big1_seq // => k /=; rewrite mem_index_iota => Hk; rewrite upper_gt ?mul0r //; lia.
  - by move=> e [-> [-> [i [Hi E]]]]; split=> //; split=> //; exists i; split=> //; lia.
Qed.

Lemma TriLDivEqLP st unit N A b :
  post (fun x => solvesV N (lower unit A) x b /\ forall k, (N <= k)%N -> x k = b k)
       (zero_diag unit N A) (TriLDivEqL st unit N A b).
Proof.
  rewrite /TriLDivEqL; case: (trimLP N 0 b) => h1 h2.
  move: h1 h2; set i1 := trimL N 0 b => h1 h2; rewrite add0n in h1.
  case: eqP => [E|Ne].
    split=> // i Hi; rewrite big1 ?h2 //; first by lia.
    by move=> k _; rewrite h2 ?mulr0 //; have := ltn_ord k; lia.
  apply: post_bind; apply: post_imp (doLP st unit (N - i1) (subm i1 i1 A) (subv i1 b)).
  - move=> r [g1 g2] /=; split; last by move=> k Hk; rewrite /putv ifN //; lia.
    move=> i Hi.
    rewrite (@sumN (fun k => lower unit A i k * putv i1 (N - i1) b r k)) (@big_cat_nat _ _ _ i1) //=.
    rewrite [X in X + _]big1_seq ?add0r; last first.
      move=> k /=; rewrite mem_index_iota => Hk; rewrite /putv ifN; last by lia. by rewrite h2 ?mulr0 //; lia.
    have -> : \sum_(i1 <= k < N) lower unit A i k * putv i1 (N - i1) b r k
            = \sum_(0 <= k < N - i1) lower unit A i (k + i1)%N * r k.
      rewrite -{1}(add0n i1) big_addn; apply: eq_big_nat => k Hk.
      by rewrite /putv ifT ?addnK //; lia.
    case: (leqP i1 i) => Hi1.
    + have Hs : (i - i1 < N - i1)%N by lia.
      have := g1 _ Hs; rewrite (@sumN (fun k => lower unit (subm i1 i1 A) (i - i1)%N k * r k)) /subv subnKC // => <-.
      apply: eq_big_nat => k Hk; congr (_ * _); rewrite /lower /subm.
      have -> : (i == k + i1)%N = (i - i1 == k)%N by lia.
      have -> : (k + i1 < i)%N = (k < i - i1)%N by lia.
      by rewrite subnKC // (addnC k).
    + rewrite h2; last by lia.
      by rewrite big1_seq // => k /=; rewrite mem_index_iota => Hk; rewrite lower_lt ?mul0r //; lia.
  - move=> e [-> [-> [i [Hi E]]]]; split=> //; split=> //; exists (i1 + i)%N; split=> //; lia.
Qed.

(** ** Matrices *)
Definition framed (N K : nat) (X B : fm F) : Prop :=
  forall r c, ~~ ((r < N)%N && (c < K)%N) -> X r c = B r c.

Lemma rowdivP unit i N K A B : (i < N)%N ->
  post (fun B' => (forall r c, ~~ ((r == i) && (c < K)%N) -> B' r c = B r c) /\
                  (forall c, (c < K)%N -> (if unit then 1 else A i i) * B' i c = B i c))
    (zero_diag unit N A) (rowdiv unit i K A B).
Proof.
  move=> Hi; rewrite /rowdiv; case: unit => /=; first by split=> // c _; rewrite mul1r.
  case: eqP => [E|/eqP NE] /=; first by split=> //; split=> //; exists i.
  split; first by move=> r c Hk; rewrite (negbTE Hk).
  by move=> c Hc; rewrite eqxx Hc /= mulrC divfK.
Qed.

Lemma mrowUP unit N K A B :
  post (fun X => solvesM N K (upper unit A) X B /\ framed N K X B)
       (zero_diag unit N A) (mrowU unit N K A B).
Proof.
  rewrite /mrowU.
  apply: (@post_imp _ (fun x : fm F => (forall r c, (0 <= r < N)%N -> (c < K)%N -> \sum_(0 <= k < N) upper unit A r k * x k c = B r c) /\
     forall r c, ~~ ((0 <= r < N)%N && (c < K)%N) -> x r c = B r c) _ (zero_diag unit N A)) => //.
    move=> x [h1 h2]; split=> [i c Hi Hc|r c]; first by rewrite (@sumN (fun k => upper unit A i k * x k c)); apply: h1.
    by move=> h; apply: h2.
  apply: (@loop_down_inv _ (fun i (x : fm F) =>
     (forall r c, (i <= r < N)%N -> (c < K)%N -> \sum_(i <= k < N) upper unit A r k * x k c = B r c) /\
     forall r c, ~~ ((i <= r < N)%N && (c < K)%N) -> x r c = B r c)).
  - by split=> // r c Hr; lia.
  - move=> i x Hi [h1 h2].
    apply: post_imp (rowdivP unit K A (rowsub i i.+1 N K A x) Hi) => // y [g1 g2]; split.
    + move=> r c Hr Hc; rewrite big_ltn //.
      have E2 : \sum_(i.+1 <= k < N) upper unit A r k * y k c = \sum_(i.+1 <= k < N) upper unit A r k * x k c.
        apply: eq_big_nat => k Hk; rewrite g1; last by lia.
        by rewrite /rowsub ifN //; lia.
      rewrite E2; case: (r =P i) => [->|Nr].
      * rewrite upper_diag g2 // /rowsub eqxx Hc /= (h2 i); last by lia.
        rewrite [X in _ + X = _](_ : _ = \sum_(i.+1 <= k < N) A i k * x k c) ?subrK //.
        by apply: eq_big_nat => k Hk; rewrite upper_lt //; lia.
      * rewrite upper_gt; last by lia. by rewrite mul0r add0r; apply: h1 => //; lia.
    + move=> r c Hk; rewrite g1; last by lia. rewrite /rowsub ifN; last by lia. by apply: h2; lia.
Qed.

Lemma mcolUP unit N K A B :
  post (fun X => solvesM N K (upper unit A) X B /\ framed N K X B)
       (zero_diag unit N A) (mcolU unit N K A B).
Proof.
  rewrite /mcolU.
  apply: (@post_imp _ (fun x : fm F => (forall r c, (r < N)%N -> (c < K)%N -> (if (r < 0)%N then x r c else 0) + \sum_(0 <= k < N) upper unit A r k * x k c = B r c) /\
     framed N K x B) _ (zero_diag unit N A)) => //.
    move=> x [h1 h2]; split=> // i c Hi Hc; rewrite (@sumN (fun k => upper unit A i k * x k c)).
    by rewrite -(h1 i c Hi Hc) /= add0r.
  apply: (@loop_down_inv _ (fun j (x : fm F) =>
     (forall r c, (r < N)%N -> (c < K)%N -> (if (r < j)%N then x r c else 0) + \sum_(j <= k < N) upper unit A r k * x k c = B r c) /\
     framed N K x B)).
  - by split=> // r c Hr Hc; rewrite Hr big_geq // addr0.
  - move=> j x Hj [h1 h2].
    apply: post_bind; apply: post_imp (rowdivP unit K A x Hj) => // y [g1 g2] /=.
    split; last by move=> r c Hk; rewrite /outersub ifN ?g1; [apply: h2| |]; lia.
    move=> r c Hr Hc; rewrite -(h1 r c Hr Hc) big_ltn //.
    have E2 : \sum_(j.+1 <= k < N) upper unit A r k * outersub j 0 j K A y k c = \sum_(j.+1 <= k < N) upper unit A r k * x k c.
      by apply: eq_big_nat => k Hk; rewrite /outersub ifN ?g1 //; lia.
    rewrite E2 addrA; congr (_ + _).
    have Ezj : outersub j 0 j K A y j c = y j c by rewrite /outersub ifN //; lia.
    rewrite Ezj; case: (ltngtP r j) => h.
    * rewrite ifT; last by lia. rewrite /outersub ifT; last by lia. rewrite g1; last by lia.
      by rewrite upper_lt // subrK.
    * rewrite ifN; last by lia. by rewrite upper_gt // mul0r addr0.
    * by rewrite h ltnSn add0r upper_diag g2.
Qed.

Lemma mrowLP unit N K A B :
  post (fun X => solvesM N K (lower unit A) X B /\ framed N K X B)
       (zero_diag unit N A) (mrowL unit N K A B).
Proof.
  rewrite /mrowL.
  apply: (@post_imp _ (fun x : fm F => (forall r c, (r < N)%N -> (c < K)%N -> \sum_(0 <= k < N) lower unit A r k * x k c = B r c) /\
     framed N K x B) _ (zero_diag unit N A)) => //.
    by move=> x [h1 h2]; split=> // i c Hi Hc; rewrite (@sumN (fun k => lower unit A i k * x k c)); apply: h1.
  apply: (@loop_up_inv _ (fun i (x : fm F) =>
     (forall r c, (r < i)%N -> (c < K)%N -> \sum_(0 <= k < i) lower unit A r k * x k c = B r c) /\
     framed i K x B)) => //.
  - move=> i x Hi [h1 h2].
    apply: post_imp (rowdivP unit K A (rowsub i 0 i K A x) Hi) => // y [g1 g2]; split.
    + move=> r c Hr Hc; rewrite big_nat_recr //=.
      have E2 : \sum_(0 <= k < i) lower unit A r k * y k c = \sum_(0 <= k < i) lower unit A r k * x k c.
        apply: eq_big_nat => k Hk; rewrite g1; last by lia.
        by rewrite /rowsub ifN //; lia.
      rewrite E2; case: (r =P i) => [->|Nr].
      * rewrite lower_diag g2 // /rowsub eqxx Hc /= (h2 i c); last by lia. rewrite addrC.
        rewrite [X in _ + X = _](_ : _ = \sum_(0 <= k < i) A i k * x k c) ?subrK //.
        by apply: eq_big_nat => k Hk; rewrite lower_gt //; lia.
      * rewrite lower_lt; last by lia. by rewrite mul0r addr0; apply: h1 => //; lia.
    + move=> r c Hk; rewrite g1; last by lia. rewrite /rowsub ifN; last by lia. by apply: h2; lia.
Qed.

Lemma mcolLP unit N K A B :
  post (fun X => solvesM N K (lower unit A) X B /\ framed N K X B)
       (zero_diag unit N A) (mcolL unit N K A B).
Proof.
  rewrite /mcolL.
  apply: (@post_imp _ (fun x : fm F => (forall r c, (r < N)%N -> (c < K)%N -> (if (N <= r)%N then x r c else 0) + \sum_(0 <= k < N) lower unit A r k * x k c = B r c) /\
     framed N K x B) _ (zero_diag unit N A)) => //.
    move=> x [h1 h2]; split=> // i c Hi Hc; rewrite (@sumN (fun k => lower unit A i k * x k c)).
    by rewrite -(h1 i c Hi Hc) ifN ?add0r //; lia.
  apply: (@loop_up_inv _ (fun j (x : fm F) =>
     (forall r c, (r < N)%N -> (c < K)%N -> (if (j <= r)%N then x r c else 0) + \sum_(0 <= k < j) lower unit A r k * x k c = B r c) /\
     framed N K x B)).
  - by split=> // r c Hr Hc; rewrite big_geq // addr0.
  - move=> j x Hj [h1 h2].
    apply: post_bind; apply: post_imp (rowdivP unit K A x Hj) => // y [g1 g2] /=.
    split; last by move=> r c Hk; rewrite /outersub ifN ?g1; [apply: h2| |]; lia.
    move=> r c Hr Hc; rewrite -(h1 r c Hr Hc) big_nat_recr //=.
    have E2 : \sum_(0 <= k < j) lower unit A r k * outersub j j.+1 N K A y k c = \sum_(0 <= k < j) lower unit A r k * x k c.
      by apply: eq_big_nat => k Hk; rewrite /outersub ifN ?g1 //; lia.
    rewrite E2 addrCA [RHS]addrC; congr (_ + _).
    have Ezj : outersub j j.+1 N K A y j c = y j c by rewrite /outersub ifN //; lia.
    rewrite Ezj; case: (ltngtP r j) => h.
    * by rewrite lower_lt // mul0r addr0.
    * rewrite /outersub ifT; last by lia. rewrite g1; last by lia. by rewrite lower_gt // subrK.
    * by rewrite h add0r lower_diag g2.
Qed.

Lemma percolP (T : fm F) (X0 : exn -> Prop) solve N K B :
  (forall b, post (fun x => solvesV N T x b /\ forall k, (N <= k)%N -> x k = b k) X0 (solve b)) ->
  post (fun X => solvesM N K T X B /\ framed N K X B) X0 (percol solve N K B).
Proof.
  move=> Hs; rewrite /percol.
  apply: (@loop_up_inv _ (fun j (x : fm F) => solvesM N j T x B /\ framed N j x B)) => //.
  move=> j x Hj [h1 h2]; apply: post_bind.
  apply: post_imp (Hs (fun i => x i j)) => // r [g1 g2] /=; split.
  - move=> i c Hi Hc; rewrite /setcol; case: (c =P j) => [Ec|Nc] /=.
    + have := g1 i Hi; rewrite (h2 i j) ?Ec; last by lia. move=> <-.
      by apply: eq_bigr => k _; rewrite ltn_ord.
    + by apply: h1 => //; lia.
  - move=> i c Hic; rewrite /setcol; case: ifP => h; last by apply: h2; lia.
    by move: h Hic => /andP [/eqP -> ->]; rewrite ltnSn.
Qed.

Lemma upper_subm unit o A i j : upper unit (subm o o A) i j = upper unit A (o + i)%N (o + j)%N.
Proof. by rewrite /upper /subm eqn_add2l ltn_add2l. Qed.
Lemma lower_subm unit o A i j : lower unit (subm o o A) i j = lower unit A (o + i)%N (o + j)%N.
Proof. by rewrite /lower /subm eqn_add2l ltn_add2l. Qed.

(** T X = B on rows [o,o+N), the rest of B untouched. *)
Definition bsolves (o N K : nat) (T X B : fm F) : Prop :=
  (forall i c, (o <= i < o + N)%N -> (c < K)%N -> \sum_(o <= k < o + N) T i k * X k c = B i c) /\
  (forall r c, ~~ ((o <= r < o + N)%N && (c < K)%N) -> X r c = B r c).

Lemma base_bsolves o N K (T T' S B : fm F) :
  (forall i j, T' i j = T (o + i)%N (o + j)%N) ->
  solvesM N K T' S (subm o 0 B) -> framed N K S (subm o 0 B) ->
  bsolves o N K T (putm o 0 N K B S) B.
Proof.
  move=> HT h1 h2; split=> [i c Hi Hc|r c H]; last by rewrite /putm ifN //; lia.
  have Hs : (i - o < N)%N by lia.
  have := h1 _ c Hs Hc; rewrite (@sumN (fun k => T' (i - o)%N k * S k c)) /subm subnKC; last by lia.
  rewrite add0n => <-.
  rewrite -{1}(add0n o) big_addn addKn; apply: eq_big_nat => k Hk.
  rewrite HT /putm ifT; last by lia. by rewrite addnK subn0 (addnC k) subnKC //; lia.
Qed.

Lemma zero_diag_sub unit o N n A e : (o + n <= N)%N -> zero_diag unit n (subm o o A) e -> zero_diag unit N A e.
Proof.
  move=> h [-> [-> [i [Hi E]]]]; split=> //; split=> //; exists (o + i)%N; split=> //; lia.
Qed.
Lemma zero_diag_le unit n N A e : (n <= N)%N -> zero_diag unit n A e -> zero_diag unit N A e.
Proof. move=> h [-> [-> [i [Hi E]]]]; split=> //; split=> //; exists i; split=> //; lia. Qed.

Section Blocks.
Variables nb nb2 : nat.
Hypothesis nbP : (0 < nb)%N.
Hypothesis nb2P : (0 < nb2)%N.

Lemma halveP N : (nb2 < N)%N -> (0 < halve nb N < N)%N.
Proof.
  move=> h; rewrite /halve.
  case: ifP => h2.
  - have h3 : (N %/ 2 %/ nb * nb <= N %/ 2)%N by apply: leq_trunc_div.
    have h4 : (0 < N %/ 2 %/ nb)%N by rewrite divn_gt0 // ltnW.
    have h5 : (0 < N %/ 2 %/ nb * nb)%N by rewrite muln_gt0 h4.
    have h6 : (N %/ 2 < N)%N by lia.
    apply/andP; split=> //; exact: leq_ltn_trans h3 h6.
  - have h1 : (0 < N)%N by lia.
    by lia.
Qed.

Lemma solveUP fuel stA stB unit o N K A B : (N < fuel)%N ->
  post (fun X => bsolves o N K (upper unit A) X B) (zero_diag unit (o + N) A)
    (solveU nb nb2 fuel stA stB unit o N K A B).
Proof.
  elim: fuel o N B => [//|f IH] o N B Hf /=.
  case: (leqP N nb2) => HN.
  - apply: post_bind.
    apply: (@post_imp _ (fun S => solvesM N K (upper unit (subm o o A)) S (subm o 0 B) /\ framed N K S (subm o 0 B)) _
      (zero_diag unit N (subm o o A))).
    + by move=> S [h1 h2] /=; apply: base_bsolves h1 h2 => i j; rewrite upper_subm.
    + by move=> e; apply: zero_diag_sub.
    + clear IH; case: stB; case: stA; try exact: mrowUP; try exact: mcolUP;
        by apply: percolP => b; apply: TriLDivEqUP.
  - have Hk := halveP HN; move: Hk; set k := halve nb N => Hk.
    apply: post_bind; apply: (@post_imp _ (fun X => bsolves (o + k) (N - k) K (upper unit A) X B) _
      (zero_diag unit (o + k + (N - k)) A)); last by apply: IH; lia.
    2: by move=> e; apply: zero_diag_le; lia.
    move=> B1 [g1 g2].
    apply: (@post_imp _ (fun X => bsolves o k K (upper unit A) X (blocksub o k (o + k) (N - k) K A B1)) _
      (zero_diag unit (o + k) A)); last by apply: IH; lia.
    2: by move=> e; apply: zero_diag_le; lia.
    move=> X [h1 h2].
    have EN : (o + k + (N - k) = o + N)%N by lia.
    rewrite EN in g1 g2.
    split=> [i c Hi Hc|r c Hrc]; last first.
      rewrite h2; last by lia. rewrite /blocksub ifN; last by lia. by apply: g2; lia.
    have EX : forall k', (o + k <= k' < o + N)%N -> X k' c = B1 k' c.
      by move=> k' Hk'; rewrite h2 ?/blocksub ?ifN //; lia.
    rewrite (@big_cat_nat _ _ _ (o + k)%N) //=; [|lia..].
    have E2 : \sum_(o + k <= k' < o + N) upper unit A i k' * X k' c = \sum_(o + k <= k' < o + N) upper unit A i k' * B1 k' c.
      by apply: eq_big_nat => k' Hk'; rewrite EX.
    rewrite E2; case: (ltnP i (o + k)%N) => Hik.
    + rewrite h1 //; last by lia. rewrite /blocksub ifT ?EN; last by lia.
      rewrite (g2 i c); last by lia.
      rewrite [X in _ - X + _](_ : _ = \sum_(o + k <= k' < o + N) upper unit A i k' * B1 k' c) ?subrK //.
      by apply: eq_big_nat => k' Hk'; rewrite upper_lt //; lia.
    + rewrite big1_seq ?add0r; last first.
        by move=> k' /=; rewrite mem_index_iota => Hk'; rewrite upper_gt ?mul0r //; lia.
      by apply: g1 => //; lia.
Qed.

Lemma solveLP fuel stA stB unit o N K A B : (N < fuel)%N ->
  post (fun X => bsolves o N K (lower unit A) X B) (zero_diag unit (o + N) A)
    (solveL nb nb2 fuel stA stB unit o N K A B).
Proof.
  elim: fuel o N B => [//|f IH] o N B Hf /=.
  case: (leqP N nb2) => HN.
  - apply: post_bind.
    apply: (@post_imp _ (fun S => solvesM N K (lower unit (subm o o A)) S (subm o 0 B) /\ framed N K S (subm o 0 B)) _
      (zero_diag unit N (subm o o A))).
    + by move=> S [h1 h2] /=; apply: base_bsolves h1 h2 => i j; rewrite lower_subm.
    + by move=> e; apply: zero_diag_sub.
    + clear IH; case: stB; case: stA; try exact: mrowLP; try exact: mcolLP;
        by apply: percolP => b; apply: TriLDivEqLP.
  - have Hk := halveP HN; move: Hk; set k := halve nb N => Hk.
    apply: post_bind; apply: (@post_imp _ (fun X => bsolves o k K (lower unit A) X B) _
      (zero_diag unit (o + k) A)); last by apply: IH; lia.
    2: by move=> e; apply: zero_diag_le; lia.
    move=> B0 [g1 g2].
    apply: (@post_imp _ (fun X => bsolves (o + k) (N - k) K (lower unit A) X (blocksub (o + k) (N - k) o k K A B0)) _
      (zero_diag unit (o + k + (N - k)) A)); last by apply: IH; lia.
    2: by move=> e; apply: zero_diag_le; lia.
    move=> X [h1 h2].
    have EN : (o + k + (N - k) = o + N)%N by lia.
    rewrite EN in h1 h2.
    split=> [i c Hi Hc|r c Hrc]; last first.
      rewrite h2; last by lia. rewrite /blocksub ifN; last by lia. by apply: g2; lia.
    have EX : forall k', (o <= k' < o + k)%N -> X k' c = B0 k' c.
      by move=> k' Hk'; rewrite h2 ?/blocksub ?ifN //; lia.
    rewrite (@big_cat_nat _ _ _ (o + k)%N) //=; [|lia..].
    have E2 : \sum_(o <= k' < o + k) lower unit A i k' * X k' c = \sum_(o <= k' < o + k) lower unit A i k' * B0 k' c.
      by apply: eq_big_nat => k' Hk'; rewrite EX.
    rewrite E2; case: (ltnP i (o + k)%N) => Hik.
    + rewrite [X in _ + X]big1_seq ?addr0; last first.
        by move=> k' /=; rewrite mem_index_iota => Hk'; rewrite lower_lt ?mul0r //; lia.
      by apply: g1 => //; lia.
    + rewrite h1 //; last by lia. rewrite /blocksub ifT ?EN; last by lia.
      rewrite (g2 i c); last by lia. rewrite addrCA.
      rewrite [X in _ + (_ - X)](_ : _ = \sum_(o <= k' < o + k) lower unit A i k' * B0 k' c) ?subrr ?addr0 //.
      by apply: eq_big_nat => k' Hk'; rewrite lower_gt //; lia.
Qed.

Lemma TriLDivEqMUP stA stB unit N K A B :
  post (fun X => solvesM N K (upper unit A) X B /\ framed N K X B)
       (zero_diag unit N A) (TriLDivEqMU nb nb2 stA stB unit N K A B).
Proof.
  rewrite /TriLDivEqMU; case: ifP => h; last by split=> // i c; lia.
  case: eqP => [EK|_].
  - subst K; apply: post_bind; apply: post_imp (TriLDivEqUP stA unit N A (fun i => B i 0%N)) => // x [h1 h2] /=; split.
    + move=> i c Hi Hc; have -> : c = 0%N by lia. rewrite -(h1 i Hi).
      by apply: eq_bigr => k _; rewrite /setcol eqxx ltn_ord.
    + by move=> r c Hr; rewrite /setcol ifN //; lia.
  - apply: post_imp (solveUP stA stB unit 0 K A B (ltnSn N)) => // X [h1 h2]; split.
    + by move=> i c Hi Hc; rewrite (@sumN (fun k => upper unit A i k * X k c)); apply: h1.
    + by move=> r c Hr; apply: h2.
Qed.
Lemma TriLDivEqMLP stA stB unit N K A B :
  post (fun X => solvesM N K (lower unit A) X B /\ framed N K X B)
       (zero_diag unit N A) (TriLDivEqML nb nb2 stA stB unit N K A B).
Proof.
  rewrite /TriLDivEqML; case: ifP => h; last by split=> // i c; lia.
  case: eqP => [EK|_].
  - subst K; apply: post_bind; apply: post_imp (TriLDivEqLP stA unit N A (fun i => B i 0%N)) => // x [h1 h2] /=; split.
    + move=> i c Hi Hc; have -> : c = 0%N by lia. rewrite -(h1 i Hi).
      by apply: eq_bigr => k _; rewrite /setcol eqxx ltn_ord.
    + by move=> r c Hr; rewrite /setcol ifN //; lia.
  - apply: post_imp (solveLP stA stB unit 0 K A B (ltnSn N)) => // X [h1 h2]; split.
    + by move=> i c Hi Hc; rewrite (@sumN (fun k => lower unit A i k * X k c)); apply: h1.
    + by move=> r c Hr; apply: h2.
Qed.
End Blocks.
End Proofs.
