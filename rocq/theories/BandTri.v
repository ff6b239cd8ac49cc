(** Division by a triangular band matrix: src/TMV_BandTriDiv_V.cpp and
    src/TMV_BandTriDiv_M.cpp, the code without BLAS and LAPACK, exact arithmetic.
    A band matrix is an index function of which only the elements inside the band
    exist; the specifications speak of the matrix [bandm nlo nhi A], which is zero
    outside the band, whatever the function says there. *)
From mathcomp Require Import all_ssreflect all_fingroup all_algebra zify.
From Verif Require Import Base FMat TriSolve.
Set Implicit Arguments. Unset Strict Implicit. Unset Printing Implicit Defensive.
Import GRing.Theory.
Local Open Scope ring_scope.

(** The matrix a band view with nlo sub- and nhi superdiagonals denotes. *)
Definition bandm (F : ringType) (nlo nhi : nat) (A : fm F) : fm F :=
  fun i j => if (i <= j + nlo)%N && (j <= i + nhi)%N then A i j else 0.

Section Model.
Variable F : fieldType.
Implicit Types (A B : fm F) (b : fv F).

(** ** Vectors, TMV_BandTriDiv_V.cpp *)

(** The zero test and division by the diagonal element found at (i,j). *)
Definition divat (unit : bool) A (i j : nat) b : outcome (fv F) :=
  if unit then Ok b else if A i j == 0 then Throw Singular else Ok (updv b i (b i / A i j)).

(** DoRowUpperTriLDivEq, 61-136: the last row before the loop, then the rows r =
    i-1 from N-2 to 0; k and len as there. *)
Definition browU (unit : bool) (N nhi : nat) A b : outcome (fv F) :=
  bindO (divat unit A N.-1 N.-1 b) (fun b =>
  bindO (loop (down N.-1) (fun r (S : fv F * (nat * nat)) =>
    let: (b, (k, len)) := S in
    bindO (divat unit A r r (foldl (fun b j => updv b r (b r - b j * A r j)) b (iota r.+1 len)))
      (fun b => Ok (b, if (0 < k)%N then (k.-1, len.+1) else (k, len))))
    (b, (nhi.-1, 1%N))) (fun S => Ok S.1)).

(** DoColUpperTriLDivEq, 149-223: the loop on len, with the column j and its first
    row i1 moving; then the element where the loop stopped.  [fuel] bounds the
    number of passes: UB when it runs out. *)
Fixpoint bcolUloop (fuel : nat) (unit : bool) A (j i1 len : nat) b : outcome (fv F * nat) :=
  if len == 0%N then Ok (b, j) else
  match fuel with
  | 0 => UB
  | f.+1 =>
    bindO (if b j == 0 then Ok b else
           bindO (divat unit A j j b) (fun b =>
           Ok (foldl (fun b i => updv b i (b i - b j * A i j)) b (iota i1 len)))) (fun b =>
    if (0 < i1)%N then bcolUloop f unit A j.-1 i1.-1 len b
    else bcolUloop f unit A j.-1 i1 len.-1 b)
  end.
Definition bcolU (unit : bool) (N nhi : nat) A b : outcome (fv F) :=
  let i1 := if (nhi < N.-1)%N then (N.-1 - nhi)%N else 0%N in
  bindO (bcolUloop N unit A N.-1 i1 (N.-1 - i1) b) (fun S =>
  if S.1 S.2 == 0 then Ok S.1 else divat unit A S.2 S.2 S.1).

(** DoRowLowerTriLDivEq, 236-305: after the inner loop the pointer is taken to be at
    the diagonal element. *)
Definition browL (unit : bool) (N nlo : nat) A b : outcome (fv F) :=
  bindO (divat unit A 0 0 b) (fun b =>
  bindO (loop (iota 1 N.-1) (fun i (S : fv F * (nat * nat * nat)) =>
    let: (b, (k, len, j1)) := S in
    bindO (divat unit A i (j1 + len) (foldl (fun b j => updv b i (b i - b j * A i j)) b (iota j1 len)))
      (fun b => Ok (b, if (0 < k)%N then (k.-1, len.+1, j1) else (k, len, j1.+1))))
    (b, (nlo.-1, 1%N, 0%N))) (fun S => Ok S.1)).

(** DoColLowerTriLDivEq, 318-390. *)
Fixpoint bcolLloop (fuel : nat) (unit : bool) A (N j i2 len : nat) b : outcome (fv F * nat) :=
  if len == 0%N then Ok (b, j) else
  match fuel with
  | 0 => UB
  | f.+1 =>
    bindO (if b j == 0 then Ok b else
           bindO (divat unit A j j b) (fun b =>
           Ok (foldl (fun b i => updv b i (b i - b j * A i j)) b (iota j.+1 len)))) (fun b =>
    if (i2 < N)%N then bcolLloop f unit A N j.+1 i2.+1 len b
    else bcolLloop f unit A N j.+1 i2 len.-1 b)
  end.
Definition bcolL (unit : bool) (N nlo : nat) A b : outcome (fv F) :=
  let i2 := minn nlo.+1 N in
  bindO (bcolLloop N unit A N 0 i2 i2.-1 b) (fun S =>
  if S.1 S.2 == 0 then Ok S.1 else divat unit A S.2 S.2 S.1).

(** b /= DiagMatrixViewOf(A.diag()), src/TMV_DiagMatrix.cpp:296-350. *)
Definition diagdiv (N : nat) A b : outcome (fv F) := loop (up N) (fun i b => divat false A i i b) b.

(** UpperTriLDivEq, LowerTriLDivEq, 403-441. *)
Definition bdoU (st : stor) (unit : bool) (N nhi : nat) A b : outcome (fv F) :=
  if nhi == 0%N then (if unit then Ok b else diagdiv N A b)
  else match st with RM => browU unit N nhi A b | CM => bcolU unit N nhi A b | XM => browU unit N nhi A b end.
Definition bdoL (st : stor) (unit : bool) (N nlo : nat) A b : outcome (fv F) :=
  if nlo == 0%N then (if unit then Ok b else diagdiv N A b)
  else match st with RM => browL unit N nlo A b | CM => bcolL unit N nlo A b | XM => browL unit N nlo A b end.

(** NonBlasTriLDivEq, 444-490, and TriLDivEq, 662-704.  (Non-unit step: solved in a
    copy; conjugated b: both operands conjugated.) *)
Definition BTriLDivEqU (st : stor) (unit : bool) (N nhi : nat) A b : outcome (fv F) :=
  let i2 := trimU N b in
  if i2 == 0%N then Ok b
  else if i2 == N then bdoU st unit N nhi A b
  else bindO (bdoU st unit i2 (if (nhi < i2)%N then nhi else i2.-1) A b) (fun r => Ok (putv 0 i2 b r)).
Definition BTriLDivEqL (st : stor) (unit : bool) (N nlo : nat) A b : outcome (fv F) :=
  let i1 := trimL N 0 b in
  if i1 == N then Ok b
  else if i1 == 0%N then bdoL st unit N nlo A b
  else bindO (bdoL st unit (N - i1) (if (nlo < N - i1)%N then nlo else (N - i1).-1) (subm i1 i1 A) (subv i1 b))
         (fun r => Ok (putv i1 (N - i1) b r)).

(** ** Matrices, TMV_BandTriDiv_M.cpp *)

(** RowUpperTriLDivEq, 46-85: [if (k > 0) --k; else --N;]. *)
Definition bmrowU (unit : bool) (N nhi K : nat) A B : outcome (fm F) :=
  bindO (loop (down N) (fun i (S : fm F * (nat * nat)) =>
    let: (B, (k, n)) := S in
    bindO (rowdiv unit i K A (rowsub i i.+1 n K A B))
      (fun B => Ok (B, if (0 < k)%N then (k.-1, n) else (k, n.-1)))) (B, (nhi, N))) (fun S => Ok S.1).
(** ColUpperTriLDivEq, 87-127.  (For a unit diagonal the loop stops before column 0,
    where there is nothing to do.) *)
Definition bmcolU (unit : bool) (N nhi K : nat) A B : outcome (fm F) :=
  bindO (loop (down N) (fun j (S : fm F * nat) =>
    let: (B, i1) := S in
    bindO (rowdiv unit j K A B) (fun B => Ok (outersub j i1 j K A B, i1.-1)))
    (B, (N.-1 - nhi)%N)) (fun S => Ok S.1).
(** RowLowerTriLDivEq, 129-168. *)
Definition bmrowL (unit : bool) (N nlo K : nat) A B : outcome (fm F) :=
  bindO (loop (up N) (fun i (S : fm F * (nat * nat)) =>
    let: (B, (k, i1)) := S in
    bindO (rowdiv unit i K A (rowsub i i1 i K A B))
      (fun B => Ok (B, if (0 < k)%N then (k.-1, i1) else (k, i1.+1)))) (B, (nlo, 0%N))) (fun S => Ok S.1).
(** ColLowerTriLDivEq, 170-206. *)
Definition bmcolL (unit : bool) (N nlo K : nat) A B : outcome (fm F) :=
  bindO (loop (up N) (fun j (S : fm F * nat) =>
    let: (B, i2) := S in
    bindO (rowdiv unit j K A B) (fun B =>
      Ok (outersub j j.+1 i2 K A B, if (i2 < N)%N then i2.+1 else i2))) (B, nlo.+1)) (fun S => Ok S.1).

(** NonLapTriLDivEq, 208-239, and TriLDivEq, 392-440. *)
Definition BTriLDivEqMU (stA stB : stor) (unit : bool) (N nhi K : nat) A B : outcome (fm F) :=
  if K == 0%N then Ok B
  else if K == 1%N then bindO (BTriLDivEqU stA unit N nhi A (fun i => B i 0%N)) (fun r => Ok (setcol 0 N B r))
  else match stB, stA with
       | RM, CM => bmcolU unit N nhi K A B
       | RM, _ => bmrowU unit N nhi K A B
       | _, _ => percol (BTriLDivEqU stA unit N nhi A) N K B
       end.
Definition BTriLDivEqML (stA stB : stor) (unit : bool) (N nlo K : nat) A B : outcome (fm F) :=
  if K == 0%N then Ok B
  else if K == 1%N then bindO (BTriLDivEqL stA unit N nlo A (fun i => B i 0%N)) (fun r => Ok (setcol 0 N B r))
  else match stB, stA with
       | RM, CM => bmcolL unit N nlo K A B
       | RM, _ => bmrowL unit N nlo K A B
       | _, _ => percol (BTriLDivEqL stA unit N nlo A) N K B
       end.
End Model.

(** * Proofs *)
Section Steps.
Variable F : fieldType.
Implicit Types (A B T : fm F) (b x y : fv F).

(** One step of back or forward substitution, by rows and by columns. *)
Definition invRU N T b i x : Prop :=
  (forall r, (i <= r < N)%N -> \sum_(i <= k < N) T r k * x k = b r) /\
  (forall k, ~~ (i <= k < N)%N -> x k = b k).
Definition invCU N T b j x : Prop :=
  (forall r, (r < N)%N -> (if (r < j)%N then x r else 0) + \sum_(j <= k < N) T r k * x k = b r) /\
  (forall k, (N <= k)%N -> x k = b k).
Definition invRL T b i x : Prop :=
  (forall r, (r < i)%N -> \sum_(0 <= k < i) T r k * x k = b r) /\
  (forall k, (i <= k)%N -> x k = b k).
Definition invCL N T b j x : Prop :=
  (forall r, (r < N)%N -> (if (j <= r)%N then x r else 0) + \sum_(0 <= k < j) T r k * x k = b r) /\
  (forall k, (N <= k)%N -> x k = b k).

Lemma stepRU N T b i x y : (forall r k, (k < r)%N -> T r k = 0) -> (i < N)%N -> invRU N T b i.+1 x ->
  (forall k, k != i -> y k = x k) -> T i i * y i = x i - \sum_(i.+1 <= k < N) T i k * x k ->
  invRU N T b i y.
Proof.
  move=> HT Hi [h1 h2] g1 g2.
  have E r : \sum_(i.+1 <= k < N) T r k * y k = \sum_(i.+1 <= k < N) T r k * x k.
    by apply: eq_big_nat => k Hk; rewrite g1 //; lia.
  split=> [r Hr|k Hk]; last by rewrite g1 ?h2 //; lia.
  rewrite big_ltn // E; case: (r =P i) => [->|Nr]; first by rewrite g2 subrK h2 //; lia.
  rewrite HT; last by lia. by rewrite mul0r add0r h1 //; lia.
Qed.

Lemma stepCU N T b j x y : (forall r k, (k < r)%N -> T r k = 0) -> (j < N)%N -> invCU N T b j.+1 x ->
  (forall k, (j < k)%N -> y k = x k) -> T j j * y j = x j ->
  (forall r, (r < j)%N -> y r = x r - T r j * y j) -> invCU N T b j y.
Proof.
  move=> HT Hj [h1 h2] g1 g2 g3.
  split=> [r Hr|k Hk]; last by rewrite g1 ?h2 //; lia.
  rewrite -(h1 r Hr) big_ltn //.
  have -> : \sum_(j.+1 <= k < N) T r k * y k = \sum_(j.+1 <= k < N) T r k * x k.
    by apply: eq_big_nat => k Hk; rewrite g1 //; lia.
  rewrite addrA; congr (_ + _); case: (ltngtP r j) => h.
  - rewrite ifT; last by lia. by rewrite g3 // subrK.
  - rewrite ifN; last by lia. by rewrite HT // mul0r addr0.
  - by rewrite h ltnSn add0r g2.
Qed.

Lemma stepRL T b i x y : (forall r k, (r < k)%N -> T r k = 0) -> invRL T b i x ->
  (forall k, k != i -> y k = x k) -> T i i * y i = x i - \sum_(0 <= k < i) T i k * x k ->
  invRL T b i.+1 y.
Proof.
  move=> HT [h1 h2] g1 g2.
  have E r : \sum_(0 <= k < i) T r k * y k = \sum_(0 <= k < i) T r k * x k.
    by apply: eq_big_nat => k Hk; rewrite g1 //; lia.
  split=> [r Hr|k Hk]; last by rewrite g1 ?h2 //; lia.
  rewrite big_nat_recr //= E; case: (r =P i) => [->|Nr]; first by rewrite g2 addrC subrK h2.
  rewrite HT; last by lia. by rewrite mul0r addr0 h1 //; lia.
Qed.

Lemma stepCL N T b j x y : (forall r k, (r < k)%N -> T r k = 0) -> (j < N)%N -> invCL N T b j x ->
  (forall k, (k < j)%N || (N <= k)%N -> y k = x k) -> T j j * y j = x j ->
  (forall r, (j < r < N)%N -> y r = x r - T r j * y j) -> invCL N T b j.+1 y.
Proof.
  move=> HT Hj [h1 h2] g1 g2 g3.
  split=> [r Hr|k Hk]; last by rewrite g1 ?h2 ?Hk ?orbT.
  rewrite -(h1 r Hr) big_nat_recr //=.
  have -> : \sum_(0 <= k < j) T r k * y k = \sum_(0 <= k < j) T r k * x k.
    by apply: eq_big_nat => k Hk; rewrite g1 //; lia.
  rewrite addrCA [RHS]addrC; congr (_ + _); case: (ltngtP r j) => h.
  - by rewrite HT // mul0r addr0.
  - by rewrite g3 ?subrK //; lia.
  - by rewrite h add0r g2.
Qed.

Lemma invRU0 N T b x : invRU N T b 0 x -> solvesV N T x b /\ forall k, (N <= k)%N -> x k = b k.
Proof.
  move=> [h1 h2]; split=> [i Hi|k Hk]; last by apply: h2; lia.
  by rewrite (@sumN F (fun k => T i k * x k)); apply: h1.
Qed.
Lemma invCU0 N T b x : invCU N T b 0 x -> solvesV N T x b /\ forall k, (N <= k)%N -> x k = b k.
Proof.
  move=> [h1 h2]; split=> // i Hi.
  by rewrite (@sumN F (fun k => T i k * x k)) -(h1 i Hi) add0r.
Qed.
Lemma invRLN N T b x : invRL T b N x -> solvesV N T x b /\ forall k, (N <= k)%N -> x k = b k.
Proof.
  move=> [h1 h2]; split=> // i Hi.
  by rewrite (@sumN F (fun k => T i k * x k)); apply: h1.
Qed.
Lemma invCLN N T b x : invCL N T b N x -> solvesV N T x b /\ forall k, (N <= k)%N -> x k = b k.
Proof.
  move=> [h1 h2]; split=> // i Hi.
  by rewrite (@sumN F (fun k => T i k * x k)) -(h1 i Hi) ifN ?add0r //; lia.
Qed.
Lemma invRU_start N T b : invRU N T b N b.
Proof. by split=> // r Hr; lia. Qed.
Lemma invCU_start N T b : invCU N T b N b.
Proof. by split=> // r Hr; rewrite Hr big_geq // addr0. Qed.
Lemma invRL_start T b : invRL T b 0 b.
Proof. by []. Qed.
Lemma invCL_start N T b : invCL N T b 0 b.
Proof. by split=> // r Hr; rewrite big_geq // addr0. Qed.

(** The sums over a row stop at the edge of the band. *)
Lemma sum_up T x r (m N : nat) : (r < m <= N)%N -> (forall k, (m <= k < N)%N -> T r k = 0) ->
  \sum_(r.+1 <= k < N) T r k * x k = \sum_(r.+1 <= k < m) T r k * x k.
Proof.
  move=> Hm H; rewrite (@big_cat_nat _ _ _ m) /=; [|lia..].
  by rewrite [X in _ + X]big1_seq ?addr0 // => k /=; rewrite mem_index_iota => Hk; rewrite H ?mul0r //; lia.
Qed.
Lemma sum_lo T x r (m : nat) : (m <= r)%N -> (forall k, (k < m)%N -> T r k = 0) ->
  \sum_(0 <= k < r) T r k * x k = \sum_(m <= k < r) T r k * x k.
Proof.
  move=> Hm H; rewrite (@big_cat_nat _ _ _ m) /=; [|lia..].
  by rewrite [X in X + _]big1_seq ?add0r // => k /=; rewrite mem_index_iota => Hk; rewrite H ?mul0r //; lia.
Qed.

Definition upb (unit : bool) nhi A : fm F := upper unit (bandm 0 nhi A).
Definition lob (unit : bool) nlo A : fm F := lower unit (bandm nlo 0 A).
Lemma upb_gt unit nhi A i j : (j < i)%N -> upb unit nhi A i j = 0.
Proof. by move=> h; rewrite /upb upper_gt. Qed.
Lemma lob_lt unit nlo A i j : (i < j)%N -> lob unit nlo A i j = 0.
Proof. by move=> h; rewrite /lob lower_lt. Qed.
Lemma upb_d unit nhi A i : upb unit nhi A i i = if unit then 1 else A i i.
Proof. by rewrite /upb upper_diag /bandm !leq_addr. Qed.
Lemma lob_d unit nlo A i : lob unit nlo A i i = if unit then 1 else A i i.
Proof. by rewrite /lob lower_diag /bandm !leq_addr. Qed.
Lemma upb_in unit nhi A i j : (i < j <= i + nhi)%N -> upb unit nhi A i j = A i j.
Proof. by move=> h; rewrite /upb upper_lt ?/bandm ?ifT //; lia. Qed.
Lemma upb_out unit nhi A i j : (i + nhi < j)%N -> upb unit nhi A i j = 0.
Proof. by move=> h; rewrite /upb upper_lt ?/bandm ?ifN //; lia. Qed.
Lemma lob_in unit nlo A i j : (j < i <= j + nlo)%N -> lob unit nlo A i j = A i j.
Proof. by move=> h; rewrite /lob lower_gt ?/bandm ?ifT //; lia. Qed.
Lemma lob_out unit nlo A i j : (j + nlo < i)%N -> lob unit nlo A i j = 0.
Proof. by move=> h; rewrite /lob lower_gt ?/bandm ?ifN //; lia. Qed.

Lemma divatP unit A i N b : (i < N)%N ->
  post (fun y => (forall k, k != i -> y k = b k) /\ (if unit then 1 else A i i) * y i = b i)
    (zero_diag unit N A) (divat unit A i i b).
Proof.
  move=> Hi; have := divdiagP unit A b Hi; rewrite /divdiag /divat.
  by apply: post_imp => // y [h1 [h2 _]].
Qed.

Lemma browUP unit N nhi A b : (0 < nhi)%N -> (0 < N)%N ->
  post (fun x => solvesV N (upb unit nhi A) x b /\ forall k, (N <= k)%N -> x k = b k)
       (zero_diag unit N A) (browU unit N nhi A b).
Proof.
  move=> H1 HN; rewrite /browU.
  have HU := @upb_gt unit nhi A.
  apply: post_bind; apply: post_imp (divatP unit A b (_ : N.-1 < N)%N) => //; last by lia.
  move=> y [g1 g2] /=; apply: post_bind.
  apply: (@post_imp _ (fun S : fv F * (nat * nat) => invRU N (upb unit nhi A) b 0 S.1) _ (zero_diag unit N A)) => //.
    by move=> S /invRU0.
  apply: (@post_imp _ (fun S : fv F * (nat * nat) => [/\ invRU N (upb unit nhi A) b 0 S.1,
     S.2.2 = minn nhi (N - 0.+1).+1 & S.2.1 = (nhi - S.2.2)%N]) _ (zero_diag unit N A)) => //.
    by move=> S [].
  have -> : (N - 0.+1)%N = (N.-1 - 0)%N by lia.
  apply: (@loop_down_inv _ (fun i (S : fv F * (nat * nat)) => [/\ invRU N (upb unit nhi A) b i S.1,
     S.2.2 = minn nhi (N.-1 - i).+1 & S.2.1 = (nhi - S.2.2)%N])).
  - split=> /=; [|lia..].
    apply: (stepRU HU _ (x := b)) g1 _; [lia| |].
    + by have -> : N.-1.+1 = N; [lia | exact: invRU_start].
    + by rewrite upb_d g2 big_geq ?subr0 //; lia.
  - move=> i [x [k len]] Hi [I /= E1 E2]; apply: post_bind.
    have Hn : ~~ (i.+1 <= i < i.+1 + len)%N by lia.
    move: (fold_dot x (fun j => A i j) Hn).
    set z := foldl _ _ _ => Ez.
    apply: post_imp (divatP unit A z (_ : i < N)%N) => //; last by lia.
    move=> w [k1 k2] /=; split=> /=; [|by case: ifP => h /=; lia..].
    apply: (stepRU HU _ I) => [|q Hq|]; first by lia.
    + by rewrite k1 // Ez ifN.
    + rewrite upb_d k2 Ez eqxx (@sum_up _ _ _ (i.+1 + len)); [|lia|by move=> q Hq; rewrite upb_out //; lia].
      by congr (_ - _); apply: eq_big_nat => q Hq; rewrite upb_in 1?mulrC //; lia.
Qed.

Lemma bcolUloopP fuel unit N nhi A b j i1 len x : (0 < nhi)%N ->
  (j < N)%N -> i1 = (j - nhi)%N -> len = (j - i1)%N -> (j <= fuel)%N ->
  invCU N (upb unit nhi A) b j.+1 x ->
  post (fun S => S.2 = 0%N /\ invCU N (upb unit nhi A) b 1 S.1) (zero_diag unit N A)
    (bcolUloop fuel unit A j i1 len x).
Proof.
  move=> H1; have HU := @upb_gt unit nhi A.
  elim: fuel j i1 len x => [|f IH] j i1 len x Hj Ei El Hf I.
    by have Ej : j = 0%N by [lia]; subst j; rewrite /= El Ei.
  have Eb : bcolUloop f.+1 unit A j i1 len x = if len == 0%N then Ok (x, j) else
    bindO (if x j == 0 then Ok x else
           bindO (divat unit A j j x) (fun b =>
           Ok (foldl (fun b i => updv b i (b i - b j * A i j)) b (iota i1 len)))) (fun b =>
    if (0 < i1)%N then bcolUloop f unit A j.-1 i1.-1 len b
    else bcolUloop f unit A j.-1 i1 len.-1 b) by [].
  rewrite Eb; case: eqP => [E0|N0].
    by have Ej : j = 0%N by [lia]; subst j.
  apply: post_bind.
  apply: (@post_imp _ (fun y => invCU N (upb unit nhi A) b j y) _ (zero_diag unit N A)) => //.
  - move=> y Iy; have J : (j.-1.+1 = j)%N by lia.
    by case: ifP => h; apply: IH; rewrite ?J //; lia.
  - case: eqP => [E|_].
    + by apply: (stepCU HU Hj I) => // [|r Hr]; rewrite E mulr0 ?subr0.
    + apply: post_bind; apply: post_imp (divatP unit A x Hj) => // y [g1 g2] /=.
      have Hn : ~~ (i1 <= j < i1 + len)%N by lia.
      move: (fold_axpy y (fun i => A i j) Hn); set z := foldl _ _ _ => Ez.
      have Ezj : z j = y j by rewrite Ez ifN //; lia.
      apply: (stepCU HU Hj I) => [k Hk||r Hr].
      * by rewrite Ez ifN ?g1 //; lia.
      * by rewrite Ezj upb_d g2.
      * rewrite Ezj Ez; case: ifP => h; rewrite g1; try by lia.
        -- by rewrite upb_in 1?(mulrC (A r j)) //; lia.
        -- by rewrite upb_out ?mul0r ?subr0 //; lia.
Qed.

Lemma bcolUP unit N nhi A b : (0 < nhi)%N -> (0 < N)%N ->
  post (fun x => solvesV N (upb unit nhi A) x b /\ forall k, (N <= k)%N -> x k = b k)
       (zero_diag unit N A) (bcolU unit N nhi A b).
Proof.
  move=> H1 HN; rewrite /bcolU; set i1 := if _ then _ else _.
  have HU := @upb_gt unit nhi A.
  have Ei : i1 = (N.-1 - nhi)%N by rewrite /i1; case: ifP; lia.
  have J : (N.-1 < N)%N by lia.
  have J2 : (N.-1 <= N)%N by lia.
  have J3 : invCU N (upb unit nhi A) b N.-1.+1 b by have -> : N.-1.+1 = N; [lia | exact: invCU_start].
  apply: post_bind; apply: post_imp (bcolUloopP H1 J Ei (erefl _) J2 J3) => //.
  move=> [x j] /= [-> I]; case: eqP => [E|_].
    by apply: invCU0; apply: (stepCU HU HN I) => //; rewrite E mulr0.
  apply: post_imp (divatP unit A x HN) => // y [g1 g2]; apply: invCU0.
  apply: (stepCU HU HN I) => [k Hk||r]; last by lia.
  - by rewrite g1 //; lia.
  - by rewrite upb_d.
Qed.

Lemma diagdivP N A b :
  post (fun x => (forall i, (i < N)%N -> A i i * x i = b i) /\ forall k, (N <= k)%N -> x k = b k)
       (zero_diag false N A) (diagdiv N A b).
Proof.
  rewrite /diagdiv.
  apply: (@loop_up_inv _ (fun j x => (forall i, (i < j)%N -> A i i * x i = b i) /\ forall k, (j <= k)%N -> x k = b k)) => //.
  move=> i x Hi [h1 h2]; apply: post_imp (divatP false A x Hi) => // y [g1 g2]; split=> [k Hk|k Hk].
  - case: (k =P i) => [->|Nk]; first by rewrite g2 h2.
    by rewrite g1 ?h1 //; lia.
  - by rewrite g1 ?h2 //; lia.
Qed.

Lemma diag_solves (unit : bool) N (T : fm F) A x b : (forall i j, i != j -> T i j = 0) ->
  (forall i, T i i = if unit then 1 else A i i) ->
  (forall i, (i < N)%N -> (if unit then 1 else A i i) * x i = b i) -> solvesV N T x b.
Proof.
  move=> H1 H2 H3 i Hi; rewrite (bigD1 (Ordinal Hi)) //= H2 H3 // big1 ?addr0 // => k /eqP Nk.
  by rewrite H1 ?mul0r //; apply/eqP => E; apply: Nk; apply: val_inj.
Qed.

Lemma bdoUP st unit N nhi A b : (0 < N)%N ->
  post (fun x => solvesV N (upb unit nhi A) x b /\ forall k, (N <= k)%N -> x k = b k)
       (zero_diag unit N A) (bdoU st unit N nhi A b).
Proof.
  move=> HN; rewrite /bdoU; case: eqP => [->|/eqP N0]; last first.
    have H1 : (0 < nhi)%N by lia.
    by case: st; [exact: browUP | exact: bcolUP | exact: browUP].
  have D : forall i j, i != j -> upb unit 0 A i j = 0.
    by move=> i j Nij; case: (ltnP j i) => h; [rewrite upb_gt | rewrite upb_out //; lia].
  have D2 i : upb unit 0 A i i = if unit then 1 else A i i by rewrite upb_d.
  case: unit D D2 => D D2.
    by split=> //; apply: (@diag_solves true _ _ A) => // i _; rewrite mul1r.
  by apply: post_imp (diagdivP N A b) => // x [h1 h2]; split=> //; apply: (@diag_solves false _ _ A).
Qed.

Lemma BTriLDivEqUP st unit N nhi A b :
  post (fun x => solvesV N (upb unit nhi A) x b /\ forall k, (N <= k)%N -> x k = b k)
       (zero_diag unit N A) (BTriLDivEqU st unit N nhi A b).
Proof.
  rewrite /BTriLDivEqU; case: (trimUP N b) => h1 h2.
  move: h1 h2; set i2 := trimU N b => h1 h2.
  case: eqP => [E|/eqP N0].
    split=> // i Hi; rewrite big1 ?h2 //; first by lia.
    by move=> k _; rewrite h2 ?mulr0 //; have := ltn_ord k; lia.
  case: eqP => [E|/eqP NN]; first by rewrite E in N0; apply: bdoUP; lia.
  apply: post_bind; apply: (post_imp _ _ (bdoUP st unit _ A b (_ : 0 < i2)%N)); [| |lia].
  - move=> r [g1 g2] /=; split; last by move=> k Hk; rewrite /putv ifN //; lia.
    move=> i Hi.
    rewrite (@sumN F (fun k => upb unit nhi A i k * putv 0 i2 b r k)) (@big_cat_nat _ _ _ i2) //=.
    rewrite [X in _ + X]big1_seq ?addr0; last first.
      move=> k /=; rewrite mem_index_iota => Hk; rewrite /putv ifN; last by lia. by rewrite h2 ?mulr0.
    case: (ltnP i i2) => Hi2.
    + rewrite -(g1 i Hi2) (@sumN F (fun k => upb unit _ A i k * r k)).
      apply: eq_big_nat => k Hk; rewrite /putv ifT ?subn0; last by lia.
      congr (_ * _); case: (ltngtP i k) => h; [|by rewrite !upb_gt|by rewrite h !upb_d].
      case: (leqP k (i + nhi)%N) => h'.
      * by rewrite !upb_in //; [case: ifP; lia | lia].
      * by rewrite !upb_out //; case: ifP; lia.
    + rewrite h2; last by lia.
      by rewrite big1_seq // => k /=; rewrite mem_index_iota => Hk; rewrite upb_gt ?mul0r //; lia.
  - by move=> e [-> [-> [i [Hi E]]]]; split=> //; split=> //; exists i; split=> //; lia.
Qed.

(** ** Lower triangles *)
Lemma browLP unit N nlo A b : (0 < nlo)%N -> (0 < N)%N ->
  post (fun x => solvesV N (lob unit nlo A) x b /\ forall k, (N <= k)%N -> x k = b k)
       (zero_diag unit N A) (browL unit N nlo A b).
Proof.
  move=> H1 HN; rewrite /browL.
  have HU := @lob_lt unit nlo A.
  apply: post_bind; apply: post_imp (divatP unit A b HN) => //.
  move=> y [g1 g2] /=; apply: post_bind.
  apply: (@post_imp _ (fun S : fv F * (nat * nat * nat) => [/\ invRL (lob unit nlo A) b (1 + N.-1) S.1,
     S.2.2 = (1 + N.-1 - nlo)%N, S.2.1.2 = minn nlo (1 + N.-1) & S.2.1.1 = (nlo - S.2.1.2)%N]) _ (zero_diag unit N A)) => //.
    by move=> S []; have -> : (1 + N.-1 = N)%N; [lia | move=> /invRLN].
  apply: (@loop_iota_inv _ (fun i (S : fv F * (nat * nat * nat)) => [/\ invRL (lob unit nlo A) b i S.1,
     S.2.2 = (i - nlo)%N, S.2.1.2 = minn nlo i & S.2.1.1 = (nlo - S.2.1.2)%N])).
  - split=> /=; [|lia..].
    apply: (stepRL HU (invRL_start _ b)) g1 _.
    by rewrite lob_d g2 big_geq ?subr0.
  - move=> i [x [[k len] j1]] Hi [I /= E1 E2 E3]; apply: post_bind.
    have Hn : ~~ (j1 <= i < j1 + len)%N by lia.
    move: (fold_dot x (fun j => A i j) Hn).
    set z := foldl _ _ _ => Ez.
    have -> : (j1 + len = i)%N by lia.
    apply: post_imp (divatP unit A z (_ : i < N)%N) => //; last by lia.
    move=> w [k1 k2] /=; split=> /=; [|by case: ifP => h /=; lia..].
    apply: (stepRL HU I) => [q Hq|].
    + by rewrite k1 // Ez ifN.
    + rewrite lob_d k2 Ez eqxx (@sum_lo _ _ _ j1); [|lia|by move=> q Hq; rewrite lob_out //; lia].
      have -> : (j1 + len = i)%N by lia.
      by congr (_ - _); apply: eq_big_nat => q Hq; rewrite lob_in 1?mulrC //; lia.
Qed.

Lemma bcolLloopP fuel unit N nlo A b j i2 len x : (0 < nlo)%N ->
  (j < N)%N -> i2 = minn N (j + nlo).+1 -> len = (i2 - j.+1)%N -> (N - j.+1 <= fuel)%N ->
  invCL N (lob unit nlo A) b j x ->
  post (fun S => S.2 = N.-1 /\ invCL N (lob unit nlo A) b N.-1 S.1) (zero_diag unit N A)
    (bcolLloop fuel unit A N j i2 len x).
Proof.
  move=> H1; have HU := @lob_lt unit nlo A.
  elim: fuel j i2 len x => [|f IH] j i2 len x Hj Ei El Hf I.
    have Ej : j = N.-1 by [lia]; have -> : len = 0%N by lia. by rewrite /= -Ej.
  have Eb : bcolLloop f.+1 unit A N j i2 len x = if len == 0%N then Ok (x, j) else
    bindO (if x j == 0 then Ok x else
           bindO (divat unit A j j x) (fun b =>
           Ok (foldl (fun b i => updv b i (b i - b j * A i j)) b (iota j.+1 len)))) (fun b =>
    if (i2 < N)%N then bcolLloop f unit A N j.+1 i2.+1 len b
    else bcolLloop f unit A N j.+1 i2 len.-1 b) by [].
  rewrite Eb; case: eqP => [E0|N0].
    by have Ej : j = N.-1 by [lia]; rewrite -Ej.
  apply: post_bind.
  apply: (@post_imp _ (fun y => invCL N (lob unit nlo A) b j.+1 y) _ (zero_diag unit N A)) => //.
  - by move=> y Iy; case: ifP => h; apply: IH => //; lia.
  - case: eqP => [E|_].
    + by apply: (stepCL HU Hj I) => // [|r Hr]; rewrite E mulr0 ?subr0.
    + apply: post_bind; apply: post_imp (divatP unit A x Hj) => // y [g1 g2] /=.
      have Hn : ~~ (j.+1 <= j < j.+1 + len)%N by lia.
      move: (fold_axpy y (fun i => A i j) Hn); set z := foldl _ _ _ => Ez.
      have Ezj : z j = y j by rewrite Ez ifN //; lia.
      apply: (stepCL HU Hj I) => [k Hk||r Hr].
      * by rewrite Ez ifN ?g1 //; lia.
      * by rewrite Ezj lob_d g2.
      * rewrite Ezj Ez; case: ifP => h; rewrite g1; try by lia.
        -- by rewrite lob_in 1?(mulrC (A r j)) //; lia.
        -- by rewrite lob_out ?mul0r ?subr0 //; lia.
Qed.

Lemma bcolLP unit N nlo A b : (0 < nlo)%N -> (0 < N)%N ->
  post (fun x => solvesV N (lob unit nlo A) x b /\ forall k, (N <= k)%N -> x k = b k)
       (zero_diag unit N A) (bcolL unit N nlo A b).
Proof.
  move=> H1 HN; rewrite /bcolL; set i2 := minn _ _.
  have HU := @lob_lt unit nlo A.
  have E1 : i2 = minn N (0 + nlo).+1 by rewrite /i2; lia.
  have E2 : i2.-1 = (i2 - 1)%N by lia.
  have E3 : (N - 1 <= N)%N by lia.
  have J : (N.-1 < N)%N by lia.
  have JN : N.-1.+1 = N by lia.
  apply: post_bind; apply: post_imp (bcolLloopP H1 HN E1 E2 E3 (invCL_start N _ b)) => //.
  move=> [x j] /= [-> I]; apply: (@post_imp _ (fun y => invCL N (lob unit nlo A) b N.-1.+1 y) _ (zero_diag unit N A)) => //.
    by move=> y; rewrite JN => /invCLN.
  case: eqP => [E|_].
    by apply: (stepCL HU J I) => // [|r Hr]; [rewrite E mulr0 | lia].
  apply: post_imp (divatP unit A x J) => // y [g1 g2].
  apply: (stepCL HU J I) => [k Hk||r]; last by lia.
  - by rewrite g1 //; lia.
  - by rewrite lob_d.
Qed.

Lemma bdoLP st unit N nlo A b : (0 < N)%N ->
  post (fun x => solvesV N (lob unit nlo A) x b /\ forall k, (N <= k)%N -> x k = b k)
       (zero_diag unit N A) (bdoL st unit N nlo A b).
Proof.
  move=> HN; rewrite /bdoL; case: eqP => [->|/eqP N0]; last first.
    have H1 : (0 < nlo)%N by lia.
    by case: st; [exact: browLP | exact: bcolLP | exact: browLP].
  have D : forall i j, i != j -> lob unit 0 A i j = 0.
    by move=> i j Nij; case: (ltnP i j) => h; [rewrite lob_lt | rewrite lob_out //; lia].
  have D2 i : lob unit 0 A i i = if unit then 1 else A i i by rewrite lob_d.
  case: unit D D2 => D D2.
    by split=> //; apply: (@diag_solves true _ _ A) => // i _; rewrite mul1r.
  by apply: post_imp (diagdivP N A b) => // x [h1 h2]; split=> //; apply: (@diag_solves false _ _ A).
Qed.

Lemma BTriLDivEqLP st unit N nlo A b :
  post (fun x => solvesV N (lob unit nlo A) x b /\ forall k, (N <= k)%N -> x k = b k)
       (zero_diag unit N A) (BTriLDivEqL st unit N nlo A b).
Proof.
  rewrite /BTriLDivEqL; case: (trimLP N 0 b) => h1 h2.
  move: h1 h2; set i1 := trimL N 0 b => h1 h2; rewrite add0n in h1.
  case: eqP => [E|/eqP NN].
    split=> // i Hi; rewrite big1 ?h2 //; first by lia.
    by move=> k _; rewrite h2 ?mulr0 //; have := ltn_ord k; lia.
  case: eqP => [E|/eqP N0]; first by apply: bdoLP; lia.
  apply: post_bind; apply: (post_imp _ _ (bdoLP st unit _ (subm i1 i1 A) (subv i1 b) (_ : 0 < N - i1)%N)); [| |lia].
  - move=> r [g1 g2] /=; split; last by move=> k Hk; rewrite /putv ifN //; lia.
    move=> i Hi.
    rewrite (@sumN F (fun k => lob unit nlo A i k * putv i1 (N - i1) b r k)) (@big_cat_nat _ _ _ i1) //=.
    rewrite [X in X + _]big1_seq ?add0r; last first.
      move=> k /=; rewrite mem_index_iota => Hk; rewrite /putv ifN; last by lia. by rewrite h2 ?mulr0 //; lia.
    have -> : \sum_(i1 <= k < N) lob unit nlo A i k * putv i1 (N - i1) b r k
            = \sum_(0 <= k < N - i1) lob unit nlo A i (k + i1)%N * r k.
      rewrite -{1}(add0n i1) big_addn; apply: eq_big_nat => k Hk.
      by rewrite /putv ifT ?addnK //; lia.
    case: (leqP i1 i) => Hi1.
    + have Hs : (i - i1 < N - i1)%N by lia.
      have := g1 _ Hs; rewrite (@sumN F (fun k => lob unit _ (subm i1 i1 A) (i - i1)%N k * r k)) /subv subnKC // => <-.
      apply: eq_big_nat => k Hk; congr (_ * _).
      case: (ltngtP i (k + i1)) => h; first by rewrite !lob_lt //; lia.
      * case: (leqP i (k + i1 + nlo)%N) => h'.
        -- by rewrite !lob_in; [rewrite /subm; congr A; lia | case: ifP; lia | lia].
        -- by rewrite !lob_out //; case: ifP; lia.
      * have -> : (i - i1 = k)%N by lia. by rewrite h !lob_d /subm addnC.
    + rewrite h2; last by lia.
      by rewrite big1_seq // => k /=; rewrite mem_index_iota => Hk; rewrite lob_lt ?mul0r //; lia.
  - move=> e [-> [-> [i [Hi E]]]]; split=> //; split=> //; exists (i1 + i)%N; split=> //; lia.
Qed.

(** ** Matrices *)
Definition colof (B : fm F) c : fv F := fun k => B k c.
Definition sameout (K : nat) (X B : fm F) : Prop := forall r c, (K <= c)%N -> X r c = B r c.

Lemma cols_done N K (T X B : fm F) :
  (forall c, (c < K)%N -> solvesV N T (colof X c) (colof B c) /\ forall k, (N <= k)%N -> X k c = B k c) ->
  sameout K X B -> solvesM N K T X B /\ framed N K X B.
Proof.
  move=> h1 h2; split=> [i c Hi Hc|r c Hrc]; first by case: (h1 c Hc) => h _; apply: h.
  by case: (ltnP c K) => Hc; [apply: (proj2 (h1 c Hc)); lia | exact: h2].
Qed.

Lemma bmrowUP unit N nhi K A B :
  post (fun X => solvesM N K (upb unit nhi A) X B /\ framed N K X B)
       (zero_diag unit N A) (bmrowU unit N nhi K A B).
Proof.
  rewrite /bmrowU; apply: post_bind.
  have HU := @upb_gt unit nhi A.
  apply: (@post_imp _ (fun S : fm F * (nat * nat) =>
     [/\ forall c, (c < K)%N -> invRU N (upb unit nhi A) (colof B c) 0 (colof S.1 c), sameout K S.1 B,
         S.2.2 = minn N (0 + nhi) & S.2.1 = (nhi + 0 - N)%N]) _ (zero_diag unit N A)) => //.
    by move=> S [h1 h2 _ _]; apply: cols_done => // c Hc; case: (invRU0 (h1 c Hc)).
  apply: (@loop_down_inv _ (fun i (S : fm F * (nat * nat)) =>
     [/\ forall c, (c < K)%N -> invRU N (upb unit nhi A) (colof B c) i (colof S.1 c), sameout K S.1 B,
         S.2.2 = minn N (i + nhi) & S.2.1 = (nhi + i - N)%N])).
  - by split=> //=; [move=> c _; exact: invRU_start | lia | lia].
  - move=> i [X [k n]] Hi [/= h1 h2 E1 E2]; apply: post_bind.
    apply: post_imp (rowdivP unit K A (rowsub i i.+1 n K A X) Hi) => // Y [g1 g2] /=; split=> /=; [| |by case: ifP => h /=; lia..].
    + move=> c Hc; apply: (stepRU HU Hi (h1 c Hc)) => [q Hq|].
      * by rewrite /colof g1; [rewrite /rowsub ifN //; lia | lia].
      * rewrite upb_d /colof g2 // /rowsub eqxx Hc /=.
        rewrite (@sum_up (upb unit nhi A) (fun k => X k c) i n); [|lia|by move=> q Hq; rewrite upb_out //; lia].
        by congr (_ - _); apply: eq_big_nat => q Hq; rewrite upb_in //; lia.
    + by move=> r c Hc; rewrite g1; [rewrite /rowsub ifN ?h2 //; lia | lia].
Qed.

Lemma bmcolUP unit N nhi K A B :
  post (fun X => solvesM N K (upb unit nhi A) X B /\ framed N K X B)
       (zero_diag unit N A) (bmcolU unit N nhi K A B).
Proof.
  rewrite /bmcolU; apply: post_bind.
  have HU := @upb_gt unit nhi A.
  apply: (@post_imp _ (fun S : fm F * nat =>
     [/\ forall c, (c < K)%N -> invCU N (upb unit nhi A) (colof B c) 0 (colof S.1 c), sameout K S.1 B &
         S.2 = (0.-1 - nhi)%N]) _ (zero_diag unit N A)) => //.
    by move=> S [h1 h2 _]; apply: cols_done => // c Hc; case: (invCU0 (h1 c Hc)).
  apply: (@loop_down_inv _ (fun i (S : fm F * nat) =>
     [/\ forall c, (c < K)%N -> invCU N (upb unit nhi A) (colof B c) i (colof S.1 c), sameout K S.1 B &
         S.2 = (i.-1 - nhi)%N])).
  - by split=> //=; move=> c _; exact: invCU_start.
  - move=> j [X i1] Hj [/= h1 h2 E1]; apply: post_bind.
    apply: post_imp (rowdivP unit K A X Hj) => // Y [g1 g2] /=; split=> /=; [| |by lia].
    + move=> c Hc; have Ej : colof (outersub j i1 j K A Y) c j = Y j c by rewrite /colof /outersub ifN //; lia.
      apply: (stepCU HU Hj (h1 c Hc)) => [q Hq||r Hr].
      * by rewrite /colof /outersub ifN ?g1 //; lia.
      * by rewrite Ej upb_d g2.
      * rewrite Ej /colof /outersub Hc andbT; case: ifP => h; rewrite g1; try by lia.
        -- by rewrite upb_in //; lia.
        -- by rewrite upb_out ?mul0r ?subr0 //; lia.
    + by move=> r c Hc; rewrite /outersub ifN ?g1 ?h2 //; lia.
Qed.

Lemma bmrowLP unit N nlo K A B :
  post (fun X => solvesM N K (lob unit nlo A) X B /\ framed N K X B)
       (zero_diag unit N A) (bmrowL unit N nlo K A B).
Proof.
  rewrite /bmrowL; apply: post_bind.
  have HU := @lob_lt unit nlo A.
  apply: (@post_imp _ (fun S : fm F * (nat * nat) =>
     [/\ forall c, (c < K)%N -> invRL (lob unit nlo A) (colof B c) N (colof S.1 c), sameout K S.1 B,
         S.2.2 = (N - nlo)%N & S.2.1 = (nlo - N)%N]) _ (zero_diag unit N A)) => //.
    by move=> S [h1 h2 _ _]; apply: cols_done => // c Hc; case: (invRLN (h1 c Hc)).
  apply: (@loop_up_inv _ (fun i (S : fm F * (nat * nat)) =>
     [/\ forall c, (c < K)%N -> invRL (lob unit nlo A) (colof B c) i (colof S.1 c), sameout K S.1 B,
         S.2.2 = (i - nlo)%N & S.2.1 = (nlo - i)%N])).
  - by split=> //=; lia.
  - move=> i [X [k n]] Hi [/= h1 h2 E1 E2]; apply: post_bind.
    apply: post_imp (rowdivP unit K A (rowsub i n i K A X) Hi) => // Y [g1 g2] /=; split=> /=; [| |by case: ifP => h /=; lia..].
    + move=> c Hc; apply: (stepRL HU (h1 c Hc)) => [q Hq|].
      * by rewrite /colof g1; [rewrite /rowsub ifN //; lia | lia].
      * rewrite lob_d /colof g2 // /rowsub eqxx Hc /=.
        rewrite (@sum_lo (lob unit nlo A) (fun k => X k c) i n); [|lia|by move=> q Hq; rewrite lob_out //; lia].
        by congr (_ - _); apply: eq_big_nat => q Hq; rewrite lob_in //; lia.
    + by move=> r c Hc; rewrite g1; [rewrite /rowsub ifN ?h2 //; lia | lia].
Qed.

Lemma bmcolLP unit N nlo K A B : (nlo < N)%N ->
  post (fun X => solvesM N K (lob unit nlo A) X B /\ framed N K X B)
       (zero_diag unit N A) (bmcolL unit N nlo K A B).
Proof.
  move=> Hn; rewrite /bmcolL; apply: post_bind.
  have HU := @lob_lt unit nlo A.
  apply: (@post_imp _ (fun S : fm F * nat =>
     [/\ forall c, (c < K)%N -> invCL N (lob unit nlo A) (colof B c) N (colof S.1 c), sameout K S.1 B &
         S.2 = minn N (N + nlo).+1]) _ (zero_diag unit N A)) => //.
    by move=> S [h1 h2 _]; apply: cols_done => // c Hc; case: (invCLN (h1 c Hc)).
  apply: (@loop_up_inv _ (fun i (S : fm F * nat) =>
     [/\ forall c, (c < K)%N -> invCL N (lob unit nlo A) (colof B c) i (colof S.1 c), sameout K S.1 B &
         S.2 = minn N (i + nlo).+1])).
  - by split=> //=; [move=> c _; exact: invCL_start | lia].
  - move=> j [X i2] Hj [/= h1 h2 E1]; apply: post_bind.
    apply: post_imp (rowdivP unit K A X Hj) => // Y [g1 g2] /=; split=> /=; [| |by case: ifP; lia].
    + move=> c Hc; have Ej : colof (outersub j j.+1 i2 K A Y) c j = Y j c by rewrite /colof /outersub ifN //; lia.
      apply: (stepCL HU Hj (h1 c Hc)) => [q Hq||r Hr].
      * by rewrite /colof /outersub ifN ?g1 //; lia.
      * by rewrite Ej lob_d g2.
      * rewrite Ej /colof /outersub Hc andbT; case: ifP => h; rewrite g1; try by lia.
        -- by rewrite lob_in //; lia.
        -- by rewrite lob_out ?mul0r ?subr0 //; lia.
    + by move=> r c Hc; rewrite /outersub ifN ?g1 ?h2 //; lia.
Qed.

Lemma setcolP N (T : fm F) B x : solvesV N T x (fun i => B i 0%N) ->
  solvesM N 1 T (setcol 0 N B x) B /\ framed N 1 (setcol 0 N B x) B.
Proof.
  move=> h1; split.
  - move=> i c Hi Hc; have -> : c = 0%N by lia. rewrite -(h1 i Hi).
    by apply: eq_bigr => k _; rewrite /setcol eqxx ltn_ord.
  - by move=> r c Hr; rewrite /setcol ifN //; lia.
Qed.

Lemma BTriLDivEqMUP stA stB unit N nhi K A B :
  post (fun X => solvesM N K (upb unit nhi A) X B /\ framed N K X B)
       (zero_diag unit N A) (BTriLDivEqMU stA stB unit N nhi K A B).
Proof.
  rewrite /BTriLDivEqMU; case: eqP => [->|_]; first by split=> // i c; lia.
  case: eqP => [->|_].
    apply: post_bind; apply: post_imp (BTriLDivEqUP stA unit N nhi A (fun i => B i 0%N)) => // x [h1 h2].
    exact: setcolP.
  have P0 := @percolP F (upb unit nhi A) (zero_diag unit N A) (BTriLDivEqU stA unit N nhi A) N K B
             (fun b => BTriLDivEqUP stA unit N nhi A b).
  case: stB => //; case: stA P0 => P0; by [exact: bmrowUP | exact: bmcolUP].
Qed.
Lemma BTriLDivEqMLP stA stB unit N nlo K A B : (nlo < N)%N ->
  post (fun X => solvesM N K (lob unit nlo A) X B /\ framed N K X B)
       (zero_diag unit N A) (BTriLDivEqML stA stB unit N nlo K A B).
Proof.
  move=> Hn; rewrite /BTriLDivEqML; case: eqP => [->|_]; first by split=> // i c; lia.
  case: eqP => [->|_].
    apply: post_bind; apply: post_imp (BTriLDivEqLP stA unit N nlo A (fun i => B i 0%N)) => // x [h1 h2].
    exact: setcolP.
  have P0 := @percolP F (lob unit nlo A) (zero_diag unit N A) (BTriLDivEqL stA unit N nlo A) N K B
             (fun b => BTriLDivEqLP stA unit N nlo A b).
  case: stB => //; case: stA P0 => P0; by [exact: bmrowLP | exact: bmcolLP].
Qed.
End Steps.
