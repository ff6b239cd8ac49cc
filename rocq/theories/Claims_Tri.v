(** C26: triangular division and inverse. *)
From Verif Require Import Base FMat TriSolve TriInv TriAlias.
From mathcomp Require Import all_ssreflect all_fingroup all_algebra zify.
Set Implicit Arguments. Unset Strict Implicit. Unset Printing Implicit Defensive.
Import GRing.Theory.
Local Open Scope ring_scope.

(** v /= U and v /= L for a vector: when the call returns, the new v is the
    solution and nothing beyond it changed; it throws only Singular, only for a
    matrix with its own diagonal, and only when that diagonal has a zero. *)
Theorem C26_vector (F : fieldType) (up : bool) (st : stor) (unit : bool) (N : nat) (A : fm F) (b : fv F) :
  match (if up then TriLDivEqU st unit N A b else TriLDivEqL st unit N A b) with
  | Ok x => (forall i, (i < N)%N ->
              \sum_(k < N) (if up then upper unit A i k else lower unit A i k) * x k = b i)
            /\ (forall i, (N <= i)%N -> x i = b i)
  | Throw e => e = Singular /\ unit = false /\ exists i, (i < N)%N /\ A i i = 0
  | UB => False
  end.
Proof.
  case: up.
  - by move: (TriLDivEqUP st unit N A b); case: (TriLDivEqU _ _ _ _ _).
  - by move: (TriLDivEqLP st unit N A b); case: (TriLDivEqL _ _ _ _ _).
Qed.
Print Assumptions C26_vector.

(** m /= U and m /= L for an N x K matrix, for any blocking constants. *)
Theorem C26_matrix (F : fieldType) (nb nb2 : nat) (up : bool) (stA stB : stor) (unit : bool) (N K : nat) (A B : fm F) :
  (0 < nb)%N -> (0 < nb2)%N ->
  match (if up then TriLDivEqMU nb nb2 stA stB unit N K A B else TriLDivEqML nb nb2 stA stB unit N K A B) with
  | Ok X => (forall i c, (i < N)%N -> (c < K)%N ->
              \sum_(k < N) (if up then upper unit A i k else lower unit A i k) * X k c = B i c)
            /\ (forall i c, ~~ ((i < N)%N && (c < K)%N) -> X i c = B i c)
  | Throw e => e = Singular /\ unit = false /\ exists i, (i < N)%N /\ A i i = 0
  | UB => False
  end.
Proof.
  move=> h1 h2; case: up.
  - by move: (TriLDivEqMUP h1 h2 stA stB unit N K A B); case: (TriLDivEqMU _ _ _ _ _ _ _ _ _).
  - by move: (TriLDivEqMLP h1 h2 stA stB unit N K A B); case: (TriLDivEqML _ _ _ _ _ _ _ _ _).
Qed.
Print Assumptions C26_matrix.

(** m %= U for a K x N matrix is transpose().LDivEq(m.transpose())
    (TMV_TriMatrix.h:945-947, 1474-1476): X U = B. *)
Definition TriRDivEqM (F : fieldType) nb nb2 (up : bool) (stA stB : stor) (unit : bool) (N K : nat) (A B : fm F) : outcome (fm F) :=
  bindO (if up then TriLDivEqML nb nb2 stA stB unit N K (trm A) (trm B)
         else TriLDivEqMU nb nb2 stA stB unit N K (trm A) (trm B)) (fun X => Ok (trm X)).

Theorem C26_matrix_right (F : fieldType) (nb nb2 : nat) (up : bool) (stA stB : stor) (unit : bool) (N K : nat) (A B : fm F) :
  (0 < nb)%N -> (0 < nb2)%N ->
  match TriRDivEqM nb nb2 up stA stB unit N K A B with
  | Ok X => (forall c i, (c < K)%N -> (i < N)%N ->
              \sum_(k < N) X c k * (if up then upper unit A k i else lower unit A k i) = B c i)
            /\ (forall c i, ~~ ((c < K)%N && (i < N)%N) -> X c i = B c i)
  | Throw e => e = Singular /\ unit = false /\ exists i, (i < N)%N /\ A i i = 0
  | UB => False
  end.
Proof.
  move=> h1 h2; rewrite /TriRDivEqM; case: up.
  - move: (TriLDivEqMLP h1 h2 stA stB unit N K (trm A) (trm B)); case: (TriLDivEqML _ _ _ _ _ _ _ _ _) => //= X [g1 g2].
    split; last by move=> c i Hci; rewrite /trm g2 // andbC.
    move=> c i Hc Hi; rewrite -[RHS](g1 i c Hi Hc); apply: eq_bigr => k _.
    by rewrite mulrC; congr (_ * _); rewrite /upper /lower /trm eq_sym.
  - move: (TriLDivEqMUP h1 h2 stA stB unit N K (trm A) (trm B)); case: (TriLDivEqMU _ _ _ _ _ _ _ _ _) => //= X [g1 g2].
    split; last by move=> c i Hci; rewrite /trm g2 // andbC.
    move=> c i Hc Hi; rewrite -[RHS](g1 i c Hi Hc); apply: eq_bigr => k _.
    by rewrite mulrC; congr (_ * _); rewrite /upper /lower /trm eq_sym.
Qed.
Print Assumptions C26_matrix_right.

(** A division by a matrix whose diagonal has no zero always returns. *)
Theorem C26_returns (F : fieldType) (nb nb2 : nat) (stA stB : stor) (unit : bool) (N K : nat) (A B : fm F) (b : fv F) :
  (0 < nb)%N -> (0 < nb2)%N -> (unit || [forall i : 'I_N, A i i != 0]) ->
  (exists x, TriLDivEqU stA unit N A b = Ok x) /\ (exists x, TriLDivEqL stA unit N A b = Ok x) /\
  (exists X, TriLDivEqMU nb nb2 stA stB unit N K A B = Ok X) /\
  (exists X, TriLDivEqML nb nb2 stA stB unit N K A B = Ok X) /\
  (exists X, TriInverse nb unit N A = Ok X).
Proof.
  move=> h1 h2 H.
  have Z e : ~ zero_diag unit N A e.
    case=> _ [Eu [i [Hi Ei]]]; move: H; rewrite Eu /= => /forallP /(_ (Ordinal Hi)) /=.
    by rewrite Ei eqxx.
  have P S I (o : outcome S) : post I (zero_diag unit N A) o -> exists x, o = Ok x.
    by case: o => [x|e|] //=; [exists x | move/Z].
  split; first exact: P (TriLDivEqUP stA unit N A b).
  split; first exact: P (TriLDivEqLP stA unit N A b).
  split; first exact: P (TriLDivEqMUP h1 h2 stA stB unit N K A B).
  split; first exact: P (TriLDivEqMLP h1 h2 stA stB unit N K A B).
  exact: P (TriInverseP h1 unit N A).
Qed.
Print Assumptions C26_returns.

(** U.invertSelf(): the stored upper triangle becomes that of the two-sided
    inverse; the other entries (and a unit diagonal) are untouched. *)
Theorem C26_inverse (F : fieldType) (nb : nat) (unit : bool) (N : nat) (U : fm F) :
  (0 < nb)%N ->
  match TriInverse nb unit N U with
  | Ok X => (forall i j, (i < N)%N -> (j < N)%N ->
               \sum_(k < N) upper unit U i k * upper unit X k j = (i == j)%:R /\
               \sum_(k < N) upper unit X i k * upper unit U k j = (i == j)%:R)
            /\ (forall i j, ~~ ((if unit then i < j else i <= j)%N && (j < N)%N) -> X i j = U i j)
  | Throw e => e = Singular /\ unit = false /\ exists i, (i < N)%N /\ U i i = 0
  | UB => False
  end.
Proof.
  move=> h1; move: (TriInverseP h1 unit N U); case: (TriInverse _ _ _ _) => //= X [g1 g2].
  split=> //.
  pose MU := \matrix_(i < N, j < N) upper unit U i j.
  pose MX := \matrix_(i < N, j < N) upper unit X i j.
  have E : MU *m MX = 1%:M.
    apply/matrixP => i j; rewrite !mxE -(g1 i j); try by rewrite /= add0n.
    by rewrite add0n big_mkord; apply: eq_bigr => k _; rewrite !mxE.
  have E' := mulmx1C E.
  move=> i j Hi Hj; split.
  - by rewrite -(g1 i j) // add0n big_mkord.
  - move/matrixP: E' => /(_ (Ordinal Hi) (Ordinal Hj)); rewrite !mxE /= => <-.
    by apply: eq_bigr => k _; rewrite !mxE.
Qed.
Print Assumptions C26_inverse.

(** The same for lower triangular matrices. *)
Theorem C26_inverse_lower (F : fieldType) (nb : nat) (unit : bool) (N : nat) (L : fm F) :
  (0 < nb)%N ->
  match TriInverseL nb unit N L with
  | Ok X => (forall i j, (i < N)%N -> (j < N)%N ->
               \sum_(k < N) lower unit L i k * lower unit X k j = (i == j)%:R /\
               \sum_(k < N) lower unit X i k * lower unit L k j = (i == j)%:R)
            /\ (forall i j, ~~ ((if unit then j < i else j <= i)%N && (i < N)%N) -> X i j = L i j)
  | Throw e => e = Singular /\ unit = false /\ exists i, (i < N)%N /\ L i i = 0
  | UB => False
  end.
Proof.
  move=> h1; rewrite /TriInverseL; have := @C26_inverse F nb unit N (trm L) h1.
  case: (TriInverse _ _ _ _) => //= X [g1 g2].
  have El V i j : lower unit V i j = upper unit (trm V) j i by rewrite /lower /upper /trm eq_sym.
  split; last by move=> i j Hij; rewrite /trm g2.
  move=> i j Hi Hj; have [e1 e2] := g1 j i Hj Hi; rewrite eq_sym; split.
  - by rewrite -e2; apply: eq_bigr => k _; rewrite !El mulrC.
  - by rewrite -e1; apply: eq_bigr => k _; rewrite !El mulrC.
Qed.
Print Assumptions C26_inverse_lower.

(** A concrete case: a 2x2 system over the rationals, solved and inverted. *)
Definition exU : fm rat := fun i j => if (i == 1)%N && (j == 0)%N then 7%:Q else (i + j + 1)%N%:Q.
Example C26_example :
  match TriLDivEqU RM false 2 exU (fun i => (i + 4)%N%:Q) with
  | Ok x => x 1%N == 5%:Q / 3%:Q /\ x 0%N == 2%:Q / 3%:Q | _ => False end /\
  TriLDivEqU RM false 2 (fun _ _ => 0 : rat) (fun _ => 1) = Throw Singular.
Proof. by split; vm_compute. Qed.
Example C26_example_inverse :
  match TriInverse 64 false 2 exU with
  | Ok X => [/\ X 0%N 0%N == 1, X 0%N 1%N == - 2%:Q / 3%:Q, X 1%N 1%N == 1 / 3%:Q & X 1%N 0%N == 7%:Q]
  | _ => False end.
Proof.
  rewrite /TriInverse /= /halve /=.
  have -> : (2 %/ 2 = 1)%N by [].
  by rewrite /= /mulR /negmulL /= !big_nat1 /upper /updm /=; split; vm_compute.
Qed.

(** v2 = v1/L where v2 starts at the first element of L's storage: the result is
    the solution for the old L and the old v1. *)
Theorem C26_result_over_lower (F : fieldType) (st : stor) (unit : bool) (N : nat) (t : tview) (v1 v2 : vview) (m : nat -> F) :
  (0 < vs v2)%N ->
  match doLDivL_same st unit N t v1 v2 m with
  | Ok m' => (forall i, (i < N)%N ->
               \sum_(k < N) lower unit (tget m t) i k * vget m' v2 k = vget m v1 i)
             /\ (forall a, (forall i, (i < N)%N -> a != vadr v2 i) -> m' a = m a)
  | Throw e => e = Singular /\ unit = false /\ exists i, (i < N)%N /\ tget m t i i = 0
  | UB => False
  end.
Proof.
  move=> Hs; rewrite /doLDivL_same; have := TriLDivEqLP st unit N (tget m t) (vget m v1).
  case: (TriLDivEqL _ _ _ _ _) => //= x [h1 h2]; have [g1 g2] := vputP N x m Hs.
  split=> // i Hi; rewrite -(h1 i Hi); apply: eq_bigr => k _; congr (_ * _).
  by apply: g1.
Qed.
Print Assumptions C26_result_over_lower.

(** v2 = v1/U when v1 starts where U does, and when v2 shares no element with U
    (v1 being v2 itself or sharing no element with it). *)
Theorem C26_operand_over_upper (F : fieldType) (N : nat) (t : tview) (v1 v2 : vview) (m : nat -> F) :
  (0 < vs v2)%N -> tb t = vb v1 ->
  match doLDivU N t v1 v2 m with
  | Ok m' => (forall i, (i < N)%N ->
               \sum_(k < N) upper false (tget m t) i k * vget m' v2 k = vget m v1 i)
             /\ (forall a, (forall i, (i < N)%N -> a != vadr v2 i) -> m' a = m a)
  | Throw e => e = Singular /\ exists i, (i < N)%N /\ tget m t i i = 0
  | UB => False
  end.
Proof.
  move=> Hs E; rewrite /doLDivU E eqxx; have := TriLDivEqUP RM false N (tget m t) (vget m v1).
  case: (TriLDivEqU _ _ _ _ _) => [x|e|] //=; last by case=> -> [_ h].
  move=> [h1 h2]; have [g1 g2] := vputP N x m Hs.
  split=> // i Hi; rewrite -(h1 i Hi); apply: eq_bigr => k _; congr (_ * _).
  by apply: g1.
Qed.
Print Assumptions C26_operand_over_upper.

Theorem C26_disjoint_upper (F : fieldType) (N : nat) (t : tview) (v1 v2 : vview) (m : nat -> F) :
  (0 < vs v2)%N -> tb t != vb v1 ->
  (forall i j k, (i <= j < N)%N -> (k < N)%N -> (tb t + i * tsi t + j * tsj t)%N != vadr v2 k) ->
  (v1 = v2 \/ forall i j, (i < N)%N -> (j < N)%N -> vadr v1 i != vadr v2 j) ->
  match doLDivU N t v1 v2 m with
  | Ok m' => (forall i, (i < N)%N ->
               \sum_(k < N) upper false (tget m t) i k * vget m' v2 k = vget m v1 i)
             /\ (forall a, (forall i, (i < N)%N -> a != vadr v2 i) -> m' a = m a)
  | Throw e => e = Singular /\ exists i, (i < N)%N /\ tget m t i i = 0
  | UB => False
  end.
Proof.
  move=> Hs E Hd H12; rewrite /doLDivU (negPf E).
  have := memRowU_sim Hs Hd (vcopyP m Hs H12); have := rowUP false N (tget m t) (vget m v1).
  case: (rowU _ _ _ _) => [x|e|] //=; case: (memRowU _ _ _ _) => [m'|e'|] //=.
  - move=> [h1 h2] [g1 g2]; split=> // i Hi; rewrite -(h1 i Hi).
    by apply: eq_bigr => k _; rewrite g1.
  - by case=> -> [_ h] ->.
Qed.
Print Assumptions C26_disjoint_upper.

Example C26_disjoint_example :
  let t := TV 0 2 1 in let v1 := VV 10 1 in let v2 := VV 20 1 in
  tb t != vb v1 /\
  (forall i j k, (i <= j < 2)%N -> (k < 2)%N -> (tb t + i * tsi t + j * tsj t)%N != vadr v2 k) /\
  (forall i j, (i < 2)%N -> (j < 2)%N -> vadr v1 i != vadr v2 j).
Proof. by split=> //=; split=> [i j k|i j]; rewrite /vadr /=; lia. Qed.

(** For v2 = v1/U the same call gives a wrong answer: the overlap test looks at
    v1 instead of v2.  U is the 2x2 row-major matrix ((1,1),(.,1)) at address 0,
    v2 its first row, v1 = (3,1) at address 10; U x = v1 has x = (2,1), but the
    call stores (1,1). *)
Definition exmem : nat -> rat := fun a => if (a == 10)%N then 3%:Q else 1.
Theorem C26_result_over_upper_refuted :
  match doLDivU 2 (TV 0 2 1) (VV 10 1) (VV 0 1) exmem with
  | Ok m' => vget m' (VV 0 1) 0%N == 1 /\ vget m' (VV 0 1) 1%N == 1
  | _ => False
  end /\
  ~ (\sum_(k < 2) upper false (tget exmem (TV 0 2 1)) 0%N k * (fun _ => 1 : rat) k = vget exmem (VV 10 1) 0%N).
Proof.
  split; first by vm_compute.
  by rewrite !big_ord_recr big_ord0 /= add0r /upper /tget /vget /exmem /= !mulr1 => /eqP; vm_compute.
Qed.
Print Assumptions C26_result_over_upper_refuted.
