(** C25: integer determinants. *)
From Coq Require Import Ring Field.
From Verif Require Import Base FMat RowPerm RingTac IntDet.
From mathcomp Require Import all_ssreflect all_fingroup all_algebra zify.
Set Implicit Arguments. Unset Strict Implicit. Unset Printing Implicit Defensive.
Import GRing.Theory.
Local Open Scope ring_scope.

(** The integer matrix M as the array of exact values the program works on. *)
Definition ofint (N : nat) (M : 'M[int]_N) : fm rat :=
  fun i j => if insub i is Some i' then if insub j is Some j' then (M i' j')%:~R else 0 else 0.

Lemma ofintE N (M : 'M[int]_N) (i j : 'I_N) : ofint M i j = (M i j)%:~R.
Proof. by rewrite /ofint !valK. Qed.

Lemma ofint_int N (M : 'M[int]_N) i j : ofint M i j \is a Qint.
Proof.
  rewrite /ofint; case: insubP => [i' _ _|_]; last exact: rpred0.
  case: insubP => [j' _ _|_]; last exact: rpred0.
  by apply/QintP; eexists.
Qed.

Lemma Qint_sub : subring_closed (Qint : {pred rat}).
Proof. by split; [exact: rpred1 | move=> x y; exact: rpredB | move=> x y; exact: rpredM]. Qed.

(** The value, for every size and contents, every comparison used to choose the
    pivots and every test for units (TMV_ABS2 differs for real and complex). *)
Theorem C25_integer_det : forall (absLt : rat -> rat -> bool) (isUnity : rat -> bool) (N : nat) (M : 'M[int]_N),
  IntegerDet absLt isUnity N (ofint M) = (\det M)%:~R.
Proof.
  move=> absLt isUnity N M.
  rewrite (@IntegerDetP _ absLt isUnity _ Qint_sub); last by move=> i j _ _; exact: ofint_int.
  rewrite -det_map_mx; congr (\det _); apply/matrixP => i j.
  by rewrite !mxE ofintE.
Qed.
Print Assumptions C25_integer_det.

(** All the divisions are exact: after any number of turns of the loop, every element
    of the work array is an integer, the sign is 1 or -1, and an early return of
    zero happens only if the determinant is zero.  (The division of turn k produces
    elements of the state after it.) *)
Theorem C25_exact_divisions : forall (absLt : rat -> rat -> bool) (isUnity : rat -> bool) (N n : nat) (M : 'M[int]_N),
  (n < N)%N ->
  match brun absLt isUnity N n (ofint M, 1) with
  | None => \det M = 0
  | Some (A, d) => (d = 1 \/ d = -1) /\ forall i j, (i < N)%N -> (j < N)%N -> exists z : int, A i j = z%:~R
  end.
Proof.
  move=> absLt isUnity N n M Hn.
  have HA : forall i j, (i < N)%N -> (j < N)%N -> ofint M i j \is a Qint by move=> *; exact: ofint_int.
  have := @brunP _ absLt isUnity _ Qint_sub N (ofint M) n HA Hn.
  case E: (brun _ _ _ _ _) => [[A d]|].
    move=> _; split; last first.
      by move=> i j Hi Hj; apply/QintP; exact: (brun_sub Qint_sub HA Hn E).
    by apply: (brun_sign E); left.
  move=> H; apply/eqP; rewrite -(intr_eq0 [numDomainType of rat]) -det_map_mx; apply/eqP.
  rewrite -[RHS]H; congr (\det _); apply/matrixP => i j; by rewrite !mxE ofintE.
Qed.
Print Assumptions C25_exact_divisions.

(** The same for the integers of any other kind: a subring of a field, such as the
    Gaussian integers of std::complex<int>. *)
Theorem C25_subring : forall (F : fieldType) (absLt : F -> F -> bool) (isUnity : F -> bool) (R : {pred F}) (N : nat) (A : fm F),
  subring_closed R -> (forall i j, (i < N)%N -> (j < N)%N -> A i j \in R) ->
  IntegerDet absLt isUnity N A = \det (\matrix_(i < N, j < N) A i j) /\
  forall n B d, (n < N)%N -> brun absLt isUnity N n (A, 1) = Some (B, d) ->
    forall i j, (i < N)%N -> (j < N)%N -> B i j \in R.
Proof.
  move=> F absLt isUnity R N A HR HA; split; first exact: IntegerDetP HR _ _ HA.
  by move=> n B d Hn E; exact: (brun_sub HR HA Hn E).
Qed.
Print Assumptions C25_subring.

(** A 4 x 4 matrix with a zero in its first place: rows are exchanged, both the
    elimination and the division take place. *)
Definition ex_absLt (x y : rat) : bool := `|x| < `|y|.
Definition ex_unity (x : rat) : bool := `|x| == 1.
Definition ex_rows {R : ringType} : seq (seq R) :=
  [:: [:: 0; 2%:R; 0; 3%:R]; [:: 2%:R; 0; 2%:R; 0]; [:: 2%:R; 0; 0; 2%:R]; [:: 2%:R; 2%:R; 3%:R; 0]].
Definition ex_M : 'M[int]_4 := \matrix_(i, j) nth 0 (nth [::] ex_rows i) j.
Example C25_ex_run : match brun ex_absLt ex_unity 4 3 (fun i j => nth 0 (nth [::] ex_rows i) j, 1) with
  | Some (A, d) => d * A 3%N 3%N == -16%:R
  | None => false
  end.
Proof. by vm_compute. Qed.
Example C25_ex_det : (\det ex_M)%:~R = -16%:R :> rat.
Proof.
  rewrite -(C25_integer_det ex_absLt ex_unity); apply/eqP.
  have -> : IntegerDet ex_absLt ex_unity 4 (ofint ex_M) =
            IntegerDet ex_absLt ex_unity 4 (fun i j => nth 0 (nth [::] ex_rows i) j); last by vm_compute.
  rewrite !(@IntegerDetP _ ex_absLt ex_unity _ Qint_sub) //; last by move=> *; exact: ofint_int.
    congr (\det _); apply/matrixP => i j; rewrite !mxE ofintE !mxE.
    by case: i => [[|[|[|[|?]]]] //= _]; case: j => [[|[|[|[|?]]]] //= _].
  by move=> [|[|[|[|?]]]] // [|[|[|[|?]]]].
Qed.
