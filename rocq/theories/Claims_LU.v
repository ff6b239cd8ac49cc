(** C21-C24: LU decomposition and division through it. *)
From Verif Require Import Base FMat TriSolve TriInv RowPerm LU LUProofs LUDiv.
From mathcomp Require Import all_ssreflect all_fingroup all_algebra zify.
Set Implicit Arguments. Unset Strict Implicit. Unset Printing Implicit Defensive.
Import GRing.Theory Num.Theory Order.Theory.
Local Open Scope ring_scope.

(** The entries of the product L*U of the unit lower and upper trapezoids stored
    in one M x N matrix. *)
Definition LtimesU (F : numFieldType) (M N : nat) (V : fm F) : fm F :=
  fun i j => \sum_(k < minn M N)
    (if (k < i)%N then V i k else if k == i :> nat then 1 else 0) *
    (if (k <= j)%N then V k j else 0).

(** What a decomposition of A0 has to deliver: pivots in range, reversePermuteRows
    (that is, multiplication by P) of L*U giving back A0, multipliers of
    absolute value at most 1, and nothing else changed. *)
Definition is_PLU (F : numFieldType) (M N : nat) (A0 : fm F) (P0 : nat -> nat) (V : fm F) (P : nat -> nat) : Prop :=
  [/\ forall k, (k < minn M N)%N -> (k <= P k < M)%N,
      forall i j, (i < M)%N -> (j < N)%N ->
        revpermrows N P 0 (minn M N) (LtimesU M N V) i j = A0 i j
    & (forall i j, ~~ ((i < M)%N && (j < N)%N) -> V i j = A0 i j) /\
      (forall k, (minn M N <= k)%N -> P k = P0 k)].

Lemma luspec_PLU (F : numFieldType) M N (A0 : fm F) P0 V P :
  luspec M N A0 P0 V P -> is_PLU M N A0 P0 V P.
Proof.
  rewrite /luspec /is_PLU (minnC M N) => -[I1 I2 _ I5]; split=> //.
  move=> i j Hi Hj; rewrite -(permrowsK N P 0 (minn N M) A0 i j).
  have H k : (k < M)%N -> LtimesU M N V k j = permrows N P 0 (minn N M) A0 k j.
    move=> Hk; rewrite permrowsE Hj -I2 // /LtimesU minnC big_mkord; apply: eq_bigr => c _.
    rewrite /lower /upper; congr (_ * _).
    - by case: ltngtP.
    - by case: ltngtP.
  have [m [Em Hm]] : exists m, [/\ (m < M)%N & True] by exists i.
  move: I1; rewrite /revpermrows => I1.
  have: forall k, k \in rev (iota 0 (minn N M)) -> (k < M)%N /\ (P k < M)%N.
    by move=> k; rewrite mem_rev mem_iota => Hk; have := I1 k; lia.
  elim: (rev _) (LtimesU M N V) (permrows N P 0 (minn N M) A0) H => [|x s IH] A B H Hs /=; first exact: H.
  apply: IH => [k Hk|k Hk]; last by apply: Hs; rewrite inE Hk orbT.
  rewrite /swaprows Hj; apply: H; have [h1 h2] := Hs x (mem_head _ _).
  exact: tsw_lt.
Qed.

(** NonBlockLUDecompose, every shape. *)
Theorem C21_nonblock (F : numFieldType) (nbT nbT2 M N : nat) (A : fm F) (P : nat -> nat) :
  (0 < nbT)%N -> (0 < nbT2)%N ->
  match NonBlockLU nbT nbT2 M N A P with
  | Ok (V, Q) => is_PLU M N A P V Q
  | _ => False
  end.
Proof.
  move=> h1 h2; have := NonBlockLUP h1 h2 M N A P.
  by case: (NonBlockLU _ _ _ _ _ _) => [[V Q]|e|] //= /luspec_PLU.
Qed.
Print Assumptions C21_nonblock.

(** LU_Decompose, which uses the recursive algorithm: matrices with at least as
    many rows as columns (every square one among them), any blocking constants.
    Missing for the full property: wide matrices, for which it is false. *)
Theorem C21_recursive_partial (F : numFieldType) (nbT nbT2 nb nb2 M N : nat) (A : fm F) (P : nat -> nat) :
  (0 < nbT)%N -> (0 < nbT2)%N -> (0 < nb)%N -> (0 < nb2)%N -> (N <= M)%N ->
  match LU_Decompose nbT nbT2 nb nb2 M N A P with
  | Ok (V, Q) => is_PLU M N A P V Q
  | _ => False
  end.
Proof.
  move=> h1 h2 h3 h4 h; have := LU_DecomposeP h1 h2 h3 h4 A P h.
  by case: (LU_Decompose _ _ _ _ _ _ _ _) => [[V Q]|e|] //= /luspec_PLU.
Qed.
Print Assumptions C21_recursive_partial.

(** A 2 x 3 matrix whose decomposition does not multiply back: the entry (1,2) of
    U is computed with U(0,1) where L(1,0) is meant (the default blocking). *)
Definition wideA (F : numFieldType) : fm F := fun i j =>
  if (i == 0%N) && (0 < j)%N || (i == 1%N) && (j == 1%N) then 1 else 0.  (* ((0,1,1),(0,1,0)) *)
Theorem C21_wide_refuted (F : numFieldType) :
  match LU_Decompose 64 2 64 2 2 3 (@wideA F) id with
  | Ok (V, Q) => [/\ Q 0%N = 0%N, Q 1%N = 1%N & LtimesU 2 3 V 1%N 2%N <> wideA F 1%N 2%N]
  | _ => False
  end.
Proof.
  rewrite /LU_Decompose /= /minn /= /LU2 /amax /= /wideA /= !normr0 ltxx normr0 eqxx eqxx /=.
  rewrite normr1 oner_eq0 /= /LtimesU /minn /= !big_ord_recr big_ord0 /=.
  split=> //; rewrite andbF /zerocol /= mulr1 !add0r mul1r => /eqP.
  by rewrite mulr1 oppr_eq0 oner_eq0.
Qed.
Print Assumptions C21_wide_refuted.

(** C22: after LU_Decompose (square or tall) and after the column algorithm
    (every shape) all multipliers have absolute value at most 1. *)
Theorem C22_multipliers (F : numFieldType) (nbT nbT2 nb nb2 M N : nat) (A : fm F) (P : nat -> nat) :
  (0 < nbT)%N -> (0 < nbT2)%N -> (0 < nb)%N -> (0 < nb2)%N -> (N <= M)%N ->
  match LU_Decompose nbT nbT2 nb nb2 M N A P with
  | Ok (V, _) => forall i k, (k < N)%N -> (k < i < M)%N -> `|V i k| <= 1
  | _ => False
  end.
Proof.
  move=> h1 h2 h3 h4 h; have := LU_DecomposeP h1 h2 h3 h4 A P h.
  by case: (LU_Decompose _ _ _ _ _ _ _ _) => [[V Q]|e|] //= [_ _]; rewrite (minn_idPl h).
Qed.
Print Assumptions C22_multipliers.
Theorem C22_multipliers_nonblock (F : numFieldType) (nbT nbT2 M N : nat) (A : fm F) (P : nat -> nat) :
  (0 < nbT)%N -> (0 < nbT2)%N ->
  match NonBlockLU nbT nbT2 M N A P with
  | Ok (V, _) => forall i k, (k < minn N M)%N -> (k < i < M)%N -> `|V i k| <= 1
  | _ => False
  end.
Proof.
  move=> h1 h2; have := NonBlockLUP h1 h2 M N A P.
  by case: (NonBlockLU _ _ _ _ _ _) => [[V Q]|e|] //= [_ _].
Qed.
Print Assumptions C22_multipliers_nonblock.

(** A concrete case: ((0,1),(1,0)), where the pivot is in the last row. *)
Example C21_example (F : numFieldType) :
  match LU_Decompose 64 2 64 2 2 2 (fun i j => (i != j)%:R : F) id with
  | Ok (V, Q) => [/\ Q 0%N = 1%N /\ Q 1%N = 1%N, V 0%N 0%N = 1, V 0%N 1%N = 0, V 1%N 0%N = 0 & V 1%N 1%N = 1]
  | _ => False
  end.
Proof.
  rewrite /LU_Decompose /= /minn /= /LU2 /amax /= normr0 normr1 ltr01 normr1 oner_eq0 /= oner_eq0 /=.
  rewrite /r2loop /= /swapcol /updm /tsw /= mul0r mulr0 subr0 normr1 ltr01 oner_eq0 /= andbF /=.
  by rewrite /updv /=; split.
Qed.

(** C23.  b /= A and b %= A: the whole path, from the decomposition of A (or of its
    transpose) to the answer. *)
Section C23.
Variables (F : numFieldType) (nbT nbT2 nb nb2 : nat) (stA stB : stor).
Hypotheses (h1 : (0 < nbT)%N) (h2 : (0 < nbT2)%N) (h3 : (0 < nb)%N) (h4 : (0 < nb2)%N).

Theorem C23_left_division (istrans : bool) (N K : nat) (A B : fm F) (P0 : nat -> nat) :
  match LUDiv_new nbT nbT2 nb nb2 istrans N A P0 with
  | Ok (LUx, P) =>
    match doLDivEq nbT nbT2 stA stB istrans N K LUx P B with
    | Ok X => mx N N A *m mx N K X = mx N K B /\
              (forall i j, ~~ ((i < N)%N && (j < K)%N) -> X i j = B i j)
    | Throw e => e = Singular /\ \det (mx N N A) = 0
    | UB => False
    end
  | _ => False
  end.
Proof.
  have := LUDiv_newP h1 h2 h3 h4 istrans N A P0.
  case: (LUDiv_new _ _ _ _ _ _ _ _) => [[LUx P]|e|] //= [s Hs]; rewrite /doLDivEq.
  case: istrans Hs => Hs; last first.
    by have := LU_LDivEqP stA stB h1 h2 h3 h4 K B Hs; case: (LU_LDivEq _ _ _ _ _ _ _ _ _).
  have := LU_RDivEqP stA stB h1 h2 h3 h4 K (trm B) Hs; case: (LU_RDivEq _ _ _ _ _ _ _ _ _) => [X|e|] //=.
    move=> [E1 E2]; split; last by move=> i j Hij; rewrite /trm E2 // andbC.
    apply: trmx_inj; rewrite trmx_mul -!trm_mx; exact: E1.
  by move=> [-> E]; split=> //; rewrite -det_tr -trm_mx.
Qed.

Theorem C23_right_division (istrans : bool) (N K : nat) (A B : fm F) (P0 : nat -> nat) :
  match LUDiv_new nbT nbT2 nb nb2 istrans N A P0 with
  | Ok (LUx, P) =>
    match doRDivEq nbT nbT2 stA stB istrans N K LUx P B with
    | Ok X => mx K N X *m mx N N A = mx K N B /\
              (forall i j, ~~ ((i < K)%N && (j < N)%N) -> X i j = B i j)
    | Throw e => e = Singular /\ \det (mx N N A) = 0
    | UB => False
    end
  | _ => False
  end.
Proof.
  have := LUDiv_newP h1 h2 h3 h4 istrans N A P0.
  case: (LUDiv_new _ _ _ _ _ _ _ _) => [[LUx P]|e|] //= [s Hs]; rewrite /doRDivEq.
  case: istrans Hs => Hs; last first.
    by have := LU_RDivEqP stA stB h1 h2 h3 h4 K B Hs; case: (LU_RDivEq _ _ _ _ _ _ _ _ _).
  have := LU_LDivEqP stA stB h1 h2 h3 h4 K (trm B) Hs; case: (LU_LDivEq _ _ _ _ _ _ _ _ _) => [X|e|] //=.
    move=> [E1 E2]; split; last by move=> i j Hij; rewrite /trm E2 // andbC.
    apply: trmx_inj; rewrite trmx_mul -!trm_mx; exact: E1.
  by move=> [-> E]; split=> //; rewrite -det_tr -trm_mx.
Qed.

(** A.inverse() is the two-sided inverse; it fails only for a singular A. *)
Theorem C23_inverse (istrans : bool) (N : nat) (A : fm F) (P0 : nat -> nat) :
  match LUDiv_new nbT nbT2 nb nb2 istrans N A P0 with
  | Ok (LUx, P) =>
    match doMakeInverse nbT istrans N LUx P with
    | Ok X => mx N N X *m mx N N A = 1%:M /\ mx N N A *m mx N N X = 1%:M
    | Throw e => e = Singular /\ \det (mx N N A) = 0
    | UB => False
    end
  | _ => False
  end.
Proof.
  have := LUDiv_newP h1 h2 h3 h4 istrans N A P0.
  case: (LUDiv_new _ _ _ _ _ _ _ _) => [[LUx P]|e|] //= [s Hs]; rewrite /doMakeInverse.
  case: istrans Hs => Hs; last first.
    by have := LU_InverseP h1 h2 h3 h4 Hs; case: (LU_Inverse _ _ _ _).
  have := LU_InverseP h1 h2 h3 h4 Hs; case: (LU_Inverse _ _ _ _) => [X|e|] //=.
    rewrite (trm_mx N N A) (trm_mx N N X) => -[E1 E2].
    by split; apply: trmx_inj; rewrite trmx_mul trmxK trmx1.
  by move=> [-> E]; split=> //; rewrite -det_tr -trm_mx.
Qed.

(** P.det() times the product of the diagonal of U is the determinant. *)
Theorem C23_det (istrans : bool) (N : nat) (A : fm F) (P0 : nat -> nat) :
  match LUDiv_new nbT nbT2 nb nb2 istrans N A P0 with
  | Ok (LUx, P) => LUdet N LUx P = \det (mx N N A)
  | _ => False
  end.
Proof.
  have := LUDiv_newP h1 h2 h3 h4 istrans N A P0.
  case: (LUDiv_new _ _ _ _ _ _ _ _) => [[LUx P]|e|] //= [s [_ _ _ <-]].
  by case: istrans => //; rewrite trm_mx det_tr.
Qed.

(** A singular matrix is reported so, and division by it does not return (when
    there is anything to divide). *)
Theorem C23_singular (istrans : bool) (N : nat) (A : fm F) (P0 : nat -> nat) (abs2 : F -> F) (eps : F) :
  (forall x, 0 <= abs2 x) -> abs2 0 = 0 -> 0 <= eps ->
  \det (mx N N A) = 0 ->
  match LUDiv_new nbT nbT2 nb nb2 istrans N A P0 with
  | Ok (LUx, _) => isSingular abs2 eps N LUx = true
  | _ => False
  end.
Proof.
  move=> ha1 ha2 he Hd; have := C23_det istrans N A P0.
  case: (LUDiv_new _ _ _ _ _ _ _ _) => [[LUx P]|e|] //=; rewrite Hd /LUdet /pivsign => /eqP.
  rewrite mulf_eq0 signr_eq0 /= big_mkord => /prodf_eq0 [i _ /eqP E].
  by apply: isSingularP => //; exists (val i); split; [exact: ltn_ord | exact: E].
Qed.
End C23.
Print Assumptions C23_left_division.
Print Assumptions C23_right_division.
Print Assumptions C23_inverse.
Print Assumptions C23_det.
Print Assumptions C23_singular.

(** C24: dividing in place gives the same decomposition, for matrices that are
    row- or column-contiguous. *)
Theorem C24_inplace_partial (F : numFieldType) (nbT nbT2 nb nb2 : nat) (iscm isrm : bool) (N : nat) (A junk : fm F) (P0 : nat -> nat) :
  iscm || isrm ->
  LUDiv_ctor nbT nbT2 nb nb2 iscm isrm true N A junk P0 = LUDiv_ctor nbT nbT2 nb nb2 iscm isrm false N A junk P0
  /\ LUDiv_ctor nbT nbT2 nb nb2 iscm isrm false N A junk P0 = LUDiv_new nbT nbT2 nb nb2 isrm N A P0.
Proof. by rewrite /LUDiv_ctor /LUDiv_new => h; case: iscm isrm h => [] []. Qed.
Print Assumptions C24_inplace_partial.

(** For a view that is neither, the new array is never filled: b/m is then the
    quotient by the array's old contents, whatever the matrix is.  With contents
    (2) the 1 x 1 matrix (1) divides 1 into something else than 1. *)
Theorem C24_inplace_refuted (F : numFieldType) (nbT nbT2 nb nb2 : nat) (stA stB : stor) (P0 : nat -> nat) :
  (0 < nbT)%N -> (0 < nbT2)%N -> (0 < nb)%N -> (0 < nb2)%N ->
  let divide := fun inplace N K (A B junk : fm F) =>
    bindO (LUDiv_ctor nbT nbT2 nb nb2 false false inplace N A junk P0) (fun D =>
    doLDivEq nbT nbT2 stA stB false N K D.1 D.2 B) in
  (forall N K A B junk X, divide true N K A B junk = Ok X -> mx N N junk *m mx N K X = mx N K B) /\
  (forall N K A B junk X, divide false N K A B junk = Ok X -> mx N N A *m mx N K X = mx N K B) /\
  (forall X, divide true 1%N 1%N (fun _ _ => 1) (fun _ _ => 1) (fun _ _ => 2%:R) = Ok X -> X 0%N 0%N <> 1).
Proof.
  move=> h1 h2 h3 h4 divide.
  have H1 : forall N K A B junk X, divide true N K A B junk = Ok X -> mx N N junk *m mx N K X = mx N K B.
    move=> N K A B junk X; have := C23_left_division stA stB h1 h2 h3 h4 false N K junk B P0.
    rewrite /divide /LUDiv_ctor /LUDiv_new /=; case: (LU_Decompose _ _ _ _ _ _ _ _) => [[V Q]|e|] //=.
    by case: (LU_LDivEq _ _ _ _ _ _ _ _ _) => [Y|e|] //= [h _] [<-].
  split=> //; split.
    move=> N K A B junk X; have := C23_left_division stA stB h1 h2 h3 h4 false N K A B P0.
    rewrite /divide /LUDiv_ctor /LUDiv_new /=; case: (LU_Decompose _ _ _ _ _ _ _ _) => [[V Q]|e|] //=.
    by case: (LU_LDivEq _ _ _ _ _ _ _ _ _) => [Y|e|] //= [h _] [<-].
  move=> X /H1 /matrixP /(_ ord0 ord0); rewrite !mxE big_ord1 !mxE => E EX.
  move: E; rewrite EX mulr1 => /eqP; rewrite -subr_eq0 -[1]/(1%:R) -natrB // pnatr_eq0 //.
Qed.
Print Assumptions C24_inplace_refuted.
