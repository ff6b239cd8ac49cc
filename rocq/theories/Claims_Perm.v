(** Properties C01-C04 and C06: permutations as values (determinant and matrix
    product forms are in Claims_PermMx.v). *)
From Coq Require Import ZArith List Lia Permutation.
From Verif Require Import Base Perm PermSpec PermProofs PermMat.
Import ListNotations.

(** A permutation of five elements that is neither the identity nor an
    involution; its inverse has the other orientation flag. *)
Definition ex_p : permutation := mkPerm 5 [2; 3; 2; 4; 4] false.

Example ex_p_legal : legal ex_p /\ legal (perm_inverse ex_p).
Proof.
  assert (L : legal ex_p).
  { intros k Hk. simpl in Hk.
    do 5 (destruct k as [|k]; [simpl; eexists; split; [reflexivity|lia]|]). lia. }
  split; exact L.
Qed.
Example ex_p_not_involution :
  perm_apply ex_p [10; 11; 12; 13; 14] = Ok [12; 13; 10; 14; 11] /\
  perm_apply (perm_inverse ex_p) [10; 11; 12; 13; 14] = Ok [12; 14; 10; 11; 13].
Proof. split; reflexivity. Qed.

(** C01: p*v is a rearrangement of v, and the inverse undoes it on both sides,
    for both orientations (perm_inverse flips the flag), with every buffer
    access in bounds. *)
Theorem C01_apply_inverse_cancel :
  forall (A : Type) (p : permutation) (v : list A),
    in_range p -> length v = psize p ->
    (exists w, perm_apply p v = Ok w /\ Permutation v w /\
               perm_apply (perm_inverse p) w = Ok v) /\
    (exists w, perm_apply (perm_inverse p) v = Ok w /\ Permutation v w /\
               perm_apply p w = Ok v) /\
    (exists w, perm_apply (perm_transpose_self p) v = Ok w /\ Permutation v w /\
               perm_apply p w = Ok v) /\
    (exists w, perm_apply_right v p = Ok w /\
               perm_apply_right w (perm_inverse p) = Ok v).
Proof.
  assert (T : forall (A : Type) (p : permutation) (v : list A),
    in_range p -> length v = psize p ->
    exists w, perm_apply p v = Ok w /\ Permutation v w /\
               perm_apply (perm_inverse p) w = Ok v).
  { intros A p v H Hv.
    destruct (perm_apply_ok p v H Hv) as [w [E [L N]]].
    exists w. split; [exact E|]. split.
    - exact (perm_apply_Permutation p v w H Hv E).
    - exact (perm_apply_inverse p v w H Hv E). }
  intros A p v H Hv.
  assert (T2 := T A (perm_inverse p) v H Hv). rewrite inverse_inverse in T2.
  split; [exact (T A p v H Hv)|]. split; [exact T2|]. split; [exact T2|].
  destruct T2 as [w [E [_ E2]]]. exists w. split; [exact E|].
  unfold perm_apply_right. rewrite inverse_inverse. exact E2.
Qed.
Print Assumptions C01_apply_inverse_cancel.

Example C01_hyp : in_range ex_p /\ length [10; 11; 12; 13; 14] = psize ex_p.
Proof. split; [apply legal_in_range, ex_p_legal|reflexivity]. Qed.

(** C02: element access. *)
Theorem C02_cref_total_and_01 :
  forall p i j, legal p -> (i < psize p) -> (j < psize p) ->
    perm_cref p i j = Ok 0%Z \/ perm_cref p i j = Ok 1%Z.
Proof.
  intros p i j H Hi Hj. rewrite (perm_cref_ok p i j H Hi Hj).
  destruct (Nat.eqb (src p i) j); auto.
Qed.
Print Assumptions C02_cref_total_and_01.

(** p(i,j) = 1 says that the j-th element of v ends at position i of p*v. *)
Theorem C02_cref_says_where_elements_go :
  forall (A : Type) p i j (v w : list A),
    legal p -> (i < psize p) -> (j < psize p) ->
    length v = psize p -> perm_apply p v = Ok w ->
    perm_cref p i j = Ok 1%Z -> nth_error w i = nth_error v j.
Proof. exact @elem_move. Qed.
Print Assumptions C02_cref_says_where_elements_go.

(** (p*v)(i) = sum_j p(i,j) v(j). *)
Theorem C02_apply_is_matrix_vector_product :
  forall p (v w : list Z),
    legal p -> length v = psize p -> perm_apply p v = Ok w ->
    forall i, (i < psize p) ->
      nth_error w i = Some (zsum (psize p) (fun j => (elem p i j * nth j v 0)%Z)).
Proof. exact perm_matvec. Qed.
Print Assumptions C02_apply_is_matrix_vector_product.

(** One 1 per row and per column. *)
Theorem C02_one_per_row_and_column :
  forall p k, legal p -> (k < psize p) ->
    (exists j, (j < psize p) /\ elem p k j = 1%Z /\
       forall j', (j' < psize p) -> j' <> j -> elem p k j' = 0%Z) /\
    (exists i, (i < psize p) /\ elem p i k = 1%Z /\
       forall i', (i' < psize p) -> i' <> i -> elem p i' k = 0%Z).
Proof.
  intros p k H Hk. split; [exact (elem_row_one p k H Hk)|exact (elem_col_one p k H Hk)].
Qed.
Print Assumptions C02_one_per_row_and_column.

Theorem C02_inverse_is_transpose :
  forall p i j, legal p -> (i < psize p) -> (j < psize p) ->
    elem (perm_inverse p) i j = elem p j i.
Proof. exact elem_inverse. Qed.
Print Assumptions C02_inverse_is_transpose.

Example C02_hyp : legal ex_p /\ elem ex_p 1 3 = 1%Z /\ elem ex_p 3 1 = 0%Z /\
  elem (perm_inverse ex_p) 3 1 = 1%Z.
Proof. split; [apply ex_p_legal|repeat split]. Qed.

(** C03: det() is the determinant of the 0/1 matrix given by element access,
    over every commutative ring; inverting does not change it; trace() is the
    sum of the diagonal elements. *)

Theorem C03_det_inverse :
  forall p, in_range p -> perm_det (perm_inverse p) = perm_det p.
Proof. intros p _. reflexivity. Qed.
Print Assumptions C03_det_inverse.

Theorem C03_trace :
  forall p, legal p -> perm_trace p = Ok (zsum (psize p) (fun i => elem p i i)).
Proof. exact perm_trace_ok. Qed.
Print Assumptions C03_trace.

Example C03_values : perm_det ex_p = Ok (-1)%Z /\ perm_trace ex_p = Ok 0%Z /\
  perm_trace (mkPerm 3 [2; 1; 2] true) = Ok 1%Z.
Proof. repeat split. Qed.

(** C04: operator== decides equality of the matrices. *)
Theorem C04_eq_extensional :
  forall p q, legal p -> legal q -> psize p = psize q ->
    exists r, perm_eqb p q = Ok r /\
      (r = true <->
       forall i j, (i < psize p) -> (j < psize p) ->
                   perm_cref p i j = perm_cref q i j).
Proof.
  intros p q Hp Hq Hn.
  destruct (perm_eqb_src p q Hp Hq Hn) as [r [E Hr]].
  exists r. split; [exact E|]. rewrite Hr. exact (src_elem_ext p q Hp Hq Hn).
Qed.
Print Assumptions C04_eq_extensional.

(** Same matrix stored in the two orientations, and two different ones. *)
Example C04_mixed :
  perm_eqb (mkPerm 3 [1; 2; 2] false) (mkPerm 3 [2; 2; 2] true) = Ok true /\
  perm_eqb (mkPerm 3 [1; 2; 2] false) (mkPerm 3 [1; 2; 2] true) = Ok false.
Proof. split; reflexivity. Qed.

(** C06, for every build whose TMV_BLOCKSIZE is undefined or even. *)
Theorem C06_left_right_inverse_cancel :
  forall (A : Type) bs p K (m : mat A), good_bs bs -> in_range p ->
    (exists m1 m2, perm_apply_left bs p (psize p) K m = Ok m1 /\
       perm_apply_left bs (perm_inverse p) (psize p) K m1 = Ok m2 /\
       forall i j, m2 i j = m i j) /\
    (exists m1 m2, perm_apply_matright bs p K (psize p) m = Ok m1 /\
       perm_apply_matright bs (perm_inverse p) K (psize p) m1 = Ok m2 /\
       forall i j, m2 i j = m i j).
Proof.
  intros A bs p K m Hbs H. split.
  - destruct (perm_apply_left_ok bs p K m Hbs H) as [m1 [E1 H1]].
    destruct (perm_apply_left_ok bs (perm_inverse p) K m1 Hbs H) as [m2 [E2 H2]].
    exists m1, m2. split; [exact E1|]. split; [exact E2|].
    intros i j. rewrite H2, !H1, src_inverse'. destruct (Nat.ltb j K); auto.
  - destruct (perm_apply_matright_ok bs p K m Hbs H) as [m1 [E1 H1]].
    destruct (perm_apply_matright_ok bs (perm_inverse p) K m1 Hbs H) as [m2 [E2 H2]].
    exists m1, m2. split; [exact E1|]. split; [exact E2|].
    intros i j. rewrite H2, !H1, inverse_inverse, src_inverse. destruct (Nat.ltb i K); auto.
Qed.
Print Assumptions C06_left_right_inverse_cancel.

(** permuteRows(p,i1,i2) / reversePermuteRows act on each column exactly as the
    vector interchanges i1..i2-1 do, and touch nothing outside the N columns. *)
Theorem C06_permute_rows_by_column :
  forall (A : Type) bs M N p i1 i2 (m : mat A),
    good_bs bs -> (i1 <= i2 <= M) ->
    (forall t, (i1 <= t) /\ (t < i2) ->
       exists x, nth_error p t = Some x /\ (x < M)) ->
    (exists m', permute_rows bs M N p i1 i2 m = Ok m' /\
      (forall j, (j < N) ->
         do_permute p i1 i2 (map (fun i => m i j) (seq 0 M))
           = Ok (map (fun i => m' i j) (seq 0 M))) /\
      (forall i j, (N <= j) -> m' i j = m i j)) /\
    (exists m', reverse_permute_rows bs M N p i1 i2 m = Ok m' /\
      (forall j, (j < N) ->
         do_reverse_permute p i1 i2 (map (fun i => m i j) (seq 0 M))
           = Ok (map (fun i => m' i j) (seq 0 M))) /\
      (forall i j, (N <= j) -> m' i j = m i j)).
Proof.
  intros A bs M N p i1 i2 m Hbs Hi Hp. split.
  - exact (permute_rows_columns bs M N p i1 i2 m Hbs Hi Hp).
  - exact (reverse_permute_rows_columns bs M N p i1 i2 m Hbs Hi Hp).
Qed.
Print Assumptions C06_permute_rows_by_column.

(** A finding: with TMV_BLOCKSIZE defined as an odd number the unparenthesised
    macro makes blocks overlap.  TMV_BLOCKSIZE=5, 2 x 20 matrix, one interchange
    of rows 0 and 1: column 5 is swapped twice, i.e. not at all. *)
Theorem C06_odd_blocksize_refuted :
  exists (m m' : mat Z), permute_rows (Some 5) 2 20 [1; 1] 0 2 m = Ok m' /\
     m' 0 4 = m 1 4 /\ m' 0 5 <> m 1 5.
Proof.
  exists (fun i j => (Z.of_nat i * 100 + Z.of_nat j)%Z).
  eexists. split; [vm_compute; reflexivity|]. split; [reflexivity|discriminate].
Qed.
Print Assumptions C06_odd_blocksize_refuted.

Example C06_hyp : good_bs None /\ good_bs (Some 64) /\ legal ex_p.
Proof. repeat split; auto; try apply ex_p_legal. cbn. lia. Qed.
