(** Properties C13 and C37: extreme elements and sums of a vector view, for every
    contents, non-zero step, conjugation and element type. *)
From Coq Require Import ZArith Lia Bool List.
From Verif Require Import Base Scal VecView VecOps VecOpsProofs VecScan.
Import ListNotations.
Open Scope Z_scope.

(** The two orders used, on exact (integer) keys. *)
Definition less (a b : Z) : bool := a <? b.
Definition more (a b : Z) : bool := b <? a.
Lemma less_ordering : ordering less.
Proof.
  unfold ordering, less. split; [intro; apply Z.ltb_irrefl|].
  split; intros a b c; rewrite ?Z.ltb_lt, ?Z.ltb_ge; lia.
Qed.
Lemma more_ordering : ordering more.
Proof.
  unfold ordering, more. split; [intro; apply Z.ltb_irrefl|].
  split; intros a b c; rewrite ?Z.ltb_lt, ?Z.ltb_ge; lia.
Qed.

(** C13, minElement: the value returned is element i of the view, no element has
    a smaller key, and i is the first such index in address order (the first for
    positive, the last for negative step).  [key] is the real part for this
    query. *)
Theorem C13_min_element_partial : forall (K : scal) (key : K -> Z) v (m : mem K),
  (forall y, key (cj y) = key y) -> vstep v <> 0 -> 0 < vsize v ->
  let (x, i) := ext_elem less key v m in
  0 <= i < vsize v /\ x = get m v i /\
  (forall j, 0 <= j < vsize v -> key (get m v i) <= key (get m v j)) /\
  (forall j, 0 <= j < vsize v -> (if 0 <? vstep v then j < i else i < j) ->
     key (get m v i) < key (get m v j)).
Proof.
  intros K key v m Hk Hs Hn.
  destruct (ext_elem_ok less key less_ordering Hk v m Hs Hn) as [(H1 & H2 & H3) H4].
  destruct (ext_elem less key v m) as [x i]. cbn [fst snd] in *.
  split; [auto|]. split; [auto|]. split; intros j Hj.
  - apply Z.ltb_ge, H2, Hj.
  - intro. apply Z.ltb_lt, H3; auto.
Qed.
Print Assumptions C13_min_element_partial.

Theorem C13_max_element_partial : forall (K : scal) (key : K -> Z) v (m : mem K),
  (forall y, key (cj y) = key y) -> vstep v <> 0 -> 0 < vsize v ->
  let (x, i) := ext_elem more key v m in
  0 <= i < vsize v /\ x = get m v i /\
  (forall j, 0 <= j < vsize v -> key (get m v j) <= key (get m v i)) /\
  (forall j, 0 <= j < vsize v -> (if 0 <? vstep v then j < i else i < j) ->
     key (get m v j) < key (get m v i)).
Proof.
  intros K key v m Hk Hs Hn.
  destruct (ext_elem_ok more key more_ordering Hk v m Hs Hn) as [(H1 & H2 & H3) H4].
  destruct (ext_elem more key v m) as [x i]. cbn [fst snd] in *.
  split; [auto|]. split; [auto|]. split; intros j Hj.
  - apply Z.ltb_ge, H2, Hj.
  - intro. apply Z.ltb_lt, H3; auto.
Qed.
Print Assumptions C13_max_element_partial.

(** The Abs and Abs2 versions, which return the key itself; also at step 0. *)
Theorem C13_min_abs : forall (K : scal) (key : K -> Z) v (m : mem K),
  (forall y, key (cj y) = key y) -> 0 < vsize v ->
  let (x, i) := ext_key less key 0 v m in
  0 <= i < vsize v /\ x = key (get m v i) /\
  (forall j, 0 <= j < vsize v -> x <= key (get m v j)).
Proof.
  intros K key v m Hk Hn. destruct (Z.eq_dec (vstep v) 0) as [E|Hs].
  - unfold ext_key. rewrite (proj2 (Z.eqb_neq _ 0)) by lia. rewrite E. cbn [Z.ltb Z.eqb Z.compare].
    assert (A : forall i, key (get m v i) = key (m (vptr v))).
    { intro i. rewrite key_get by auto. unfold addr. rewrite E. do 2 f_equal. lia. }
    split; [lia|]. split; [rewrite A; reflexivity|]. intros. rewrite A. lia.
  - destruct (ext_key_ok less key less_ordering Hk 0 v m Hs Hn) as [(H1 & H2 & H3) H4].
    destruct (ext_key less key 0 v m) as [x i]. cbn [fst snd] in *.
    split; [auto|]. split; [auto|]. intros j Hj. rewrite H4. apply Z.ltb_ge, H2, Hj.
Qed.
Print Assumptions C13_min_abs.

Theorem C13_max_abs : forall (K : scal) (key : K -> Z) v (m : mem K),
  (forall y, key (cj y) = key y) -> 0 < vsize v ->
  let (x, i) := ext_key more key 0 v m in
  0 <= i < vsize v /\ x = key (get m v i) /\
  (forall j, 0 <= j < vsize v -> key (get m v j) <= x).
Proof.
  intros K key v m Hk Hn. destruct (Z.eq_dec (vstep v) 0) as [E|Hs].
  - unfold ext_key. rewrite (proj2 (Z.eqb_neq _ 0)) by lia. rewrite E. cbn [Z.ltb Z.eqb Z.compare].
    assert (A : forall i, key (get m v i) = key (m (vptr v))).
    { intro i. rewrite key_get by auto. unfold addr. rewrite E. do 2 f_equal. lia. }
    split; [lia|]. split; [rewrite A; reflexivity|]. intros. rewrite A. lia.
  - destruct (ext_key_ok more key more_ordering Hk 0 v m Hs Hn) as [(H1 & H2 & H3) H4].
    destruct (ext_key more key 0 v m) as [x i]. cbn [fst snd] in *.
    split; [auto|]. split; [auto|]. intros j Hj. rewrite H4. apply Z.ltb_ge, H2, Hj.
Qed.
Print Assumptions C13_max_abs.

(** Empty vectors give 0 and the index -1. *)
Theorem C13_empty : forall (K : scal) better (key : K -> Z) v (m : mem K), vsize v = 0 ->
  ext_elem better key v m = (k0, -1) /\ ext_key better key 0 v m = (0, -1).
Proof. intros K better key v m E. unfold ext_elem, ext_key. rewrite E. auto. Qed.
Print Assumptions C13_empty.

(** The value (not the index) is that of the same vector stored backwards. *)
Theorem C13_direction_independent : forall (K : scal) (key : K -> Z) v (m : mem K),
  (forall y, key (cj y) = key y) -> 0 < vsize v ->
  fst (ext_key more key 0 v m) = fst (ext_key more key 0 (v_reverse v) m).
Proof.
  intros K key v m Hk Hn.
  pose proof (C13_max_abs K key v m Hk Hn) as A.
  pose proof (C13_max_abs K key (v_reverse v) m Hk Hn) as B.
  destruct (ext_key more key 0 v m) as [x i], (ext_key more key 0 (v_reverse v) m) as [y j].
  cbn [fst]. destruct A as (A1 & A2 & A3), B as (B1 & B2 & B3).
  change (vsize (v_reverse v)) with (vsize v) in *.
  specialize (A3 (vsize v - 1 - j) ltac:(lia)). specialize (B3 (vsize v - 1 - i) ltac:(lia)).
  rewrite get_reverse in B2, B3. replace (vsize v - 1 - (vsize v - 1 - i)) with i in B3 by lia. lia.
Qed.
Print Assumptions C13_direction_independent.

Definition mz : mem ZC := fun a => (a * a - 4 * a, 10 * a).
(** minElement of a conjugated view with step 0 returns the stored element, not
    the element of the view (TMV_Vector.cpp:745-748, 768-771). *)
Theorem C13_step0_conjugate_refuted :
  exists v, vstep v = 0 /\ 0 < vsize v /\
    let r := ext_elem (K := ZC) less (fun y : ZC => fst y) v mz in
    fst r <> get mz v (snd r).
Proof. exists (mkView 1 3 0 true true). split; [reflexivity|]. split; [cbn; lia|]. vm_compute. discriminate. Qed.
Print Assumptions C13_step0_conjugate_refuted.

Example C13_hyp :
  let key : ZC -> Z := fst in
  (forall y : ZC, key (cj y) = key y) /\
  ext_elem less key (mkView 6 7 (-1) true true) mz = ((-4, -20), 4) /\
  ext_elem more key (mkView 0 4 2 false true) mz = ((12, 60), 3) /\
  ext_key more (fun y : ZC => Z.abs (fst y) + Z.abs (snd y)) 0 (mkView 0 4 1 false true) mz = (33, 3).
Proof. cbv zeta. split; [reflexivity|]. vm_compute. auto. Qed.

(** C37.  sumElements is the sum of the elements. *)
Theorem C37_sum_elements_partial : forall (K : scal) v (m : mem K),
  0 <= vsize v -> (vstep v <> 0 \/ vconj v = false) ->
  sum_elements v m = big_sum (get m v) (Z.to_nat (vsize v)).
Proof. intros. apply sum_elements_ok; auto. Qed.
Print Assumptions C37_sum_elements_partial.

(** sumAbsElements, sumAbs2Elements and normSq(scale), at every step including
    0: [g] is x -> |x|, x -> |re x| + |im x|, x -> norm(scale*x). *)
Theorem C37_sum_of_keys : forall (K R : scal) (g : K -> R) v (m : mem K),
  0 <= vsize v -> (forall y, g (cj y) = g y) ->
  sum_key g v m = big_sum (fun i => g (get m v i)) (Z.to_nat (vsize v)).
Proof. intros. apply sum_key_ok; auto. Qed.
Print Assumptions C37_sum_of_keys.

(** The step-0 branch of sumElements forgets the conjugation. *)
Theorem C37_step0_conjugate_refuted :
  exists v, vstep v = 0 /\ 0 < vsize v /\
    sum_elements v mz <> big_sum (R := ZC) (get mz v) (Z.to_nat (vsize v)).
Proof. exists (mkView 1 3 0 true true). split; [reflexivity|]. split; [cbn; lia|]. vm_compute. discriminate. Qed.
Print Assumptions C37_step0_conjugate_refuted.

Example C37_hyp :
  sum_elements (mkView 6 3 (-2) true true) mz = (8, -120) /\
  sum_key (R := ZK) (fun y : ZC => fst y * fst y + snd y * snd y) (mkView 6 3 (-2) true true) mz = 5760 /\
  (forall y : ZC, fst (cj y) * fst (cj y) + snd (cj y) * snd (cj y) = fst y * fst y + snd y * snd y).
Proof. split; [reflexivity|]. split; [reflexivity|]. intros [a b]. cbn. ring. Qed.
