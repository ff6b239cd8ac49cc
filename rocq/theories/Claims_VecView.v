(** Properties C09, C10, C11: vector views, range checks, Fortran indexing. *)
From Coq Require Import ZArith Lia Bool List.
From Verif Require Import Base VecView.
Import ListNotations.
Open Scope Z_scope.

(** C09: any chain of checked view operations, of any length, on a vector of n
    elements, that goes through without a failed check, designates only words
    of that vector's storage. *)
Theorem C09_chains_stay_in_bounds :
  forall (n : Z) (cplx : bool) (os : list vop) (w : view),
    0 <= n -> vchain (whole n cplx) os = Ok w ->
    0 <= vsize w /\
    forall i word, 0 <= i < vsize w -> words w i word ->
      0 <= word < (if cplx then 2 * n else n).
Proof. intros n cplx os w Hn E. exact (vchain_inb _ os _ w (whole_inb n cplx Hn) E). Qed.
Print Assumptions C09_chains_stay_in_bounds.

Example C09_hyp :
  vchain (whole 10 true)
    [VSub 1 9; VSubStep 7 (-1) (-2); VConjugate; VReverse; VImag; VReverse]
  = Ok (mkView 17 4 (-4) false false).
Proof. reflexivity. Qed.

(** Which elements each operation designates: element i of the result is the
    stated element of v, for every v, however it was made. *)
Theorem C09_sub_vector_elements :
  forall v i1 i2 w, sub_vector v i1 i2 = Ok w ->
    vsize w = i2 - i1 /\ vconj w = vconj v /\ vcplx w = vcplx v /\ 0 <= vsize w /\
    forall i, 0 <= i < vsize w -> addr w i = addr v (i1 + i) /\ 0 <= i1 + i < vsize v.
Proof. exact sub_vector_elems. Qed.
Print Assumptions C09_sub_vector_elements.

Theorem C09_sub_vector_step_elements :
  forall v i1 i2 s w, sub_vector_step v i1 i2 s = Ok w ->
    s <> 0 /\ i2 = i1 + vsize w * s /\ vconj w = vconj v /\ vcplx w = vcplx v /\ 0 <= vsize w /\
    forall i, 0 <= i < vsize w ->
      addr w i = addr v (i1 + i * s) /\ 0 <= i1 + i * s < vsize v.
Proof. exact sub_vector_step_elems. Qed.
Print Assumptions C09_sub_vector_step_elements.

Theorem C09_reverse_conjugate_elements :
  forall v i,
    addr (v_reverse v) i = addr v (vsize v - 1 - i) /\
    vsize (v_reverse v) = vsize v /\ vconj (v_reverse v) = vconj v /\
    (0 <= vsize v -> v_reverse (v_reverse v) = v) /\
    addr (v_conjugate v) i = addr v i /\ vsize (v_conjugate v) = vsize v /\
    (vcplx v = true -> vconj (v_conjugate v) = negb (vconj v) /\ v_conjugate (v_conjugate v) = v) /\
    (vcplx v = false -> vconj v = false -> v_conjugate v = v).
Proof.
  intros v i. split; [apply reverse_elems|]. split; [reflexivity|]. split; [reflexivity|].
  split; [apply reverse_reverse|]. split; [reflexivity|]. split; [reflexivity|].
  destruct v as [p n s c x]. unfold v_conjugate. simpl. split; intros; subst; simpl.
  - rewrite negb_involutive. auto.
  - reflexivity.
Qed.
Print Assumptions C09_reverse_conjugate_elements.

(** realPart and imagPart name the first and second word of each complex
    element; flatten names all words in order. *)
Theorem C09_real_imag_flatten_elements :
  forall v, vcplx v = true ->
    (forall i, words (v_real v) i (2 * addr v i)) /\ vsize (v_real v) = vsize v /\
    (exists w, v_imag v = Ok w /\ vsize w = vsize v /\ vcplx w = false /\
       forall i, words w i (2 * addr v i + 1)) /\
    (vstep v = 1 -> exists w, v_flatten v = Ok w /\ vsize w = 2 * vsize v /\ vcplx w = false /\
       forall i, words w (2 * i) (2 * addr v i) /\ words w (2 * i + 1) (2 * addr v i + 1)) /\
    (vstep v <> 1 -> v_flatten v = Throw FailedAssert).
Proof.
  intros v Hc. unfold v_real, v_imag, v_flatten. rewrite Hc.
  split; [intro i; unfold words, addr; cbn [vcplx vptr vstep]; lia|]. split; [reflexivity|].
  split.
  - eexists. split; [reflexivity|]. split; [reflexivity|]. split; [reflexivity|].
    intro i. unfold words, addr. cbn [vcplx vptr vstep]. lia.
  - destruct (Z.eqb_spec (vstep v) 1) as [H1|H1]; split; intro X; try congruence.
    + eexists. split; [reflexivity|]. split; [reflexivity|]. split; [reflexivity|].
      intro i. unfold words, addr. cbn [vcplx vptr vstep]. rewrite H1. lia.
Qed.
Print Assumptions C09_real_imag_flatten_elements.

(** Finding: imagPart of a conjugated view is a view of the stored imaginary
    parts, so it shows minus the imaginary parts of the elements of that view.
    [mem] is the word store; a complex element read through a conjugated view
    has its imaginary word negated. *)
Definition imag_of_elem (mem : Z -> Z) (v : view) (i : Z) : Z :=
  let im := mem (2 * addr v i + 1) in if vconj v then - im else im.
Theorem C09_imag_of_conjugate_refuted :
  exists mem v w, vchain (whole 3 true) [VConjugate] = Ok v /\ v_imag v = Ok w /\
    mem (addr w 1) <> imag_of_elem mem v 1.
Proof.
  exists (fun a => a). do 2 eexists. split; [reflexivity|]. split; [reflexivity|].
  vm_compute. discriminate.
Qed.
Print Assumptions C09_imag_of_conjugate_refuted.

(** C10: for every non-zero step the check has defined behaviour and accepts
    exactly the ranges all of whose elements exist. *)
Theorem C10_range_check_exact_partial :
  forall n i1 i2 s, s <> 0 ->
    exists b, has_sub_vector n i1 i2 s = Ok b /\ (b = true <-> c_range_ok n i1 i2 s).
Proof. exact has_sub_vector_exact. Qed.
Print Assumptions C10_range_check_exact_partial.

Theorem C10_fortran_range_check_exact_partial :
  forall n i1 i2 s, s <> 0 -> i1 <> i2 ->
    exists b, has_sub_vector_f n i1 i2 s = Ok b /\ (b = true <-> f_range_ok n i1 i2 s).
Proof. exact has_sub_vector_f_exact. Qed.
Print Assumptions C10_fortran_range_check_exact_partial.

Example C10_hyp :
  has_sub_vector 10 8 (-1) (-3) = Ok true /\ c_range_ok 10 8 (-1) (-3) /\
  has_sub_vector 10 8 0 (-3) = Ok false /\
  has_sub_vector_f 10 9 3 (-3) = Ok true /\ f_range_ok 10 9 3 (-3).
Proof.
  split; [reflexivity|]. split.
  - right. split; [lia|]. exists 3. split; [lia|]. split; [lia|]. intros t Ht. lia.
  - split; [reflexivity|]. split; [reflexivity|]. split; [lia|]. exists 2.
    split; [lia|]. split; [lia|]. intros t Ht. lia.
Qed.

(** Finding: with istep = 0 the check divides by zero instead of reporting the
    bad step, for every non-empty range. *)
Theorem C10_zero_step_refuted :
  forall n i1 i2, i1 <> i2 -> has_sub_vector n i1 i2 0 = UB /\ has_sub_vector_f n i1 i2 0 = UB.
Proof.
  intros n i1 i2 H. unfold has_sub_vector, has_sub_vector_f.
  rewrite (proj2 (Z.eqb_neq i1 i2) H). auto.
Qed.
Print Assumptions C10_zero_step_refuted.

(** Finding: the Fortran check accepts every range i1..i1 without looking at
    i1, although it designates the element i1; the resulting view is out of
    bounds. *)
Theorem C10_fortran_single_element_refuted :
  exists n i1 w, ~ f_range_ok n i1 i1 1 /\ has_sub_vector_f n i1 i1 1 = Ok true /\
    sub_vector_f (whole n false) i1 i1 = Ok w /\ vsize w = 1 /\ ~ (0 <= addr w 0 < n).
Proof.
  exists 3, 8. eexists. split.
  - intros (_ & k & Hk & _ & H). specialize (H 0 ltac:(lia)). lia.
  - split; [reflexivity|]. split; [reflexivity|]. split; [reflexivity|]. vm_compute. intros [_ H]. discriminate H.
Qed.
Print Assumptions C10_fortran_single_element_refuted.

(** C11: Fortran element access is C access one below, with the same
    acceptance. *)
Theorem C11_element :
  forall v i, at_f v i = at_c v (i - 1).
Proof.
  intros v i. unfold at_f, at_c.
  replace (0 <=? i - 1) with (0 <? i) by (destruct (Z.ltb_spec 0 i), (Z.leb_spec 0 (i - 1)); lia).
  replace (i - 1 <? vsize v) with (i <=? vsize v)
    by (destruct (Z.leb_spec i (vsize v)), (Z.ltb_spec (i - 1) (vsize v)); lia).
  reflexivity.
Qed.
Print Assumptions C11_element.

(** An accepted Fortran range whose ends exist (always so unless i1 = i2, see
    C10_fortran_single_element_refuted) is the C range with the same elements:
    element t of the result is v(i1 + t*s) in Fortran numbering, t = 0..k. *)
Theorem C11_sub_vector_step_partial :
  forall v i1 i2 s w,
    sub_vector_step_f v i1 i2 s = Ok w -> 1 <= i1 <= vsize v ->
    sub_vector_step v (i1 - 1) (i2 - 1 + s) s = Ok w /\
    i2 = i1 + (vsize w - 1) * s /\ 1 <= vsize w /\
    forall t, 0 <= t < vsize w -> at_f v (i1 + t * s) = Ok (addr w t).
Proof.
  intros v i1 i2 s w E Hi.
  destruct (Z.eq_dec s 0) as [->|Hs].
  { unfold sub_vector_step_f, has_sub_vector_f, c_sub_vector_step in E. simpl in E.
    destruct (i1 =? i2); discriminate. }
  assert (F : f_range_ok (vsize v) i1 i2 s).
  { destruct (Z.eq_dec i1 i2) as [<-|Hne].
    - split; auto. exists 0. split; [lia|]. split; [lia|]. intros t Ht. nia.
    - destruct (has_sub_vector_f_exact (vsize v) i1 i2 s Hs Hne) as [b [Eb Hb]].
      unfold sub_vector_step_f in E. rewrite Eb in E. cbn [bindO] in E.
      destruct b; [apply Hb; reflexivity|discriminate]. }
  destruct F as (_ & k & Hk & -> & F).
  assert (Ew : c_sub_vector_step v (i1 - 1) (i1 + k * s - 1 + s) s = Ok w).
  { unfold sub_vector_step_f in E.
    destruct (has_sub_vector_f (vsize v) i1 (i1 + k * s) s) as [[|]| |]; cbn [bindO] in E; congruence. }
  assert (EC : sub_vector_step v (i1 - 1) (i1 + k * s - 1 + s) s = Ok w).
  { unfold sub_vector_step.
    destruct (has_sub_vector_exact (vsize v) (i1 - 1) (i1 + k * s - 1 + s) s Hs) as [b [Eb Hb]].
    rewrite Eb. cbn [bindO]. replace b with true; [exact Ew|]. symmetry. apply Hb.
    right. split; auto. exists (k + 1). split; [lia|]. split; [lia|].
    intros t Ht. specialize (F t ltac:(lia)). lia. }
  split; [exact EC|].
  destruct (sub_vector_step_elems _ _ _ _ _ EC) as (_ & En & _ & _ & H0 & H).
  assert (Ek : vsize w = k + 1) by nia.
  split; [nia|]. split; [lia|].
  intros t Ht. rewrite C11_element. destruct (H t Ht) as [Ha Hr].
  unfold at_c. replace (i1 + t * s - 1) with (i1 - 1 + t * s) by lia.
  rewrite (proj2 (Z.leb_le _ _)), (proj2 (Z.ltb_lt _ _)) by lia. simpl. congruence.
Qed.
Print Assumptions C11_sub_vector_step_partial.

Theorem C11_sub_vector_partial :
  forall v i1 i2 w,
    sub_vector_f v i1 i2 = Ok w -> 1 <= i1 <= vsize v ->
    sub_vector v (i1 - 1) i2 = Ok w /\ vsize w = i2 - i1 + 1 /\
    forall t, 0 <= t < vsize w -> at_f v (i1 + t) = Ok (addr w t).
Proof.
  intros v i1 i2 w E Hi.
  assert (F : f_range_ok (vsize v) i1 i2 1).
  { destruct (Z.eq_dec i1 i2) as [<-|Hne].
    - split; [lia|]. exists 0. split; [lia|]. split; [lia|]. intros t Ht. lia.
    - destruct (has_sub_vector_f_exact (vsize v) i1 i2 1 ltac:(lia) Hne) as [b [Eb Hb]].
      unfold sub_vector_f in E. rewrite Eb in E. cbn [bindO] in E.
      destruct b; [apply Hb; reflexivity|discriminate]. }
  destruct F as (_ & k & Hk & -> & F).
  assert (Ew : c_sub_vector v (i1 - 1) (i1 + k * 1) = w).
  { unfold sub_vector_f in E.
    destruct (has_sub_vector_f (vsize v) i1 (i1 + k * 1) 1) as [[|]| |]; cbn [bindO] in E; congruence. }
  assert (EC : sub_vector v (i1 - 1) (i1 + k * 1) = Ok w).
  { unfold sub_vector.
    destruct (has_sub_vector_exact (vsize v) (i1 - 1) (i1 + k * 1) 1 ltac:(lia)) as [b [Eb Hb]].
    rewrite Eb. cbn [bindO]. replace b with true; [congruence|]. symmetry. apply Hb.
    right. split; [lia|]. exists (k + 1). split; [lia|]. split; [lia|].
    intros t Ht. specialize (F t ltac:(lia)). lia. }
  split; [exact EC|].
  destruct (sub_vector_elems _ _ _ _ EC) as (En & _ & _ & H0 & H).
  split; [lia|].
  intros t Ht. rewrite C11_element. destruct (H t Ht) as [Ha Hr].
  unfold at_c. replace (i1 + t - 1) with (i1 - 1 + t) by lia.
  rewrite (proj2 (Z.leb_le _ _)), (proj2 (Z.ltb_lt _ _)) by lia. simpl. congruence.
Qed.
Print Assumptions C11_sub_vector_partial.

(** Conversely every Fortran range that exists is accepted. *)
Theorem C11_ranges_accepted :
  forall v i1 i2 s, f_range_ok (vsize v) i1 i2 s ->
    exists w, sub_vector_step_f v i1 i2 s = Ok w.
Proof.
  intros v i1 i2 s F. destruct F as (Hs & F').
  unfold sub_vector_step_f, c_sub_vector_step. rewrite (proj2 (Z.eqb_neq s 0) Hs).
  destruct (Z.eq_dec i1 i2) as [<-|Hne].
  - unfold has_sub_vector_f. rewrite Z.eqb_refl. cbn [bindO]. eexists. reflexivity.
  - destruct (has_sub_vector_f_exact (vsize v) i1 i2 s Hs Hne) as [b [Eb Hb]].
    rewrite Eb. cbn [bindO]. replace b with true; [eexists; reflexivity|].
    symmetry. apply Hb. split; auto.
Qed.
Print Assumptions C11_ranges_accepted.

Example C11_hyp : exists w, sub_vector_step_f (whole 10 false) 9 3 (-3) = Ok w /\
  addr w 0 = 8 /\ addr w 2 = 2 /\ vsize w = 3.
Proof. eexists. split; [reflexivity|]. repeat split. Qed.
