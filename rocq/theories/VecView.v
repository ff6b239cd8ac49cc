(** Vector views: the tuple (pointer, size, step, conj) and the view-making
    members of GenVector / VectorView (include/tmv/TMV_Vector.h), with the range
    checks of src/TMV_Vector.cpp.  Integers are unbounded (no overflow of
    ptrdiff_t). *)
From Coq Require Import ZArith Lia Bool List.
From Verif Require Import Base.
Import ListNotations.
Open Scope Z_scope.

(** VectorView's members, TMV_Vector.h:1111-1130: _v, _size, _step, _ct.  The
    pointer is in units of the element type; [vcplx] says T is complex, so one
    element is two words of RT. *)
Record view := mkView { vptr : Z; vsize : Z; vstep : Z; vconj : bool; vcplx : bool }.

Definition addr (v : view) (i : Z) : Z := vptr v + i * vstep v.

(** A Vector of n elements stored at address 0 of its allocation. *)
Definition whole (n : Z) (cplx : bool) : view := mkView 0 n 1 false cplx.

(** GenVector::hasSubVector, src/TMV_Vector.cpp:90-119.  C++ / and % truncate
    ([Z.quot], [Z.rem]) and are undefined for a zero divisor; they are evaluated
    whatever [ok] is. *)
Definition has_sub_vector (n i1 i2 istep : Z) : outcome bool :=
  if i1 =? i2 then Ok true
  else if istep =? 0 then UB
  else
    Ok (negb (istep =? 0)
        && negb ((i1 <? 0) || (i1 >=? n))
        && negb ((i2 - istep <? 0) || (i2 - istep >=? n))
        && (Z.rem (i2 - i1) istep =? 0)
        && negb (Z.quot (i2 - i1) istep <? 0)).

(** ConstVectorView<T,FortranStyle>::hasSubVector, src/TMV_Vector.cpp:121-151. *)
Definition has_sub_vector_f (n i1 i2 istep : Z) : outcome bool :=
  if i1 =? i2 then Ok true
  else if istep =? 0 then UB
  else
    Ok (negb (istep =? 0)
        && negb ((i1 <? 1) || (i1 >? n))
        && negb ((i2 <? 1) || (i2 >? n))
        && (Z.rem (i2 - i1) istep =? 0)
        && negb (Z.quot (i2 - i1) istep <? 0)).

(** cSubVector(i1,i2) and cSubVector(i1,i2,istep), TMV_Vector.h:398-418,
    1003-1028. *)
Definition c_sub_vector (v : view) (i1 i2 : Z) : view :=
  mkView (vptr v + i1 * vstep v) (i2 - i1) (vstep v) (vconj v) (vcplx v).
Definition c_sub_vector_step (v : view) (i1 i2 istep : Z) : outcome view :=
  if istep =? 0 then UB
  else Ok (mkView (vptr v + i1 * vstep v) (Z.quot (i2 - i1) istep) (istep * vstep v)
             (vconj v) (vcplx v)).

(** subVector with the check (TMVAssert enabled), TMV_Vector.h:401-424. *)
Definition sub_vector (v : view) (i1 i2 : Z) : outcome view :=
  do ok <- has_sub_vector (vsize v) i1 i2 1;
  if ok then Ok (c_sub_vector v i1 i2) else Throw FailedAssert.
Definition sub_vector_step (v : view) (i1 i2 istep : Z) : outcome view :=
  do ok <- has_sub_vector (vsize v) i1 i2 istep;
  if ok then c_sub_vector_step v i1 i2 istep else Throw FailedAssert.

(** The FortranStyle versions, TMV_Vector.h:649-666. *)
Definition sub_vector_f (v : view) (i1 i2 : Z) : outcome view :=
  do ok <- has_sub_vector_f (vsize v) i1 i2 1;
  if ok then Ok (c_sub_vector v (i1 - 1) i2) else Throw FailedAssert.
Definition sub_vector_step_f (v : view) (i1 i2 istep : Z) : outcome view :=
  do ok <- has_sub_vector_f (vsize v) i1 i2 istep;
  if ok then c_sub_vector_step v (i1 - 1) (i2 - 1 + istep) istep else Throw FailedAssert.

(** operator()(i): the address read, C style (TMV_Vector.h:362-366) and Fortran
    style (637-641). *)
Definition at_c (v : view) (i : Z) : outcome Z :=
  if (0 <=? i) && (i <? vsize v) then Ok (addr v i) else Throw FailedAssert.
Definition at_f (v : view) (i : Z) : outcome Z :=
  if (0 <? i) && (i <=? vsize v) then Ok (addr v (i - 1)) else Throw FailedAssert.

(** reverse(), TMV_Vector.h:426-430. *)
Definition v_reverse (v : view) : view :=
  mkView (vptr v + (vsize v - 1) * vstep v) (vsize v) (- vstep v) (vconj v) (vcplx v).

(** conjugate(), TMV_Vector.h:441-442; TMV_ConjOf is NonConj for real T. *)
Definition v_conjugate (v : view) : view :=
  mkView (vptr v) (vsize v) (vstep v) (if vcplx v then negb (vconj v) else false) (vcplx v).

(** realPart(), imagPart(), flatten(), TMV_Vector.h:444-467: the pointer is
    reinterpreted in units of RT. *)
Definition v_real (v : view) : view :=
  if vcplx v then mkView (2 * vptr v) (vsize v) (2 * vstep v) false false
  else mkView (vptr v) (vsize v) (vstep v) false false.
Definition v_imag (v : view) : outcome view :=
  if vcplx v then Ok (mkView (2 * vptr v + 1) (vsize v) (2 * vstep v) false false)
  else Throw FailedAssert.
Definition v_flatten (v : view) : outcome view :=
  if vcplx v then
    if vstep v =? 1 then Ok (mkView (2 * vptr v) (2 * vsize v) 1 false false)
    else Throw FailedAssert
  else Throw FailedAssert.

(** Any checked view operation. *)
Inductive vop :=
| VSub (i1 i2 : Z) | VSubStep (i1 i2 istep : Z) | VReverse | VConjugate
| VReal | VImag | VFlatten.

Definition vop_step (v : view) (o : vop) : outcome view :=
  match o with
  | VSub i1 i2 => sub_vector v i1 i2
  | VSubStep i1 i2 s => sub_vector_step v i1 i2 s
  | VReverse => Ok (v_reverse v)
  | VConjugate => Ok (v_conjugate v)
  | VReal => Ok (v_real v)
  | VImag => v_imag v
  | VFlatten => v_flatten v
  end.

Fixpoint vchain (v : view) (os : list vop) : outcome view :=
  match os with
  | [] => Ok v
  | o :: os' => do w <- vop_step v o; vchain w os'
  end.

(** ** Specification: which words of storage an element occupies *)
Definition words (v : view) (i w : Z) : Prop :=
  if vcplx v then w = 2 * addr v i \/ w = 2 * addr v i + 1 else w = addr v i.

(** The ranges the manual allows: the elements i1, i1+s, ..., up to but not
    including i2, all of them in the vector. *)
Definition c_range_ok (n i1 i2 s : Z) : Prop :=
  i1 = i2 \/
  (s <> 0 /\ exists k, 0 < k /\ i2 = i1 + k * s /\ forall t, 0 <= t < k -> 0 <= i1 + t * s < n).

(** Fortran: i1, i1+s, ..., i2 inclusive, 1-based. *)
Definition f_range_ok (n i1 i2 s : Z) : Prop :=
  s <> 0 /\ exists k, 0 <= k /\ i2 = i1 + k * s /\ forall t, 0 <= t <= k -> 1 <= i1 + t * s <= n.

(** ** Proofs *)

Lemma quot_of_rem0 a s : s <> 0 -> Z.rem a s = 0 -> a = Z.quot a s * s.
Proof. intros Hs Hr. pose proof (Z.quot_rem a s Hs). lia. Qed.

Lemma quot_mul k s : s <> 0 -> Z.quot (k * s) s = k.
Proof. intro H. apply Z.quot_mul. auto. Qed.

Lemma rem_mul k s : s <> 0 -> Z.rem (k * s) s = 0.
Proof. intro H. apply Z.rem_mul. auto. Qed.

Lemma has_sub_vector_exact n i1 i2 s :
  s <> 0 ->
  exists b, has_sub_vector n i1 i2 s = Ok b /\ (b = true <-> c_range_ok n i1 i2 s).
Proof.
  intro Hs. unfold has_sub_vector.
  destruct (Z.eqb_spec i1 i2) as [->|Hne].
  { exists true. split; [reflexivity|]. split; auto. intros _. left. reflexivity. }
  rewrite (proj2 (Z.eqb_neq s 0) Hs).
  eexists. split; [reflexivity|].
  rewrite !andb_true_iff, !negb_true_iff, !orb_false_iff.
  rewrite Z.ltb_ge, Z.geb_leb, Z.leb_gt, Z.ltb_ge, Z.geb_leb, Z.leb_gt, Z.eqb_eq, Z.ltb_ge.
  split.
  - intros ((((_ & H1) & H2) & H3) & H4). right. split; auto.
    exists (Z.quot (i2 - i1) s).
    pose proof (quot_of_rem0 _ _ Hs H3) as E.
    set (k := Z.quot (i2 - i1) s) in *.
    assert (0 < k) by (destruct (Z.eq_dec k 0); nia).
    split; auto. split; [lia|].
    intros t Ht. destruct (Z_lt_le_dec 0 s); nia.
  - intros [?|(_ & k & Hk & -> & H)]; [congruence|].
    replace (i1 + k * s - i1) with (k * s) by lia.
    rewrite rem_mul, quot_mul by auto.
    pose proof (H 0 ltac:(lia)). pose proof (H (k - 1) ltac:(lia)).
    repeat split; nia.
Qed.

Lemma has_sub_vector_f_exact n i1 i2 s :
  s <> 0 -> i1 <> i2 ->
  exists b, has_sub_vector_f n i1 i2 s = Ok b /\ (b = true <-> f_range_ok n i1 i2 s).
Proof.
  intros Hs Hne. unfold has_sub_vector_f.
  destruct (Z.eqb_spec i1 i2) as [->|_]; [congruence|].
  rewrite (proj2 (Z.eqb_neq s 0) Hs).
  eexists. split; [reflexivity|].
  rewrite !andb_true_iff, !negb_true_iff, !orb_false_iff.
  rewrite Z.ltb_ge, Z.gtb_ltb, Z.ltb_ge, Z.ltb_ge, Z.gtb_ltb, Z.ltb_ge, Z.eqb_eq, Z.ltb_ge.
  split.
  - intros ((((_ & H1) & H2) & H3) & H4). split; auto.
    exists (Z.quot (i2 - i1) s).
    pose proof (quot_of_rem0 _ _ Hs H3) as E.
    set (k := Z.quot (i2 - i1) s) in *.
    split; auto. split; [lia|].
    intros t Ht. destruct (Z_lt_le_dec 0 s); nia.
  - intros (_ & k & Hk & -> & H).
    replace (i1 + k * s - i1) with (k * s) by lia.
    rewrite rem_mul, quot_mul by auto.
    pose proof (H 0 ltac:(lia)). pose proof (H k ltac:(lia)).
    repeat split; nia.
Qed.

(** Elements named by the results. *)
Lemma sub_vector_elems v i1 i2 w :
  sub_vector v i1 i2 = Ok w ->
  vsize w = i2 - i1 /\ vconj w = vconj v /\ vcplx w = vcplx v /\ 0 <= vsize w /\
  forall i, 0 <= i < vsize w -> addr w i = addr v (i1 + i) /\ 0 <= i1 + i < vsize v.
Proof.
  unfold sub_vector.
  destruct (has_sub_vector_exact (vsize v) i1 i2 1 ltac:(lia)) as [b [E Hb]].
  rewrite E. cbn [bindO]. destruct b; [|discriminate]. intros [= <-].
  destruct (proj1 Hb eq_refl) as [->|(_ & k & Hk & Ei & H)]; simpl.
  - do 3 (split; [first [reflexivity|lia]|]). split; [lia|]. intros; lia.
  - do 3 (split; [first [reflexivity|lia]|]). split; [lia|].
    intros i Hi. specialize (H i ltac:(lia)). split; [unfold addr; simpl; lia|lia].
Qed.

Lemma sub_vector_step_elems v i1 i2 s w :
  sub_vector_step v i1 i2 s = Ok w ->
  s <> 0 /\ i2 = i1 + vsize w * s /\ vconj w = vconj v /\ vcplx w = vcplx v /\ 0 <= vsize w /\
  forall i, 0 <= i < vsize w -> addr w i = addr v (i1 + i * s) /\ 0 <= i1 + i * s < vsize v.
Proof.
  unfold sub_vector_step, c_sub_vector_step.
  destruct (Z.eqb_spec s 0) as [->|Hs].
  { unfold has_sub_vector. destruct (i1 =? i2); discriminate. }
  destruct (has_sub_vector_exact (vsize v) i1 i2 s Hs) as [b [E Hb]].
  rewrite E. cbn [bindO]. destruct b; [|discriminate]. intros [= <-].
  destruct (proj1 Hb eq_refl) as [->|(_ & k & Hk & -> & H)]; simpl.
  - replace (i2 - i2) with (0 * s) by lia. rewrite quot_mul by auto.
    split; [auto|]. split; [lia|]. do 2 (split; [reflexivity|]). split; [lia|]. intros; lia.
  - replace (i1 + k * s - i1) with (k * s) by lia. rewrite quot_mul by auto.
    split; [auto|]. split; [lia|]. do 2 (split; [reflexivity|]). split; [lia|].
    intros i Hi. specialize (H i ltac:(lia)). split; [unfold addr; simpl; lia|lia].
Qed.

Lemma reverse_elems v i : addr (v_reverse v) i = addr v (vsize v - 1 - i).
Proof. unfold addr, v_reverse. simpl. lia. Qed.

(** In-bounds invariant, in words of storage. *)
Definition inb (N : Z) (v : view) : Prop :=
  0 <= vsize v /\ forall i w, 0 <= i < vsize v -> words v i w -> 0 <= w < N.

Lemma vop_inb N v o w : inb N v -> vop_step v o = Ok w -> inb N w.
Proof.
  intros [Hs Hv] E. destruct o; cbn [vop_step] in E.
  - destruct (sub_vector_elems _ _ _ _ E) as (_ & _ & Hc & H0 & H).
    split; auto. intros i wd Hi Hw. destruct (H i Hi) as [Ha Hr].
    apply (Hv (i1 + i) wd Hr). unfold words in *. rewrite Hc, Ha in Hw. exact Hw.
  - destruct (sub_vector_step_elems _ _ _ _ _ E) as (_ & _ & _ & Hc & H0 & H).
    split; auto. intros i wd Hi Hw. destruct (H i Hi) as [Ha Hr].
    apply (Hv (i1 + i * istep) wd Hr). unfold words in *. rewrite Hc, Ha in Hw. exact Hw.
  - injection E as <-. split; auto. intros i wd Hi Hw. simpl in Hi.
    apply (Hv (vsize v - 1 - i) wd ltac:(lia)). unfold words in *.
    rewrite reverse_elems in Hw. exact Hw.
  - injection E as <-. split; auto. 
  - injection E as <-. unfold v_real. destruct (vcplx v) eqn:Hc.
    + split; auto. intros i wd Hi Hw. cbn [vsize] in Hi. apply (Hv i wd Hi).
      unfold words in *. rewrite Hc. cbn [vcplx] in Hw. left. rewrite Hw. unfold addr. cbn [vptr vstep]. lia.
    + split; auto. intros i wd Hi Hw. apply (Hv i wd Hi). unfold words in *. rewrite Hc. exact Hw.
  - unfold v_imag in E. destruct (vcplx v) eqn:Hc; [|discriminate].
    assert (Ew : w = mkView (2 * vptr v + 1) (vsize v) (2 * vstep v) false false) by congruence.
    subst w. split; auto. intros i wd Hi Hw. cbn [vsize] in Hi. apply (Hv i wd Hi).
    unfold words in *. rewrite Hc. cbn [vcplx] in Hw. right. rewrite Hw. unfold addr. cbn [vptr vstep]. lia.
  - unfold v_flatten in E. destruct (vcplx v) eqn:Hc; [|discriminate].
    destruct (Z.eqb_spec (vstep v) 1) as [H1|]; [|discriminate].
    assert (Ew : w = mkView (2 * vptr v) (2 * vsize v) 1 false false) by congruence.
    subst w. clear E.
    split; cbn [vsize]; [lia|]. intros i wd Hi Hw. unfold words in Hw. cbn [vcplx vsize] in Hw, Hi.
    unfold addr in Hw. cbn [vptr vstep] in Hw.
    apply (Hv (i / 2) wd).
    + split; [apply Z.div_pos; lia|apply Z.div_lt_upper_bound; lia].
    + unfold words. rewrite Hc. unfold addr. rewrite H1.
      pose proof (Z.div_mod i 2 ltac:(lia)). pose proof (Z.mod_pos_bound i 2 ltac:(lia)). lia.
Qed.

Lemma vchain_inb N os v w : inb N v -> vchain v os = Ok w -> inb N w.
Proof.
  revert v. induction os as [|o os IH]; simpl; intros v H E; [congruence|].
  destruct (vop_step v o) as [u| |] eqn:Eo; try discriminate. simpl in E.
  exact (IH u (vop_inb N v o u H Eo) E).
Qed.

Lemma whole_inb (n : Z) (cplx : bool) : 0 <= n -> inb (if cplx then 2 * n else n) (whole n cplx).
Proof.
  intro H. split; [exact H|]. intros i w Hi Hw. unfold words, addr in Hw. cbn [whole vcplx vptr vstep vsize] in *.
  destruct cplx; lia.
Qed.

(** Chains of subranges compose. *)
Lemma reverse_reverse v : 0 <= vsize v -> v_reverse (v_reverse v) = v.
Proof.
  destruct v as [p n s c x]. intros _. unfold v_reverse. simpl. f_equal; lia.
Qed.
