(** Dense matrix views: the tuple (pointer, colsize, rowsize, stepi, stepj, conj,
    linsize) and the view-making members of GenMatrix / MatrixView / Matrix
    (include/tmv/TMV_Matrix.h), with the range checks of src/TMV_Matrix.cpp.
    Integers are unbounded.  Assertions are on: a failed TMVAssert is
    [Throw FailedAssert]. *)
From Coq Require Import ZArith Lia Bool List.
From Verif Require Import Base VecView.
Import ListNotations.
Open Scope Z_scope.

(** MatrixView's members, TMV_Matrix.h:1905-1915 (and ConstMatrixView's,
    1091-1099).  [ls] is linsize: 0 not linearizable, -1 not known, otherwise
    the number of elements. *)
Record mview := mkMV { mptr : Z; cs : Z; rs : Z; si : Z; sj : Z; mct : bool; mcplx : bool; ls : Z }.

(** The address cref(i,j)/ref(i,j) reads, TMV_Matrix.cpp:52-72. *)
Definition maddr (m : mview) (i j : Z) : Z := mptr m + i * si m + j * sj m.

(** A Matrix: stepi, stepj and linsize from 3386-3396 and 2478-2480. *)
Definition wholeM (M N : Z) (rowmajor cplx : bool) : mview :=
  mkMV 0 M N (if rowmajor then N else 1) (if rowmajor then 1 else M) false cplx (M * N).

(** iscm(), isrm(): 961-964. *)
Definition iscm (m : mview) : bool := si m =? 1.
Definition isrm (m : mview) : bool := sj m =? 1.

Definition assertO (b : bool) : outcome unit := if b then Ok tt else Throw FailedAssert.

(** GenMatrix::hasSubMatrix, TMV_Matrix.cpp:164-217.  A zero step is noted, but the
    division by it is executed all the same. *)
Definition in_range (n i1 i2 s : Z) : bool :=
  negb (s =? 0)
  && negb ((i1 <? 0) || (i1 >=? n)) && negb ((i2 - s <? 0) || (i2 - s >=? n))
  && (Z.rem (i2 - i1) s =? 0) && negb (Z.quot (i2 - i1) s <? 0).
Definition has_sub_matrix (m : mview) (i1 i2 j1 j2 istep jstep : Z) : outcome bool :=
  if (i1 =? i2) || (j1 =? j2) then Ok true
  else if (istep =? 0) || (jstep =? 0) then UB
  else Ok (in_range (cs m) i1 i2 istep && in_range (rs m) j1 j2 jstep).

(** ConstMatrixView<T,FortranStyle>::hasSubMatrix, 253-306. *)
Definition in_range_f (n i1 i2 s : Z) : bool :=
  negb (s =? 0)
  && negb ((i1 <? 1) || (i1 >? n)) && negb ((i2 <? 1) || (i2 >? n))
  && (Z.rem (i2 - i1) s =? 0) && negb (Z.quot (i2 - i1) s <? 0).
Definition has_sub_matrix_f (m : mview) (i1 i2 j1 j2 istep jstep : Z) : outcome bool :=
  if (i1 =? i2) || (j1 =? j2) then Ok true
  else if (istep =? 0) || (jstep =? 0) then UB
  else Ok (in_range_f (cs m) i1 i2 istep && in_range_f (rs m) j1 j2 jstep).

(** GenMatrix::hasSubVector, 219-251. *)
Definition has_sub_vec (m : mview) (i j istep jstep n : Z) : bool :=
  if n =? 0 then true
  else
    let i2 := i + istep * (n - 1) in
    let j2 := j + jstep * (n - 1) in
    negb ((istep =? 0) && (jstep =? 0))
    && negb ((i <? 0) || (i >=? cs m)) && negb ((j <? 0) || (j >=? rs m))
    && negb ((i2 <? 0) || (i2 >=? cs m)) && negb ((j2 <? 0) || (j2 >=? rs m)).
(** The Fortran version, 308-340. *)
Definition has_sub_vec_f (m : mview) (i j istep jstep n : Z) : bool :=
  if n =? 0 then true
  else
    let i2 := i + istep * (n - 1) in
    let j2 := j + jstep * (n - 1) in
    negb ((istep =? 0) && (jstep =? 0))
    && negb ((i <? 1) || (i >? cs m)) && negb ((j <? 1) || (j >? rs m))
    && negb ((i2 <? 1) || (i2 >? cs m)) && negb ((j2 <? 1) || (j2 >? rs m)).

(** cSubMatrix and subMatrix, 678-704, 1601-1628. *)
Definition c_sub_matrix (m : mview) (i1 i2 j1 j2 : Z) : mview :=
  mkMV (mptr m + i1 * si m + j1 * sj m) (i2 - i1) (j2 - j1) (si m) (sj m) (mct m) (mcplx m) 0.
Definition c_sub_matrix_step (m : mview) (i1 i2 j1 j2 istep jstep : Z) : outcome mview :=
  if (istep =? 0) || (jstep =? 0) then UB
  else Ok (mkMV (mptr m + i1 * si m + j1 * sj m) (Z.quot (i2 - i1) istep) (Z.quot (j2 - j1) jstep)
             (istep * si m) (jstep * sj m) (mct m) (mcplx m) 0).
Definition sub_matrix (m : mview) (i1 i2 j1 j2 : Z) : outcome mview :=
  do ok <- has_sub_matrix m i1 i2 j1 j2 1 1;
  do _ <- assertO ok; Ok (c_sub_matrix m i1 i2 j1 j2).
Definition sub_matrix_step (m : mview) (i1 i2 j1 j2 istep jstep : Z) : outcome mview :=
  do ok <- has_sub_matrix m i1 i2 j1 j2 istep jstep;
  do _ <- assertO ok; c_sub_matrix_step m i1 i2 j1 j2 istep jstep.
(** The Fortran versions, 1198-1210. *)
Definition sub_matrix_f (m : mview) (i1 i2 j1 j2 : Z) : outcome mview :=
  do ok <- has_sub_matrix_f m i1 i2 j1 j2 1 1;
  do _ <- assertO ok; Ok (c_sub_matrix m (i1 - 1) i2 (j1 - 1) j2).
Definition sub_matrix_step_f (m : mview) (i1 i2 j1 j2 istep jstep : Z) : outcome mview :=
  do ok <- has_sub_matrix_f m i1 i2 j1 j2 istep jstep;
  do _ <- assertO ok;
  c_sub_matrix_step m (i1 - 1) (i2 - 1 + istep) (j1 - 1) (j2 - 1 + jstep) istep jstep.

(** cColPair .. rowRange, 751-799, 1678-1730. *)
Definition c_col_pair (m : mview) (j1 j2 : Z) : mview :=
  mkMV (mptr m + j1 * sj m) (cs m) 2 (si m) ((j2 - j1) * sj m) (mct m) (mcplx m) 0.
Definition c_row_pair (m : mview) (i1 i2 : Z) : mview :=
  mkMV (mptr m + i1 * si m) 2 (rs m) ((i2 - i1) * si m) (sj m) (mct m) (mcplx m) 0.
Definition c_col_range (m : mview) (j1 j2 : Z) : mview :=
  mkMV (mptr m + j1 * sj m) (cs m) (j2 - j1) (si m) (sj m) (mct m) (mcplx m)
    (if iscm m && negb (ls m =? 0) then -1 else 0).
Definition c_row_range (m : mview) (i1 i2 : Z) : mview :=
  mkMV (mptr m + i1 * si m) (i2 - i1) (rs m) (si m) (sj m) (mct m) (mcplx m)
    (if isrm m && negb (ls m =? 0) then -1 else 0).
Definition inside (i n : Z) : bool := (0 <=? i) && (i <? n).
Definition span (i1 i2 n : Z) : bool := (0 <=? i1) && (i1 - i2 <=? 0) && (i2 <=? n).
Definition col_pair (m : mview) (j1 j2 : Z) : outcome mview :=
  do _ <- assertO (inside j1 (rs m) && inside j2 (rs m)); Ok (c_col_pair m j1 j2).
Definition row_pair (m : mview) (i1 i2 : Z) : outcome mview :=
  do _ <- assertO (inside i1 (cs m) && inside i2 (cs m)); Ok (c_row_pair m i1 i2).
Definition col_range (m : mview) (j1 j2 : Z) : outcome mview :=
  do _ <- assertO (span j1 j2 (rs m)); Ok (c_col_range m j1 j2).
Definition row_range (m : mview) (i1 i2 : Z) : outcome mview :=
  do _ <- assertO (span i1 i2 (cs m)); Ok (c_row_range m i1 i2).
(** MatrixView<T,FortranStyle>::rowPair, 2247-2252: the check is against rowsize(). *)
Definition row_pair_f (m : mview) (i1 i2 : Z) : outcome mview :=
  do _ <- assertO ((0 <? i1) && (i1 <=? rs m) && ((0 <? i2) && (i2 <=? rs m)));
  Ok (c_row_pair m (i1 - 1) (i2 - 1)).

(** realPart, imagPart, 801-815. *)
Definition m_real (m : mview) : mview :=
  if mcplx m then mkMV (2 * mptr m) (cs m) (rs m) (2 * si m) (2 * sj m) false false 0
  else mkMV (mptr m) (cs m) (rs m) (si m) (sj m) false false 0.
Definition m_imag (m : mview) : outcome mview :=
  if mcplx m then Ok (mkMV (2 * mptr m + 1) (cs m) (rs m) (2 * si m) (2 * sj m) false false 0)
  else Throw FailedAssert.

(** transpose, conjugate, adjoint, 827-845. *)
Definition conj_of (m : mview) : bool := if mcplx m then negb (mct m) else false.
Definition m_transpose (m : mview) : mview :=
  mkMV (mptr m) (rs m) (cs m) (sj m) (si m) (mct m) (mcplx m) (ls m).
Definition m_conjugate (m : mview) : mview :=
  mkMV (mptr m) (cs m) (rs m) (si m) (sj m) (conj_of m) (mcplx m) (ls m).
Definition m_adjoint (m : mview) : mview :=
  mkMV (mptr m) (rs m) (cs m) (sj m) (si m) (conj_of m) (mcplx m) (ls m).

(** canLinearize(), 1075-1088: sets the mutable linsize the first time it is called
    on a view of unknown status. *)
Definition set_ls (m : mview) (l : Z) : mview :=
  mkMV (mptr m) (cs m) (rs m) (si m) (sj m) (mct m) (mcplx m) l.
Definition can_linearize (m : mview) : outcome (bool * mview) :=
  let m' :=
    if ls m =? -1 then
      if ((si m =? 1) && (sj m =? cs m)) || ((sj m =? 1) && (si m =? rs m))
      then set_ls m (rs m * cs m) else set_ls m 0
    else m in
  do _ <- assertO ((ls m' =? 0) || (isrm m' && (si m' =? rs m')) || (iscm m' && (sj m' =? cs m')));
  Ok (0 <? ls m', m').
(** linearView(), 847-856, 1787-1796. *)
Definition linear_view (m : mview) : outcome view :=
  do _ <- assertO (negb (ls m =? -1));
  do r <- can_linearize m;
  do _ <- assertO (fst r);
  do _ <- assertO (ls (snd r) =? cs m * rs m);
  Ok (mkView (mptr m) (ls (snd r)) 1 (mct m) (mcplx m)).
(** The same with assertions off (they are not evaluated). *)
Definition linear_view_noassert (m : mview) : view := mkView (mptr m) (ls m) 1 (mct m) (mcplx m).

(** row, col, diag, subVector, 560-628, 708-721. *)
Definition m_row (m : mview) (i : Z) : outcome view :=
  do _ <- assertO (inside i (cs m));
  Ok (mkView (mptr m + i * si m) (rs m) (sj m) (mct m) (mcplx m)).
Definition m_col (m : mview) (j : Z) : outcome view :=
  do _ <- assertO (inside j (rs m));
  Ok (mkView (mptr m + j * sj m) (cs m) (si m) (mct m) (mcplx m)).
Definition m_row_sub (m : mview) (i j1 j2 : Z) : outcome view :=
  do _ <- assertO (inside i (cs m)); do _ <- assertO (span j1 j2 (rs m));
  Ok (mkView (mptr m + i * si m + j1 * sj m) (j2 - j1) (sj m) (mct m) (mcplx m)).
Definition m_col_sub (m : mview) (j i1 i2 : Z) : outcome view :=
  do _ <- assertO (inside j (rs m)); do _ <- assertO (span i1 i2 (cs m));
  Ok (mkView (mptr m + i1 * si m + j * sj m) (i2 - i1) (si m) (mct m) (mcplx m)).
Definition m_diag0 (m : mview) : view :=
  mkView (mptr m) (Z.min (cs m) (rs m)) (si m + sj m) (mct m) (mcplx m).
Definition m_diag (m : mview) (i : Z) : outcome view :=
  do _ <- assertO ((- cs m <=? i) && (i <=? rs m));
  let ds := si m + sj m in
  if 0 <=? i then Ok (mkView (mptr m + i * sj m) (Z.min (cs m) (rs m - i)) ds (mct m) (mcplx m))
  else Ok (mkView (mptr m - i * si m) (Z.min (cs m + i) (rs m)) ds (mct m) (mcplx m)).
Definition m_diag_sub (m : mview) (i j1 j2 : Z) : outcome view :=
  do _ <- assertO ((- cs m <=? i) && (i <=? rs m));
  let ds := si m + sj m in
  if 0 <=? i then
    do _ <- assertO (span j1 j2 (Z.min (cs m) (rs m - i)));
    Ok (mkView (mptr m + i * sj m + j1 * ds) (j2 - j1) ds (mct m) (mcplx m))
  else
    do _ <- assertO (span j1 j2 (Z.min (cs m + i) (rs m)));
    Ok (mkView (mptr m - i * si m + j1 * ds) (j2 - j1) ds (mct m) (mcplx m)).
Definition c_sub_vec (m : mview) (i j istep jstep n : Z) : view :=
  mkView (mptr m + i * si m + j * sj m) n (istep * si m + jstep * sj m) (mct m) (mcplx m).
Definition m_sub_vec (m : mview) (i j istep jstep n : Z) : outcome view :=
  do _ <- assertO (has_sub_vec m i j istep jstep n); Ok (c_sub_vec m i j istep jstep n).
(** 1214-1219. *)
Definition m_sub_vec_f (m : mview) (i j istep jstep n : Z) : outcome view :=
  do _ <- assertO (has_sub_vec_f m i j istep jstep n); Ok (c_sub_vec m (i - 1) (j - 1) istep jstep n).

(** Matrix::diag(i,j1,j2) const, 2750-2769: diagstep is stepi()+1. *)
Definition mat_diag_sub_const (m : mview) (i j1 j2 : Z) : outcome view :=
  do _ <- assertO ((0 <=? j1) && (j1 - j2 <=? 0));
  do _ <- assertO ((- cs m <=? i) && (i <=? rs m));
  let ds := si m + 1 in
  if 0 <=? i then
    do _ <- assertO (j2 <=? Z.min (cs m) (rs m - i));
    Ok (mkView (mptr m + i * sj m + j1 * ds) (j2 - j1) ds (mct m) (mcplx m))
  else
    do _ <- assertO (j2 <=? Z.min (cs m + i) (rs m));
    Ok (mkView (mptr m - i * si m + j1 * ds) (j2 - j1) ds (mct m) (mcplx m)).
(** Matrix::diag(i,j1,j2), 2846-2864: below the main diagonal j2 is checked against
    the bound for above it. *)
Definition mat_diag_sub (m : mview) (i j1 j2 : Z) : outcome view :=
  do _ <- assertO ((0 <=? j1) && (j1 - j2 <=? 0));
  do _ <- assertO ((- cs m <=? i) && (i <=? rs m));
  let ds := si m + sj m in
  if 0 <=? i then
    do _ <- assertO (j2 <=? Z.min (cs m) (rs m - i));
    Ok (mkView (mptr m + i * sj m + j1 * ds) (j2 - j1) ds (mct m) (mcplx m))
  else
    do _ <- assertO (j2 <=? Z.min (cs m) (rs m - i));
    Ok (mkView (mptr m - i * si m + j1 * ds) (j2 - j1) ds (mct m) (mcplx m)).

(** Any checked operation giving a matrix view, or a vector view. *)
Inductive mop :=
| OSub (i1 i2 j1 j2 : Z) | OSubStep (i1 i2 j1 j2 istep jstep : Z)
| OColPair (j1 j2 : Z) | ORowPair (i1 i2 : Z) | OColRange (j1 j2 : Z) | ORowRange (i1 i2 : Z)
| OReal | OImag | OTranspose | OConjugate | OAdjoint | OCanLin.
Inductive mvop :=
| ORow (i : Z) | OCol (j : Z) | ORowSub (i j1 j2 : Z) | OColSub (j i1 i2 : Z)
| ODiag0 | ODiag (i : Z) | ODiagSub (i j1 j2 : Z) | OSubVec (i j istep jstep n : Z) | OLinear.
Definition mop_step (m : mview) (o : mop) : outcome mview :=
  match o with
  | OSub i1 i2 j1 j2 => sub_matrix m i1 i2 j1 j2
  | OSubStep i1 i2 j1 j2 s t => sub_matrix_step m i1 i2 j1 j2 s t
  | OColPair j1 j2 => col_pair m j1 j2
  | ORowPair i1 i2 => row_pair m i1 i2
  | OColRange j1 j2 => col_range m j1 j2
  | ORowRange i1 i2 => row_range m i1 i2
  | OReal => Ok (m_real m)
  | OImag => m_imag m
  | OTranspose => Ok (m_transpose m)
  | OConjugate => Ok (m_conjugate m)
  | OAdjoint => Ok (m_adjoint m)
  | OCanLin => do r <- can_linearize m; Ok (snd r)
  end.
Definition mvop_step (m : mview) (o : mvop) : outcome view :=
  match o with
  | ORow i => m_row m i
  | OCol j => m_col m j
  | ORowSub i j1 j2 => m_row_sub m i j1 j2
  | OColSub j i1 i2 => m_col_sub m j i1 i2
  | ODiag0 => Ok (m_diag0 m)
  | ODiag i => m_diag m i
  | ODiagSub i j1 j2 => m_diag_sub m i j1 j2
  | OSubVec i j s t n => m_sub_vec m i j s t n
  | OLinear => linear_view m
  end.
Fixpoint mchain (m : mview) (os : list mop) : outcome mview :=
  match os with
  | [] => Ok m
  | o :: os' => do w <- mop_step m o; mchain w os'
  end.

(** ** Specification *)
(** The words of storage element (i,j) occupies. *)
Definition mwords (m : mview) (i j w : Z) : Prop :=
  if mcplx m then w = 2 * maddr m i j \/ w = 2 * maddr m i j + 1 else w = maddr m i j.

(** ** Proofs *)
Definition minb (L : Z) (m : mview) : Prop :=
  forall i j w, 0 <= i < cs m -> 0 <= j < rs m -> mwords m i j w -> 0 <= w < L.
Definition winb (L : Z) (v : view) : Prop :=
  forall i w, 0 <= i < vsize v -> words v i w -> 0 <= w < L.

Lemma assert_inv (X : Type) b (k : outcome X) x : (do _ <- assertO b; k) = Ok x -> b = true /\ k = Ok x.
Proof. destruct b; cbn [assertO bindO]; [auto|discriminate]. Qed.

Lemma inside_iff i n : inside i n = true <-> 0 <= i < n.
Proof. unfold inside. rewrite andb_true_iff, Z.leb_le, Z.ltb_lt. lia. Qed.
Lemma span_iff i1 i2 n : span i1 i2 n = true <-> 0 <= i1 <= i2 /\ i2 <= n.
Proof. unfold span. rewrite !andb_true_iff, !Z.leb_le. lia. Qed.

Lemma in_range_exact n i1 i2 s : s <> 0 -> i1 <> i2 ->
  (in_range n i1 i2 s = true <-> c_range_ok n i1 i2 s).
Proof.
  intros Hs Hi. destruct (has_sub_vector_exact n i1 i2 s Hs) as [b [E Hb]].
  unfold has_sub_vector in E.
  rewrite (proj2 (Z.eqb_neq i1 i2) Hi), (proj2 (Z.eqb_neq s 0) Hs) in E.
  assert (Eb : in_range n i1 i2 s = b) by (unfold in_range; rewrite (proj2 (Z.eqb_neq s 0) Hs); congruence).
  rewrite Eb. exact Hb.
Qed.
Lemma in_range_f_exact n i1 i2 s : s <> 0 -> i1 <> i2 ->
  (in_range_f n i1 i2 s = true <-> f_range_ok n i1 i2 s).
Proof.
  intros Hs Hi. destruct (has_sub_vector_f_exact n i1 i2 s Hs Hi) as [b [E Hb]].
  unfold has_sub_vector_f in E.
  rewrite (proj2 (Z.eqb_neq i1 i2) Hi), (proj2 (Z.eqb_neq s 0) Hs) in E.
  assert (Eb : in_range_f n i1 i2 s = b) by (unfold in_range_f; rewrite (proj2 (Z.eqb_neq s 0) Hs); congruence).
  rewrite Eb. exact Hb.
Qed.

(** subMatrix with steps: the elements of the result. *)
Lemma sub_matrix_step_elems m i1 i2 j1 j2 s t w :
  sub_matrix_step m i1 i2 j1 j2 s t = Ok w ->
  s <> 0 /\ t <> 0 /\ mct w = mct m /\ mcplx w = mcplx m /\ ls w = 0 /\
  (i1 <> i2 -> j1 <> j2 -> i2 = i1 + cs w * s /\ j2 = j1 + rs w * t /\ 0 < cs w /\ 0 < rs w) /\
  (i1 = i2 -> cs w = 0) /\ (j1 = j2 -> rs w = 0) /\
  forall i j, 0 <= i < cs w -> 0 <= j < rs w ->
    maddr w i j = maddr m (i1 + i * s) (j1 + j * t) /\
    0 <= i1 + i * s < cs m /\ 0 <= j1 + j * t < rs m.
Proof.
  unfold sub_matrix_step, has_sub_matrix. intro E.
  assert (Hst : s <> 0 /\ t <> 0).
  { unfold c_sub_matrix_step in E.
    destruct (Z.eqb_spec s 0) as [->|Hs]; destruct (Z.eqb_spec t 0) as [->|Ht]; auto;
      destruct ((i1 =? i2) || (j1 =? j2)); cbn in E; discriminate. }
  destruct Hst as [Hs Ht].
  assert (E2 : ((i1 = i2 \/ j1 = j2) \/ (i1 <> i2 /\ j1 <> j2 /\ c_range_ok (cs m) i1 i2 s /\ c_range_ok (rs m) j1 j2 t))
               /\ c_sub_matrix_step m i1 i2 j1 j2 s t = Ok w).
  { destruct (Z.eqb_spec i1 i2) as [Ei|Ni]; destruct (Z.eqb_spec j1 j2) as [Ej|Nj];
      cbn [orb assertO bindO] in E; auto.
    rewrite (proj2 (Z.eqb_neq s 0) Hs), (proj2 (Z.eqb_neq t 0) Ht) in E. cbn [orb bindO] in E.
    apply assert_inv in E. destruct E as [Eb E]. apply andb_true_iff in Eb. destruct Eb as [E1 E2].
    rewrite in_range_exact in E1, E2 by auto. tauto. }
  clear E. destruct E2 as [Hr E]. unfold c_sub_matrix_step in E.
  rewrite (proj2 (Z.eqb_neq s 0) Hs), (proj2 (Z.eqb_neq t 0) Ht) in E. cbn [orb] in E.
  assert (Ew : w = mkMV (mptr m + i1 * si m + j1 * sj m) (Z.quot (i2 - i1) s) (Z.quot (j2 - j1) t)
             (s * si m) (t * sj m) (mct m) (mcplx m) 0) by congruence.
  subst w. clear E. cbn [mct mcplx ls cs rs].
  split; [auto|]. split; [auto|]. do 3 (split; [reflexivity|]).
  destruct Hr as [[-> | ->]|(Ni & Nj & [?|(_ & k & Hk & -> & Hi)] & [?|(_ & l & Hl & -> & Hj)])]; try congruence.
  - replace (i2 - i2) with (0 * s) by lia. rewrite quot_mul by auto.
    split; [congruence|]. split; [auto|]. split; [intros ->; replace (j2 - j2) with (0 * t) by lia; apply quot_mul; auto|].
    intros; lia.
  - replace (j2 - j2) with (0 * t) by lia. rewrite quot_mul by auto.
    split; [congruence|]. split; [intros ->; replace (i2 - i2) with (0 * s) by lia; apply quot_mul; auto|].
    split; [auto|]. intros; lia.
  - replace (i1 + k * s - i1) with (k * s) by lia. replace (j1 + l * t - j1) with (l * t) by lia.
    rewrite !quot_mul by auto. split; [auto|]. split; [congruence|]. split; [congruence|].
    intros i j Hi' Hj'. split; [unfold maddr; cbn [mptr si sj]; ring|].
    split; [apply Hi; lia | apply Hj; lia].
Qed.

Lemma sub_matrix_as_step m i1 i2 j1 j2 : sub_matrix m i1 i2 j1 j2 = sub_matrix_step m i1 i2 j1 j2 1 1.
Proof.
  unfold sub_matrix, sub_matrix_step, c_sub_matrix_step, c_sub_matrix. cbn [Z.eqb orb].
  destruct (has_sub_matrix m i1 i2 j1 j2 1 1) as [[|]| |]; cbn [bindO assertO]; try reflexivity.
  rewrite !Z.quot_1_r, !Z.mul_1_l. reflexivity.
Qed.

(** The status of linsize along chains. *)
Definition lsok (m : mview) : Prop :=
  ls m = 0 \/ ls m = -1 \/
  (ls m = cs m * rs m /\ 0 <= cs m /\ 0 <= rs m /\ ((si m = 1 /\ sj m = cs m) \/ (sj m = 1 /\ si m = rs m))).
(** Sizes: negative only in a view of no elements. *)
Definition szok (m : mview) : Prop := (0 <= cs m /\ 0 <= rs m) \/ ls m = 0.

Lemma can_linearizeP m : lsok m -> szok m ->
  exists m', can_linearize m = Ok (0 <? ls m', m') /\ lsok m' /\ szok m' /\
    m' = set_ls m (ls m') /\ (ls m <> -1 -> m' = m) /\ ls m' <> -1 /\
    (ls m = -1 -> 0 < ls m' <-> 0 < cs m * rs m /\ ((si m = 1 /\ sj m = cs m) \/ (sj m = 1 /\ si m = rs m))).
Proof.
  intros H Z0. unfold can_linearize.
  destruct (Z.eqb_spec (ls m) (-1)) as [E|E].
  - assert (Hz : 0 <= cs m /\ 0 <= rs m) by (destruct Z0; [auto|lia]).
    destruct (((si m =? 1) && (sj m =? cs m)) || ((sj m =? 1) && (si m =? rs m))) eqn:C.
    + assert (C' : (si m = 1 /\ sj m = cs m) \/ (sj m = 1 /\ si m = rs m)).
      { rewrite orb_true_iff, !andb_true_iff, !Z.eqb_eq in C. exact C. }
      exists (set_ls m (rs m * cs m)). cbn [set_ls ls si sj cs rs].
      unfold iscm, isrm. cbn [set_ls ls si sj cs rs].
      replace ((rs m * cs m =? 0) || (sj m =? 1) && (si m =? rs m) || (si m =? 1) && (sj m =? cs m)) with true
        by (symmetry; rewrite !orb_true_iff, !andb_true_iff, !Z.eqb_eq; tauto).
      cbn [assertO bindO]. split; [reflexivity|].
      split; [right; right; cbn [set_ls ls si sj cs rs]; split; [lia|tauto]|].
      split; [left; cbn [set_ls cs rs]; tauto|]. split; [reflexivity|]. split; [congruence|].
      split; [nia|]. intros _. rewrite (Z.mul_comm (rs m)). tauto.
    + exists (set_ls m 0). cbn [set_ls ls si sj cs rs]. cbn [Z.eqb orb assertO bindO].
      split; [reflexivity|]. split; [left; reflexivity|]. split; [right; reflexivity|].
      split; [reflexivity|]. split; [congruence|]. split; [lia|].
      intros _. split; [lia|]. intros [_ C']. exfalso.
      rewrite <- !Z.eqb_eq, <- !andb_true_iff, <- orb_true_iff in C'. congruence.
  - exists m. replace ((ls m =? 0) || isrm m && (si m =? rs m) || iscm m && (sj m =? cs m)) with true.
    + cbn [assertO bindO]. split; [reflexivity|]. split; [exact H|]. split; [exact Z0|].
      split; [destruct m; reflexivity|]. split; [reflexivity|]. split; [exact E|]. congruence.
    + symmetry. unfold iscm, isrm. rewrite !orb_true_iff, !andb_true_iff, !Z.eqb_eq.
      destruct H as [H|[H|(_ & _ & _ & H)]]; [tauto|congruence|tauto].
Qed.

Lemma mop_ls m o w : lsok m -> szok m -> mop_step m o = Ok w -> lsok w /\ szok w.
Proof.
  intros H Z0 E. destruct o; cbn [mop_step] in E.
  - rewrite sub_matrix_as_step in E. apply sub_matrix_step_elems in E.
    destruct E as (_ & _ & _ & _ & E & _). split; [left|right]; exact E.
  - apply sub_matrix_step_elems in E. destruct E as (_ & _ & _ & _ & E & _). split; [left|right]; exact E.
  - apply assert_inv in E. destruct E as [_ E]. injection E as <-. split; [left|right]; reflexivity.
  - apply assert_inv in E. destruct E as [_ E]. injection E as <-. split; [left|right]; reflexivity.
  - apply assert_inv in E. destruct E as [Eb E]. injection E as <-. apply span_iff in Eb.
    unfold lsok, szok, c_col_range. cbn [cs rs si sj ls].
    destruct (Z.eqb_spec (ls m) 0) as [El|El]; cbn [negb]; rewrite ?andb_false_r; [auto|].
    rewrite andb_true_r. destruct (iscm m); [|auto]. split; [auto|]. left. destruct Z0; lia.
  - apply assert_inv in E. destruct E as [Eb E]. injection E as <-. apply span_iff in Eb.
    unfold lsok, szok, c_row_range. cbn [cs rs si sj ls].
    destruct (Z.eqb_spec (ls m) 0) as [El|El]; cbn [negb]; rewrite ?andb_false_r; [auto|].
    rewrite andb_true_r. destruct (isrm m); [|auto]. split; [auto|]. left. destruct Z0; lia.
  - injection E as <-. unfold m_real, lsok, szok. destruct (mcplx m); cbn [ls]; auto.
  - unfold m_imag in E. destruct (mcplx m); [|discriminate].
    assert (Ew : ls w = 0) by (injection E as <-; reflexivity). split; [left|right]; exact Ew.
  - injection E as <-. unfold lsok, szok, m_transpose in *. cbn [cs rs si sj ls].
    rewrite (Z.mul_comm (rs m)). tauto.
  - injection E as <-. exact (conj H Z0).
  - injection E as <-. unfold lsok, szok, m_adjoint in *. cbn [cs rs si sj ls].
    rewrite (Z.mul_comm (rs m)). tauto.
  - destruct (can_linearizeP m H Z0) as (m' & E' & H1 & H2 & _). rewrite E' in E. cbn [bindO snd] in E.
    injection E as <-. auto.
Qed.

Lemma can_linearize_view m r : can_linearize m = Ok r -> exists l, snd r = set_ls m l.
Proof.
  unfold can_linearize. intro E.
  set (m' := if ls m =? -1 then _ else m) in E. apply assert_inv in E. destruct E as [_ E].
  injection E as <-. cbn [snd]. unfold m'. destruct (ls m =? -1).
  - destruct ((_ && _) || _); eexists; reflexivity.
  - exists (ls m). destruct m; reflexivity.
Qed.

Lemma mop_inb L m o w : minb L m -> mop_step m o = Ok w -> minb L w.
Proof.
  intros H E.
  assert (Step : forall i1 i2 j1 j2 s t, sub_matrix_step m i1 i2 j1 j2 s t = Ok w -> minb L w).
  { intros i1 i2 j1 j2 s t E'. apply sub_matrix_step_elems in E'.
    destruct E' as (_ & _ & _ & Hc & _ & _ & _ & _ & E'). intros i j x Hi Hj Hx.
    destruct (E' i j Hi Hj) as (Ha & Hi' & Hj'). apply (H _ _ x Hi' Hj').
    unfold mwords in *. rewrite Hc, Ha in Hx. exact Hx. }
  destruct o; cbn [mop_step] in E.
  - rewrite sub_matrix_as_step in E. exact (Step _ _ _ _ _ _ E).
  - exact (Step _ _ _ _ _ _ E).
  - apply assert_inv in E. destruct E as [Eb E]. injection E as <-.
    rewrite andb_true_iff, !inside_iff in Eb. intros i j x Hi Hj Hx. cbn [c_col_pair cs rs] in Hi, Hj.
    assert (j = 0 \/ j = 1) as [-> | ->] by lia.
    + apply (H i j1 x Hi ltac:(tauto)). unfold mwords, maddr in *. cbn [c_col_pair mcplx mptr si sj] in Hx.
      destruct (mcplx m); lia.
    + apply (H i j2 x Hi ltac:(tauto)). unfold mwords, maddr in *. cbn [c_col_pair mcplx mptr si sj] in Hx.
      destruct (mcplx m); lia.
  - apply assert_inv in E. destruct E as [Eb E]. injection E as <-.
    rewrite andb_true_iff, !inside_iff in Eb. intros i j x Hi Hj Hx. cbn [c_row_pair cs rs] in Hi, Hj.
    assert (i = 0 \/ i = 1) as [-> | ->] by lia.
    + apply (H i1 j x ltac:(tauto) Hj). unfold mwords, maddr in *. cbn [c_row_pair mcplx mptr si sj] in Hx.
      destruct (mcplx m); lia.
    + apply (H i2 j x ltac:(tauto) Hj). unfold mwords, maddr in *. cbn [c_row_pair mcplx mptr si sj] in Hx.
      destruct (mcplx m); lia.
  - apply assert_inv in E. destruct E as [Eb E]. injection E as <-. apply span_iff in Eb.
    intros i j x Hi Hj Hx. cbn [c_col_range cs rs] in Hi, Hj. apply (H i (j1 + j) x Hi ltac:(lia)).
    unfold mwords, maddr in *. cbn [c_col_range mcplx mptr si sj] in Hx. destruct (mcplx m); lia.
  - apply assert_inv in E. destruct E as [Eb E]. injection E as <-. apply span_iff in Eb.
    intros i j x Hi Hj Hx. cbn [c_row_range cs rs] in Hi, Hj. apply (H (i1 + i) j x ltac:(lia) Hj).
    unfold mwords, maddr in *. cbn [c_row_range mcplx mptr si sj] in Hx. destruct (mcplx m); lia.
  - injection E as <-. intros i j x Hi Hj Hx. unfold m_real in *. unfold mwords, maddr in Hx.
    destruct (mcplx m) eqn:C; cbn [cs rs mcplx mptr si sj] in Hi, Hj, Hx; apply (H i j x Hi Hj); unfold mwords, maddr; rewrite C; lia.
  - unfold m_imag in E. destruct (mcplx m) eqn:C; [|discriminate].
    assert (Ew : w = mkMV (2 * mptr m + 1) (cs m) (rs m) (2 * si m) (2 * sj m) false false 0) by congruence.
    subst w. intros i j x Hi Hj Hx. unfold mwords, maddr in Hx. cbn [cs rs mcplx mptr si sj] in Hi, Hj, Hx.
    apply (H i j x Hi Hj); unfold mwords, maddr; rewrite C; lia.
  - injection E as <-. intros i j x Hi Hj Hx. apply (H j i x Hj Hi).
    unfold mwords, maddr in *. cbn [m_transpose mcplx mptr si sj] in Hx. destruct (mcplx m); lia.
  - injection E as <-. exact H.
  - injection E as <-. intros i j x Hi Hj Hx. apply (H j i x Hj Hi).
    unfold mwords, maddr in *. cbn [m_adjoint mcplx mptr si sj] in Hx. destruct (mcplx m); lia.
  - destruct (can_linearize m) as [r| |] eqn:E'; cbn [bindO] in E; try discriminate.
    destruct (can_linearize_view m r E') as [l El]. injection E as <-. rewrite El. exact H.
Qed.

(** Elements of vector views. *)
Lemma row_elems m i v : m_row m i = Ok v ->
  0 <= i < cs m /\ vsize v = rs m /\ vconj v = mct m /\ vcplx v = mcplx m /\
  forall k, addr v k = maddr m i k.
Proof.
  intro E. apply assert_inv in E. destruct E as [Eb E]. apply inside_iff in Eb. injection E as <-.
  cbn [vsize vconj vcplx]. do 4 (split; [auto|]). intro k. unfold addr, maddr. cbn. ring.
Qed.
Lemma col_elems m j v : m_col m j = Ok v ->
  0 <= j < rs m /\ vsize v = cs m /\ vconj v = mct m /\ vcplx v = mcplx m /\
  forall k, addr v k = maddr m k j.
Proof.
  intro E. apply assert_inv in E. destruct E as [Eb E]. apply inside_iff in Eb. injection E as <-.
  cbn [vsize vconj vcplx]. do 4 (split; [auto|]). intro k. unfold addr, maddr. cbn. ring.
Qed.
Lemma row_sub_elems m i j1 j2 v : m_row_sub m i j1 j2 = Ok v ->
  0 <= i < cs m /\ vsize v = j2 - j1 /\ vconj v = mct m /\ vcplx v = mcplx m /\ 0 <= vsize v /\
  forall k, 0 <= k < vsize v -> addr v k = maddr m i (j1 + k) /\ 0 <= j1 + k < rs m.
Proof.
  intro E. apply assert_inv in E. destruct E as [Ea E]. apply assert_inv in E. destruct E as [Eb E].
  apply inside_iff in Ea. apply span_iff in Eb. injection E as <-.
  cbn [vsize vconj vcplx]. do 5 (split; [auto; lia|]). intros k Hk. split; [unfold addr, maddr; cbn; ring|lia].
Qed.
Lemma col_sub_elems m j i1 i2 v : m_col_sub m j i1 i2 = Ok v ->
  0 <= j < rs m /\ vsize v = i2 - i1 /\ vconj v = mct m /\ vcplx v = mcplx m /\ 0 <= vsize v /\
  forall k, 0 <= k < vsize v -> addr v k = maddr m (i1 + k) j /\ 0 <= i1 + k < cs m.
Proof.
  intro E. apply assert_inv in E. destruct E as [Ea E]. apply assert_inv in E. destruct E as [Eb E].
  apply inside_iff in Ea. apply span_iff in Eb. injection E as <-.
  cbn [vsize vconj vcplx]. do 5 (split; [auto; lia|]). intros k Hk. split; [unfold addr, maddr; cbn; ring|lia].
Qed.
(** Diagonal i starts at (0,i) or (-i,0). *)
Lemma diag_elems m i v : m_diag m i = Ok v ->
  vconj v = mct m /\ vcplx v = mcplx m /\
  vsize v = Z.min (cs m - Z.max 0 (- i)) (rs m - Z.max 0 i) /\
  forall k, 0 <= k < vsize v -> addr v k = maddr m (Z.max 0 (- i) + k) (Z.max 0 i + k) /\
    0 <= Z.max 0 (- i) + k < cs m /\ 0 <= Z.max 0 i + k < rs m.
Proof.
  intro E. apply assert_inv in E. destruct E as [_ E].
  destruct (Z.leb_spec 0 i) as [Hi|Hi]; injection E as <-; cbn [vsize vconj vcplx].
  - rewrite (Z.max_r 0 i), (Z.max_l 0 (- i)) by lia. do 2 (split; [auto|]). split; [f_equal; lia|]. intros k Hk.
    split; [unfold addr, maddr; cbn; ring|lia].
  - rewrite (Z.max_l 0 i), (Z.max_r 0 (- i)) by lia. do 2 (split; [auto|]). split; [f_equal; lia|]. intros k Hk.
    split; [unfold addr, maddr; cbn; ring|lia].
Qed.
Lemma diag_sub_elems m i j1 j2 v : m_diag_sub m i j1 j2 = Ok v ->
  vconj v = mct m /\ vcplx v = mcplx m /\ vsize v = j2 - j1 /\ 0 <= vsize v /\
  forall k, 0 <= k < vsize v -> addr v k = maddr m (Z.max 0 (- i) + j1 + k) (Z.max 0 i + j1 + k) /\
    0 <= Z.max 0 (- i) + j1 + k < cs m /\ 0 <= Z.max 0 i + j1 + k < rs m.
Proof.
  intro E. apply assert_inv in E. destruct E as [_ E].
  destruct (Z.leb_spec 0 i) as [Hi|Hi]; apply assert_inv in E; destruct E as [Eb E];
    apply span_iff in Eb; injection E as <-; cbn [vsize vconj vcplx].
  - rewrite (Z.max_r 0 i), (Z.max_l 0 (- i)) by lia. do 4 (split; [auto; lia|]). intros k Hk.
    split; [unfold addr, maddr; cbn; ring|lia].
  - rewrite (Z.max_l 0 i), (Z.max_r 0 (- i)) by lia. do 4 (split; [auto; lia|]). intros k Hk.
    split; [unfold addr, maddr; cbn; ring|lia].
Qed.
Lemma has_sub_vec_exact m i j s t n : 0 < n ->
  has_sub_vec m i j s t n = true <->
  ~ (s = 0 /\ t = 0) /\ forall k, 0 <= k < n -> 0 <= i + k * s < cs m /\ 0 <= j + k * t < rs m.
Proof.
  intro Hn. unfold has_sub_vec. rewrite (proj2 (Z.eqb_neq n 0)) by lia.
  rewrite !andb_true_iff, !negb_true_iff, !orb_false_iff.
  rewrite andb_false_iff, !Z.eqb_neq, !Z.ltb_ge, !Z.geb_leb, !Z.leb_gt. split.
  - intros ((((H0 & H1) & H2) & H3) & H4). split; [lia|]. intros k Hk.
    split; [destruct (Z_lt_le_dec s 0); nia | destruct (Z_lt_le_dec t 0); nia].
  - intros [H0 H]. pose proof (H 0 ltac:(lia)). pose proof (H (n - 1) ltac:(lia)). lia.
Qed.
Lemma sub_vec_elems m i j s t n v : m_sub_vec m i j s t n = Ok v ->
  vconj v = mct m /\ vcplx v = mcplx m /\ vsize v = n /\
  forall k, 0 <= k < n -> addr v k = maddr m (i + k * s) (j + k * t) /\
    0 <= i + k * s < cs m /\ 0 <= j + k * t < rs m.
Proof.
  intro E. apply assert_inv in E. destruct E as [Eb E]. injection E as <-. cbn [c_sub_vec vsize vconj vcplx].
  do 3 (split; [auto|]). intros k Hk. split; [unfold addr, maddr; cbn; ring|].
  apply has_sub_vec_exact in Eb; [|lia]. apply Eb. exact Hk.
Qed.
Lemma linear_elems m v : lsok m -> szok m -> linear_view m = Ok v ->
  vconj v = mct m /\ vcplx v = mcplx m /\ vsize v = cs m * rs m /\ 0 < vsize v /\
  (forall i j, 0 <= i < cs m -> 0 <= j < rs m ->
     exists k, 0 <= k < vsize v /\ addr v k = maddr m i j) /\
  (forall k, 0 <= k < vsize v -> exists i j, 0 <= i < cs m /\ 0 <= j < rs m /\ addr v k = maddr m i j).
Proof.
  intros H Z0 E. unfold linear_view in E. apply assert_inv in E. destruct E as [E0 E].
  apply negb_true_iff, Z.eqb_neq in E0.
  destruct (can_linearizeP m H Z0) as (m' & E' & H1 & _ & Em & Hm & _ & _).
  rewrite (Hm E0) in *. rewrite E' in E. cbn [bindO fst snd] in E.
  apply assert_inv in E. destruct E as [E1 E]. apply assert_inv in E. destruct E as [E2 E].
  apply Z.ltb_lt in E1. apply Z.eqb_eq in E2. injection E as <-. cbn [vconj vcplx vsize].
  do 2 (split; [reflexivity|]). split; [exact E2|]. split; [exact E1|].
  assert (C : (si m = 1 /\ sj m = cs m) \/ (sj m = 1 /\ si m = rs m)) by (destruct H as [?|[?|H]]; [lia|congruence|tauto]).
  assert (Hz : 0 < cs m /\ 0 < rs m) by (destruct H as [?|[?|H]]; [lia|congruence|nia]).
  unfold addr, maddr. cbn [vptr vstep]. rewrite E2. split.
  - intros i j Hi Hj. destruct C as [[C1 C2]|[C1 C2]]; rewrite C1, C2.
    + exists (j * cs m + i). nia.
    + exists (i * rs m + j). nia.
  - intros k Hk. destruct C as [[C1 C2]|[C1 C2]]; rewrite C1, C2.
    + exists (k mod cs m), (k / cs m). pose proof (Z.mod_pos_bound k (cs m) ltac:(lia)).
      pose proof (Z.div_mod k (cs m) ltac:(lia)).
      split; [lia|]. split; [split; [apply Z.div_pos; lia | apply Z.div_lt_upper_bound; lia]|lia].
    + exists (k / rs m), (k mod rs m). pose proof (Z.mod_pos_bound k (rs m) ltac:(lia)).
      pose proof (Z.div_mod k (rs m) ltac:(lia)).
      split; [split; [apply Z.div_pos; lia | apply Z.div_lt_upper_bound; nia]|]. split; lia.
Qed.

Lemma mvop_winb L m o v : lsok m -> szok m -> minb L m -> mvop_step m o = Ok v -> winb L v.
Proof.
  intros Hl Hz H E.
  assert (G : (vcplx v = mcplx m /\ forall k, 0 <= k < vsize v -> exists i j, 0 <= i < cs m /\ 0 <= j < rs m /\ addr v k = maddr m i j)).
  { destruct o; cbn [mvop_step] in E.
    - apply row_elems in E. destruct E as (A & B & _ & C & D). split; [exact C|]. intros k Hk. exists i, k. rewrite D. lia.
    - apply col_elems in E. destruct E as (A & B & _ & C & D). split; [exact C|]. intros k Hk. exists k, j. rewrite D. lia.
    - apply row_sub_elems in E. destruct E as (A & B & _ & C & _ & D). split; [exact C|]. intros k Hk. exists i, (j1 + k). destruct (D k Hk). tauto.
    - apply col_sub_elems in E. destruct E as (A & B & _ & C & _ & D). split; [exact C|]. intros k Hk. exists (i1 + k), j. destruct (D k Hk). tauto.
    - injection E as <-. split; [reflexivity|]. cbn [m_diag0 vsize]. intros k Hk. exists k, k. split; [lia|]. split; [lia|].
      unfold addr, maddr. cbn. ring.
    - apply diag_elems in E. destruct E as (_ & C & _ & D). split; [exact C|]. intros k Hk. do 2 eexists. destruct (D k Hk) as (D1 & D2 & D3). eauto.
    - apply diag_sub_elems in E. destruct E as (_ & C & _ & _ & D). split; [exact C|]. intros k Hk. do 2 eexists. destruct (D k Hk) as (D1 & D2 & D3). eauto.
    - apply sub_vec_elems in E. destruct E as (_ & C & S & D). split; [exact C|]. intros k Hk. rewrite S in Hk. do 2 eexists. destruct (D k Hk) as (D1 & D2 & D3). eauto.
    - apply linear_elems in E; auto. destruct E as (_ & C & _ & _ & _ & D). split; [exact C|]. exact D. }
  destruct G as [C D]. intros k x Hk Hx. destruct (D k Hk) as (i & j & Hi & Hj & Ha).
  apply (H i j x Hi Hj). unfold mwords. unfold words in Hx. rewrite C, Ha in Hx. exact Hx.
Qed.

Lemma vop_winb N v o w : winb N v -> vop_step v o = Ok w -> winb N w.
Proof.
  intros H E. destruct (Z_lt_le_dec (vsize v) 0) as [Hn|Hp].
  - assert (Hw : forall i, ~ 0 <= i < vsize w); [|intros i x Hi; exfalso; exact (Hw i Hi)].
    intros i Hi. destruct o; cbn [vop_step] in E.
    + apply sub_vector_elems in E. destruct E as (_ & _ & _ & _ & E). specialize (E i Hi). lia.
    + apply sub_vector_step_elems in E. destruct E as (_ & _ & _ & _ & _ & E). specialize (E i Hi). lia.
    + injection E as <-. cbn [v_reverse vsize] in Hi. lia.
    + injection E as <-. cbn [v_conjugate vsize] in Hi. lia.
    + injection E as <-. unfold v_real in Hi. destruct (vcplx v); cbn [vsize] in Hi; lia.
    + unfold v_imag in E. destruct (vcplx v); [|discriminate].
      assert (vsize w = vsize v) by (injection E as <-; reflexivity). lia.
    + unfold v_flatten in E. destruct (vcplx v); [|discriminate]. destruct (vstep v =? 1); [|discriminate].
      assert (vsize w = 2 * vsize v) by (injection E as <-; reflexivity). lia.
  - exact (proj2 (vop_inb N v o w (conj Hp H) E)).
Qed.

Lemma vchain_winb N os v w : winb N v -> vchain v os = Ok w -> winb N w.
Proof.
  revert v. induction os as [|o os IH]; simpl; intros v H E; [injection E as <-; exact H|].
  destruct (vop_step v o) as [u| |] eqn:Eo; try discriminate. simpl in E.
  exact (IH u (vop_winb N v o u H Eo) E).
Qed.

Lemma mchain_inv L os m w : minb L m -> lsok m -> szok m -> mchain m os = Ok w ->
  minb L w /\ lsok w /\ szok w.
Proof.
  revert m. induction os as [|o os IH]; cbn [mchain]; intros m H1 H2 H3 E.
  - injection E as <-. auto.
  - destruct (mop_step m o) as [u| |] eqn:Eo; cbn [bindO] in E; try discriminate.
    destruct (mop_ls m o u H2 H3 Eo) as [H4 H5].
    exact (IH u (mop_inb L m o u H1 Eo) H4 H5 E).
Qed.

Lemma wholeM_inv (M N : Z) (rm cx : bool) : 0 <= M -> 0 <= N ->
  minb (if cx then 2 * (M * N) else M * N) (wholeM M N rm cx) /\
  lsok (wholeM M N rm cx) /\ szok (wholeM M N rm cx).
Proof.
  intros HM HN. split; [|split].
  - intros i j w Hi Hj Hw. unfold mwords, maddr in Hw. cbn [wholeM mcplx mptr si sj cs rs] in *.
    destruct rm, cx; nia.
  - right. right. cbn [wholeM ls si sj cs rs]. destruct rm; lia.
  - left. cbn [wholeM cs rs]. lia.
Qed.
