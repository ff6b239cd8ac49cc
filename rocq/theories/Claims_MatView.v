(** Property C27: dense matrix views. *)
From Coq Require Import ZArith Lia Bool List.
From Verif Require Import Base VecView MatView.
Import ListNotations.
Open Scope Z_scope.

(** Any chain of view operations, of any length, on a Matrix of either storage,
    that goes through without a failed check designates only words of that
    matrix's M*N elements: every element of the final matrix view, and every
    element of any vector view taken from it and passed through any chain of
    vector view operations. *)
Theorem C27_chains_stay_in_bounds :
  forall (M N : Z) (rowmajor cplx : bool) (os : list mop) (w : mview),
    0 <= M -> 0 <= N -> mchain (wholeM M N rowmajor cplx) os = Ok w ->
    (forall i j word, 0 <= i < cs w -> 0 <= j < rs w -> mwords w i j word ->
       0 <= word < (if cplx then 2 * (M * N) else M * N)) /\
    (forall o v vos u, mvop_step w o = Ok v -> vchain v vos = Ok u ->
       forall i word, 0 <= i < vsize u -> words u i word ->
         0 <= word < (if cplx then 2 * (M * N) else M * N)).
Proof.
  intros M N rm cx os w HM HN E.
  destruct (wholeM_inv M N rm cx HM HN) as (H1 & H2 & H3).
  destruct (mchain_inv _ os _ w H1 H2 H3 E) as (G1 & G2 & G3). split; [exact G1|].
  intros o v vos u Ev Eu. exact (vchain_winb _ vos v u (mvop_winb _ w o v G2 G3 G1 Ev) Eu).
Qed.
Print Assumptions C27_chains_stay_in_bounds.

Example C27_hyp :
  exists w v u,
    mchain (wholeM 6 5 false true) [OSubStep 5 (-1) 0 4 (-2) 1; OTranspose; ORowRange 1 3; OConjugate] = Ok w /\
    mvop_step w (ODiag 1) = Ok v /\ vchain v [VReverse; VImag] = Ok u /\
    cs w = 2 /\ rs w = 3 /\ vsize u = 2 /\ addr u 0 = 2 * 13 + 1 /\ addr u 1 = 2 * 9 + 1.
Proof. do 3 eexists. repeat split. Qed.

(** What each operation designates; for every view m, however it was made. *)
Theorem C27_sub_matrix :
  forall m i1 i2 j1 j2 s t w, sub_matrix_step m i1 i2 j1 j2 s t = Ok w ->
    s <> 0 /\ t <> 0 /\ mct w = mct m /\ mcplx w = mcplx m /\
    (i1 <> i2 -> j1 <> j2 -> i2 = i1 + cs w * s /\ j2 = j1 + rs w * t /\ 0 < cs w /\ 0 < rs w) /\
    (i1 = i2 -> cs w = 0) /\ (j1 = j2 -> rs w = 0) /\
    forall i j, 0 <= i < cs w -> 0 <= j < rs w ->
      maddr w i j = maddr m (i1 + i * s) (j1 + j * t) /\
      0 <= i1 + i * s < cs m /\ 0 <= j1 + j * t < rs m.
Proof.
  intros m i1 i2 j1 j2 s t w E.
  destruct (sub_matrix_step_elems _ _ _ _ _ _ _ _ E) as (A & B & C & D & _ & R). tauto.
Qed.
Print Assumptions C27_sub_matrix.

(** subMatrix(i1,i2,j1,j2) is the one with steps 1. *)
Theorem C27_sub_matrix_unit :
  forall m i1 i2 j1 j2, sub_matrix m i1 i2 j1 j2 = sub_matrix_step m i1 i2 j1 j2 1 1.
Proof. exact sub_matrix_as_step. Qed.
Print Assumptions C27_sub_matrix_unit.

(** For non-zero steps the range check accepts exactly the ranges that are empty
    or all of whose rows and columns exist. *)
Theorem C27_range_check_exact_partial :
  forall m i1 i2 j1 j2 s t, s <> 0 -> t <> 0 ->
    exists b, has_sub_matrix m i1 i2 j1 j2 s t = Ok b /\
      (b = true <-> i1 = i2 \/ j1 = j2 \/ (c_range_ok (cs m) i1 i2 s /\ c_range_ok (rs m) j1 j2 t)).
Proof.
  intros m i1 i2 j1 j2 s t Hs Ht. unfold has_sub_matrix.
  destruct (Z.eqb_spec i1 i2) as [Ei|Ei]; [exists true; cbn [orb]; tauto|].
  destruct (Z.eqb_spec j1 j2) as [Ej|Ej]; [exists true; cbn [orb]; tauto|].
  rewrite (proj2 (Z.eqb_neq s 0) Hs), (proj2 (Z.eqb_neq t 0) Ht). cbn [orb].
  eexists. split; [reflexivity|]. rewrite andb_true_iff, !in_range_exact by auto. tauto.
Qed.
Print Assumptions C27_range_check_exact_partial.

(** Finding: a zero step is not rejected, the check (or the view's size) divides
    by it. *)
Theorem C27_zero_step_refuted :
  forall m i1 i2 j1 j2 t, sub_matrix_step m i1 i2 j1 j2 0 t = UB /\ sub_matrix_step m i1 i2 j1 j2 t 0 = UB.
Proof.
  intros m i1 i2 j1 j2 t. unfold sub_matrix_step, has_sub_matrix, c_sub_matrix_step.
  rewrite Z.eqb_refl. rewrite orb_true_r. cbn [orb].
  destruct ((i1 =? i2) || (j1 =? j2)); cbn; auto.
Qed.
Print Assumptions C27_zero_step_refuted.

Theorem C27_pairs_and_ranges :
  forall m a b w,
    (col_pair m a b = Ok w -> cs w = cs m /\ rs w = 2 /\ mct w = mct m /\ mcplx w = mcplx m /\
       0 <= a < rs m /\ 0 <= b < rs m /\
       forall i, maddr w i 0 = maddr m i a /\ maddr w i 1 = maddr m i b) /\
    (row_pair m a b = Ok w -> cs w = 2 /\ rs w = rs m /\ mct w = mct m /\ mcplx w = mcplx m /\
       0 <= a < cs m /\ 0 <= b < cs m /\
       forall j, maddr w 0 j = maddr m a j /\ maddr w 1 j = maddr m b j) /\
    (col_range m a b = Ok w -> cs w = cs m /\ rs w = b - a /\ mct w = mct m /\ mcplx w = mcplx m /\
       0 <= a <= b /\ b <= rs m /\ forall i j, maddr w i j = maddr m i (a + j)) /\
    (row_range m a b = Ok w -> cs w = b - a /\ rs w = rs m /\ mct w = mct m /\ mcplx w = mcplx m /\
       0 <= a <= b /\ b <= cs m /\ forall i j, maddr w i j = maddr m (a + i) j).
Proof.
  intros m a b w. split; [|split; [|split]]; intro E; apply assert_inv in E; destruct E as [Eb E];
    rewrite ?andb_true_iff, ?inside_iff, ?span_iff in Eb; injection E as <-;
    cbn [c_col_pair c_row_pair c_col_range c_row_range cs rs mct mcplx];
    (repeat (split; [first [reflexivity|tauto]|])); intros; unfold maddr, c_col_pair, c_row_pair, c_col_range, c_row_range; cbn [mptr si sj]; try split; ring.
Qed.
Print Assumptions C27_pairs_and_ranges.

(** transpose exchanges the indices, conjugate changes only the conjugation flag,
    adjoint does both; each undoes itself. *)
Theorem C27_transpose_conjugate_adjoint :
  forall m i j,
    maddr (m_transpose m) i j = maddr m j i /\ cs (m_transpose m) = rs m /\ rs (m_transpose m) = cs m /\
    mct (m_transpose m) = mct m /\ m_transpose (m_transpose m) = m /\
    maddr (m_conjugate m) i j = maddr m i j /\ cs (m_conjugate m) = cs m /\ rs (m_conjugate m) = rs m /\
    maddr (m_adjoint m) i j = maddr m j i /\ cs (m_adjoint m) = rs m /\ rs (m_adjoint m) = cs m /\
    (mcplx m = true -> mct (m_conjugate m) = negb (mct m) /\ mct (m_adjoint m) = negb (mct m) /\
       m_conjugate (m_conjugate m) = m /\ m_adjoint (m_adjoint m) = m) /\
    (mcplx m = false -> mct m = false -> m_conjugate m = m /\ m_adjoint m = m_transpose m) /\
    m_adjoint m = m_conjugate (m_transpose m).
Proof.
  intros [p c r a b t x l] i j. unfold maddr, m_conjugate, m_adjoint, m_transpose, conj_of.
  cbn [mptr cs rs si sj mct mcplx ls].
  repeat split; try ring; intros; subst; cbn [negb]; rewrite ?negb_involutive; reflexivity.
Qed.
Print Assumptions C27_transpose_conjugate_adjoint.

(** row, col and their ranges. *)
Theorem C27_rows_and_columns :
  forall m v,
    (forall i, m_row m i = Ok v -> 0 <= i < cs m /\ vsize v = rs m /\ vconj v = mct m /\ vcplx v = mcplx m /\
       forall k, addr v k = maddr m i k) /\
    (forall j, m_col m j = Ok v -> 0 <= j < rs m /\ vsize v = cs m /\ vconj v = mct m /\ vcplx v = mcplx m /\
       forall k, addr v k = maddr m k j) /\
    (forall i j1 j2, m_row_sub m i j1 j2 = Ok v ->
       0 <= i < cs m /\ vsize v = j2 - j1 /\ vconj v = mct m /\ vcplx v = mcplx m /\ 0 <= vsize v /\
       forall k, 0 <= k < vsize v -> addr v k = maddr m i (j1 + k) /\ 0 <= j1 + k < rs m) /\
    (forall j i1 i2, m_col_sub m j i1 i2 = Ok v ->
       0 <= j < rs m /\ vsize v = i2 - i1 /\ vconj v = mct m /\ vcplx v = mcplx m /\ 0 <= vsize v /\
       forall k, 0 <= k < vsize v -> addr v k = maddr m (i1 + k) j /\ 0 <= i1 + k < cs m).
Proof.
  intros m v. split; [|split; [|split]]; intros *;
    [apply row_elems|apply col_elems|apply row_sub_elems|apply col_sub_elems].
Qed.
Print Assumptions C27_rows_and_columns.

(** diag(i): all the elements (a,b) with b - a = i, in order.  diag(i,j1,j2): the
    j1-th to before the j2-th of them. *)
Theorem C27_diagonals :
  forall m i v,
    (m_diag m i = Ok v ->
       vconj v = mct m /\ vcplx v = mcplx m /\
       vsize v = Z.min (cs m - Z.max 0 (- i)) (rs m - Z.max 0 i) /\
       forall k, 0 <= k < vsize v -> addr v k = maddr m (Z.max 0 (- i) + k) (Z.max 0 i + k) /\
         0 <= Z.max 0 (- i) + k < cs m /\ 0 <= Z.max 0 i + k < rs m) /\
    (forall j1 j2, m_diag_sub m i j1 j2 = Ok v ->
       vconj v = mct m /\ vcplx v = mcplx m /\ vsize v = j2 - j1 /\ 0 <= vsize v /\
       forall k, 0 <= k < vsize v -> addr v k = maddr m (Z.max 0 (- i) + j1 + k) (Z.max 0 i + j1 + k) /\
         0 <= Z.max 0 (- i) + j1 + k < cs m /\ 0 <= Z.max 0 i + j1 + k < rs m) /\
    (m_diag m 0 = Ok (m_diag0 m) \/ cs m < 0 \/ rs m < 0).
Proof.
  intros m i v. split; [apply diag_elems|]. split; [intros j1 j2; apply diag_sub_elems|].
  destruct (Z_lt_le_dec (cs m) 0); [auto|]. destruct (Z_lt_le_dec (rs m) 0); [auto|]. left.
  unfold m_diag, m_diag0. rewrite (proj2 (Z.leb_le (- cs m) 0)), (proj2 (Z.leb_le 0 (rs m))) by lia.
  cbn. rewrite Z.sub_0_r, Z.add_0_r. reflexivity.
Qed.
Print Assumptions C27_diagonals.

(** Every element on diagonal i is in diag(i). *)
Theorem C27_diagonal_complete :
  forall m a b, 0 <= a < cs m -> 0 <= b < rs m ->
    exists v k, m_diag m (b - a) = Ok v /\ 0 <= k < vsize v /\ addr v k = maddr m a b.
Proof.
  intros m a b Ha Hb. assert (E : exists v, m_diag m (b - a) = Ok v).
  { unfold m_diag. rewrite (proj2 (Z.leb_le (- cs m) _)), (proj2 (Z.leb_le _ (rs m))) by lia.
    cbn [andb assertO bindO]. destruct (0 <=? b - a); eexists; reflexivity. }
  destruct E as [v E]. exists v, (Z.min a b). destruct (diag_elems _ _ _ E) as (_ & _ & S & D).
  split; [exact E|]. assert (H : 0 <= Z.min a b < vsize v) by lia. split; [exact H|].
  destruct (D _ H) as [-> _]. f_equal; lia.
Qed.
Print Assumptions C27_diagonal_complete.

(** subVector(i,j,istep,jstep,n): the elements (i,j), (i+istep,j+jstep), ...; the
    check is exact for n > 0. *)
Theorem C27_sub_vector :
  forall m i j s t n v, m_sub_vec m i j s t n = Ok v ->
    vconj v = mct m /\ vcplx v = mcplx m /\ vsize v = n /\
    forall k, 0 <= k < n -> addr v k = maddr m (i + k * s) (j + k * t) /\
      0 <= i + k * s < cs m /\ 0 <= j + k * t < rs m.
Proof. exact sub_vec_elems. Qed.
Print Assumptions C27_sub_vector.
Theorem C27_sub_vector_check_exact :
  forall m i j s t n, 0 < n ->
    ((exists v, m_sub_vec m i j s t n = Ok v) <->
     ~ (s = 0 /\ t = 0) /\ forall k, 0 <= k < n -> 0 <= i + k * s < cs m /\ 0 <= j + k * t < rs m).
Proof.
  intros m i j s t n Hn. rewrite <- has_sub_vec_exact by exact Hn. unfold m_sub_vec.
  destruct (has_sub_vec m i j s t n); cbn; split; try congruence; [intros _; eauto | intros [v E]; discriminate].
Qed.
Print Assumptions C27_sub_vector_check_exact.

(** realPart and imagPart name the first and second word of each element. *)
Theorem C27_real_imag :
  forall m i j, mcplx m = true ->
    mwords (m_real m) i j (2 * maddr m i j) /\ cs (m_real m) = cs m /\ rs (m_real m) = rs m /\
    exists w, m_imag m = Ok w /\ cs w = cs m /\ rs w = rs m /\ mcplx w = false /\
      mwords w i j (2 * maddr m i j + 1).
Proof.
  intros m i j C. unfold m_real, m_imag, mwords, maddr. rewrite C. cbn [mcplx mptr si sj cs rs].
  split; [ring|]. split; [reflexivity|]. split; [reflexivity|].
  eexists. split; [reflexivity|]. cbn [mcplx mptr si sj cs rs]. repeat (split; [reflexivity|]). ring.
Qed.
Print Assumptions C27_real_imag.

(** If canLinearize() of a view reached by any chain says true, linearView() of
    that view succeeds and runs through exactly its elements, each once (the
    sizes agree). *)
Theorem C27_linear_view :
  forall M N rm cx os m b m', 0 <= M -> 0 <= N -> mchain (wholeM M N rm cx) os = Ok m ->
    can_linearize m = Ok (b, m') ->
    (forall i j, maddr m' i j = maddr m i j) /\ cs m' = cs m /\ rs m' = rs m /\ mct m' = mct m /\
    (b = false -> linear_view m' = Throw FailedAssert) /\
    (b = true -> exists v, linear_view m' = Ok v /\
       vconj v = mct m /\ vcplx v = mcplx m /\ vsize v = cs m * rs m /\
       (forall i j, 0 <= i < cs m -> 0 <= j < rs m ->
          exists k, 0 <= k < vsize v /\ addr v k = maddr m i j) /\
       (forall k, 0 <= k < vsize v -> exists i j, 0 <= i < cs m /\ 0 <= j < rs m /\ addr v k = maddr m i j)).
Proof.
  intros M N rm cx os m b m' HM HN E C.
  destruct (wholeM_inv M N rm cx HM HN) as (H1 & H2 & H3).
  destruct (mchain_inv _ os _ m H1 H2 H3 E) as (_ & G2 & G3).
  destruct (can_linearizeP m G2 G3) as (m1 & E1 & K1 & K2 & Em & _ & Kn & _).
  rewrite E1 in C. injection C as Eb E2. subst m1.
  assert (F : maddr m' 0 0 = maddr m 0 0 /\ cs m' = cs m /\ rs m' = rs m /\ mct m' = mct m /\ mcplx m' = mcplx m /\
              forall i j, maddr m' i j = maddr m i j).
  { rewrite Em. cbn. repeat split. }
  destruct F as (_ & Fc & Fr & Ft & Fx & Fa).
  split; [exact Fa|]. split; [exact Fc|]. split; [exact Fr|]. split; [exact Ft|].
  destruct (can_linearizeP m' K1 K2) as (m2 & E2 & _ & _ & _ & Same & _). rewrite (Same Kn) in E2.
  assert (L : linear_view m' = if 0 <? ls m' then Ok (mkView (mptr m') (ls m') 1 (mct m') (mcplx m')) else Throw FailedAssert).
  { unfold linear_view. rewrite E2, (proj2 (Z.eqb_neq _ _) Kn). cbn [negb assertO bindO fst snd].
    destruct (Z.ltb_spec 0 (ls m')) as [Hl|Hl]; cbn [assertO bindO]; [|reflexivity].
    assert (X : ls m' = cs m' * rs m') by (destruct K1 as [?|[?|?]]; [lia|lia|tauto]).
    rewrite X, Z.eqb_refl. reflexivity. }
  split.
  - intros B. rewrite L, Eb, B. reflexivity.
  - intros B. rewrite Eb, B in L. eexists. split; [exact L|].
    destruct (linear_elems m' _ K1 K2 L) as (A1 & A2 & A3 & _ & A4 & A5).
    rewrite <- Ft, <- Fx, <- Fc, <- Fr.
    split; [exact A1|]. split; [exact A2|]. split; [exact A3|]. split.
    + intros i j Hi Hj. rewrite <- Fa. apply A4; auto.
    + intros k Hk. destruct (A5 k Hk) as (i & j & Hi & Hj & Ha). exists i, j. rewrite <- Fa. auto.
Qed.
Print Assumptions C27_linear_view.

Example C27_linear_hyp : exists m m', mchain (wholeM 4 5 false false) [OColRange 1 3] = Ok m /\
  can_linearize m = Ok (true, m') /\ cs m = 4 /\ rs m = 2.
Proof. do 2 eexists. repeat split. Qed.

(** Finding: called without a prior canLinearize(), linearView() of a column range
    of a column-major matrix fails its assertion although the view can be
    linearized; with assertions off it gives a vector of size -1. *)
Theorem C27_linear_view_refuted :
  exists m m', mchain (wholeM 4 5 false false) [OColRange 1 3] = Ok m /\
    can_linearize m = Ok (true, m') /\ linear_view m = Throw FailedAssert /\
    vsize (linear_view_noassert m) = -1 /\ cs m * rs m = 8.
Proof. do 2 eexists. repeat split. Qed.
Print Assumptions C27_linear_view_refuted.

(** Finding: Matrix::diag(i,j1,j2) on a const column-major matrix steps by 2
    instead of along the diagonal: m.diag(0,0,2)(1) is m(2,0), not m(1,1). *)
Theorem C27_const_matrix_diag_range_refuted :
  exists v, mat_diag_sub_const (wholeM 3 3 false false) 0 0 2 = Ok v /\
    addr v 1 = maddr (wholeM 3 3 false false) 2 0 /\ addr v 1 <> maddr (wholeM 3 3 false false) 1 1.
Proof. eexists. split; [reflexivity|]. split; [reflexivity|]. vm_compute. discriminate. Qed.
Print Assumptions C27_const_matrix_diag_range_refuted.

(** It is right for row-major matrices, ... *)
Theorem C27_const_matrix_diag_range_partial :
  forall M N cx i j1 j2 v,
    mat_diag_sub_const (wholeM M N true cx) i j1 j2 = Ok v <->
    m_diag_sub (wholeM M N true cx) i j1 j2 = Ok v.
Proof.
  intros M N cx i j1 j2 v. unfold mat_diag_sub_const, m_diag_sub, span, assertO.
  cbn [wholeM cs rs si sj mptr mct mcplx].
  destruct (0 <=? j1), (j1 - j2 <=? 0), ((- M <=? i) && (i <=? N)), (0 <=? i); cbn [andb bindO];
    try tauto; try (split; discriminate).
Qed.
Print Assumptions C27_const_matrix_diag_range_partial.

(** Finding: the non-const Matrix::diag(i,j1,j2) accepts ranges below the main
    diagonal that leave the matrix. *)
Theorem C27_matrix_diag_range_refuted :
  exists v, mat_diag_sub (wholeM 3 3 true false) (-2) 0 3 = Ok v /\ vsize v = 3 /\
    ~ 0 <= addr v 2 < 3 * 3.
Proof. eexists. split; [reflexivity|]. split; [reflexivity|]. vm_compute. intros [_ H]. discriminate H. Qed.
Print Assumptions C27_matrix_diag_range_refuted.

(** ... and on and above the main diagonal it is the documented range. *)
Theorem C27_matrix_diag_range_partial :
  forall m i j1 j2 v, 0 <= i ->
    (mat_diag_sub m i j1 j2 = Ok v <-> m_diag_sub m i j1 j2 = Ok v).
Proof.
  intros m i j1 j2 v Hi. unfold mat_diag_sub, m_diag_sub, span, assertO.
  rewrite (proj2 (Z.leb_le 0 i) Hi).
  destruct (0 <=? j1), (j1 - j2 <=? 0), ((- cs m <=? i) && (i <=? rs m)); cbn [andb bindO];
    try tauto; try (split; discriminate).
Qed.
Print Assumptions C27_matrix_diag_range_partial.

(** Finding: the Fortran-style rowPair checks row numbers against the number of
    columns, so it accepts rows that do not exist and refuses rows that do. *)
Theorem C27_fortran_row_pair_refuted :
  (exists w, row_pair_f (wholeM 2 5 true false) 1 4 = Ok w /\ ~ 0 <= maddr w 1 0 < 2 * 5) /\
  row_pair_f (wholeM 5 2 true false) 1 4 = Throw FailedAssert.
Proof.
  split; [|reflexivity]. eexists. split; [reflexivity|]. vm_compute. intros [_ H]. discriminate H.
Qed.
Print Assumptions C27_fortran_row_pair_refuted.

(** Finding: the Fortran-style check accepts a range i1..i1 without looking at i1,
    although it designates row i1. *)
Theorem C27_fortran_single_row_refuted :
  exists w, sub_matrix_f (wholeM 3 3 true false) 8 8 1 2 = Ok w /\ cs w = 1 /\ rs w = 2 /\
    ~ 0 <= maddr w 0 0 < 3 * 3.
Proof.
  eexists. split; [reflexivity|]. split; [reflexivity|]. split; [reflexivity|].
  vm_compute. intros [_ H]. discriminate H.
Qed.
Print Assumptions C27_fortran_single_row_refuted.

(** Otherwise a Fortran range i1..i2, j1..j2 (ends included, counted from 1) is the
    C range with the same elements. *)
Theorem C27_fortran_sub_matrix_partial :
  forall m i1 i2 j1 j2 s t w, i1 <> i2 -> j1 <> j2 ->
    sub_matrix_step_f m i1 i2 j1 j2 s t = Ok w ->
    i2 = i1 + (cs w - 1) * s /\ j2 = j1 + (rs w - 1) * t /\ 1 < cs w /\ 1 < rs w /\
    forall i j, 0 <= i < cs w -> 0 <= j < rs w ->
      maddr w i j = maddr m (i1 + i * s - 1) (j1 + j * t - 1) /\
      1 <= i1 + i * s <= cs m /\ 1 <= j1 + j * t <= rs m.
Proof.
  intros m i1 i2 j1 j2 s t w Ni Nj E. unfold sub_matrix_step_f, has_sub_matrix_f in E.
  rewrite (proj2 (Z.eqb_neq i1 i2) Ni), (proj2 (Z.eqb_neq j1 j2) Nj) in E. cbn [orb] in E.
  destruct (Z.eqb_spec s 0) as [->|Hs]; [discriminate|].
  destruct (Z.eqb_spec t 0) as [->|Ht]; [discriminate|]. cbn [orb bindO] in E.
  apply assert_inv in E. destruct E as [Eb E]. apply andb_true_iff in Eb. destruct Eb as [E1 E2].
  rewrite in_range_f_exact in E1, E2 by auto.
  destruct E1 as (_ & k & Hk & Ek & Fk). destruct E2 as (_ & l & Hl & El & Fl).
  unfold c_sub_matrix_step in E. rewrite (proj2 (Z.eqb_neq s 0) Hs), (proj2 (Z.eqb_neq t 0) Ht) in E.
  cbn [orb] in E.
  replace (i2 - 1 + s - (i1 - 1)) with ((k + 1) * s) in E by lia.
  replace (j2 - 1 + t - (j1 - 1)) with ((l + 1) * t) in E by lia.
  rewrite !quot_mul in E by auto.
  assert (Ew : w = mkMV (mptr m + (i1 - 1) * si m + (j1 - 1) * sj m) (k + 1) (l + 1) (s * si m) (t * sj m) (mct m) (mcplx m) 0) by congruence.
  subst w. cbn [cs rs]. clear E.
  assert (k <> 0) by (intros ->; lia). assert (l <> 0) by (intros ->; lia).
  split; [lia|]. split; [lia|]. split; [lia|]. split; [lia|].
  intros i j Hi Hj. split; [unfold maddr; cbn [mptr si sj]; ring|].
  split; [apply Fk; lia | apply Fl; lia].
Qed.
Print Assumptions C27_fortran_sub_matrix_partial.

Example C27_fortran_hyp : exists w, sub_matrix_step_f (wholeM 5 6 true false) 5 1 2 6 (-2) 4 = Ok w /\
  cs w = 3 /\ rs w = 2.
Proof. eexists. repeat split. Qed.
