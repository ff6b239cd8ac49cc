(** Property C28: storage maps of band, triangular and symmetric matrices. *)
From Coq Require Import ZArith Lia Bool List.
From Verif Require Import Base VecView MatView Storage.
Import ListNotations.
Open Scope Z_scope.

(** Two different stored elements of a BandMatrix never share a location, for every
    shape, bandwidth and storage order. *)
Theorem C28_band_injective :
  forall s cplx cs rs lo hi L b i j i' j', band_new s cplx cs rs lo hi = Ok (L, b) ->
    in_band cs rs lo hi i j -> in_band cs rs lo hi i' j' ->
    baddr b i j = baddr b i' j' -> i = i' /\ j = j'.
Proof. exact band_inj. Qed.
Print Assumptions C28_band_injective.

(** Every stored element lies inside the allocated array, for every shape, bandwidth
    and storage order except diagonal-major matrices with more rows than columns, no
    subdiagonal and at least one superdiagonal. *)
Theorem C28_band_in_bounds_partial :
  forall s cplx cs rs lo hi L b i j, band_new s cplx cs rs lo hi = Ok (L, b) ->
    (s = DiagMajor -> rs < cs -> 0 < hi -> 0 < lo) ->
    in_band cs rs lo hi i j -> 0 <= baddr b i j < L.
Proof. exact band_bounds. Qed.
Print Assumptions C28_band_in_bounds_partial.

(** For those, the last elements of the top diagonal are past the end of the array:
    writing them overruns the heap block. *)
Theorem C28_band_in_bounds_refuted :
  forall cplx cs rs hi, 0 < hi -> hi < rs -> rs < cs ->
    exists L b, band_new DiagMajor cplx cs rs 0 hi = Ok (L, b) /\
      in_band cs rs 0 hi (rs - 1 - hi) (rs - 1) /\ L <= baddr b (rs - 1 - hi) (rs - 1).
Proof.
  intros cx cs rs hi H1 H2 H3.
  exists (band_storage_length DiagMajor cs rs 0 hi). eexists. split.
  { unfold band_new.
    replace (_ && _) with true by (symmetry; rewrite !andb_true_iff, !Z.leb_le, !Z.ltb_lt; lia).
    cbn [assertO bindO]. reflexivity. }
  split; [unfold in_band; lia|].
  unfold baddr, band_storage_length, band_sj, band_si. cbn [bptr bsi bsj].
  destruct (Z.eqb_spec cs 0); [lia|]. destruct (Z.eqb_spec rs 0); [lia|]. cbn [orb].
  destruct (Z.eqb_spec cs rs); [lia|]. rewrite !Z.gtb_ltb, !Z.geb_leb.
  destruct (Z.ltb_spec (rs + 0) cs); [|lia]. destruct (Z.ltb_spec (rs + 0 + hi) rs); [lia|].
  destruct (Z.ltb_spec rs (rs + 0)); [lia|]. destruct (Z.leb_spec cs rs); [lia|]. nia.
Qed.
Print Assumptions C28_band_in_bounds_refuted.

(** BandMatrix<T,DiagMajor>(3,2,0,1) allocates 3 elements; (0,1) is the fourth. *)
Example C28_band_refuted_case :
  exists L b, band_new DiagMajor false 3 2 0 1 = Ok (L, b) /\ L = 3 /\
    baddr b 0 0 = 0 /\ baddr b 1 1 = 1 /\ baddr b 0 1 = 3.
Proof. do 2 eexists. split; [reflexivity|]. repeat split. Qed.

(** The constructor accepts exactly the shapes with both bandwidths inside the
    matrix. *)
Theorem C28_band_new_accepts :
  forall s cplx cs rs lo hi,
    ((exists L b, band_new s cplx cs rs lo hi = Ok (L, b) /\
        bcs b = cs /\ brs b = rs /\ blo b = lo /\ bhi b = hi) <-> 0 <= lo < cs /\ 0 <= hi < rs) /\
    (band_new s cplx cs rs lo hi = Throw FailedAssert <-> ~ (0 <= lo < cs /\ 0 <= hi < rs)).
Proof.
  intros s cx cs rs lo hi. unfold band_new.
  destruct ((0 <=? cs) && (0 <=? rs) && (0 <=? lo) && (0 <=? hi) && (lo <? cs) && (hi <? rs)) eqn:E; cbn [assertO bindO].
  - rewrite !andb_true_iff, !Z.leb_le, !Z.ltb_lt in E. split; split; intro H; try lia; try discriminate.
    do 2 eexists. split; [reflexivity|]. repeat split.
  - assert (N : ~ (0 <= lo < cs /\ 0 <= hi < rs)).
    { intro H. enough (T : true = false) by discriminate T. rewrite <- E. symmetry.
      rewrite !andb_true_iff, !Z.leb_le, !Z.ltb_lt. lia. }
    split; split; intro H; try tauto. destruct H as (L & b & H & _). discriminate.
Qed.
Print Assumptions C28_band_new_accepts.

Example C28_band_hyp :
  exists L b, band_new DiagMajor true 5 3 2 1 = Ok (L, b) /\ L = 12 /\
    in_band 5 3 2 1 4 2 /\ baddr b 4 2 = 2 /\ in_band 5 3 2 1 0 1 /\ baddr b 0 1 = 10.
Proof. do 2 eexists. split; [reflexivity|]. repeat split; lia. Qed.

(** numElements of a band matrix is the number of its stored elements. *)
Theorem C28_band_count :
  forall cs rs lo hi, 0 <= lo < cs -> 0 <= hi < rs ->
    band_num_elements cs rs lo hi =
    Z.of_nat (length (filter (in_bandb lo hi) (grid cs rs))) /\
    (forall i j, In (i, j) (filter (in_bandb lo hi) (grid cs rs)) <-> in_band cs rs lo hi i j) /\
    NoDup (filter (in_bandb lo hi) (grid cs rs)).
Proof.
  intros cs rs lo hi H1 H2. split; [exact (band_num_ok cs rs lo hi H1 H2)|]. split.
  - intros i j. rewrite filter_In. unfold grid. rewrite in_prod_iff, !zseq_in, !Z2Nat.id by lia.
    unfold in_bandb, in_band. cbn [fst snd]. rewrite andb_true_iff, !Z.leb_le. lia.
  - apply NoDup_filter. unfold grid.
    assert (Z1 : forall n a, NoDup (zseq a n)).
    { induction n as [|n IH]; intro a; cbn [zseq]; constructor; [|apply IH].
      rewrite zseq_in. lia. }
    generalize (zseq 0 (Z.to_nat cs)) (Z1 (Z.to_nat cs) 0) (zseq 0 (Z.to_nat rs)) (Z1 (Z.to_nat rs) 0).
    intros l Hl l' Hl'. induction Hl as [|x l Hx Hl IH]; cbn [list_prod]; [constructor|].
    assert (A : forall (u v : list (Z * Z)), NoDup u -> NoDup v -> (forall p, In p u -> ~ In p v) -> NoDup (u ++ v)).
    { induction u as [|p u IHu]; intros v Hu Hv Hd; cbn [app]; [exact Hv|].
      inversion Hu; subst. constructor.
      - rewrite in_app_iff. intros [?|?]; [tauto|]. apply (Hd p); cbn; auto.
      - apply IHu; auto. intros q Hq. apply Hd. cbn; auto. }
    apply A; [|exact IH|].
    + clear - Hl'. induction Hl' as [|y m Hy Hm IHm]; cbn [map]; constructor; [|exact IHm].
      rewrite in_map_iff. intros (z & E & Hz). injection E as ->. tauto.
    + intros p Hp Hq. rewrite in_map_iff in Hp. destruct Hp as (y & <- & Hy).
      rewrite in_prod_iff in Hq. tauto.
Qed.
Print Assumptions C28_band_count.
Example C28_band_count_case : band_num_elements 5 3 2 1 = 11.
Proof. reflexivity. Qed.

(** Triangular matrices: the elements of the triangle have their own places inside
    the n*n allocated elements, in both storage orders. *)
Theorem C28_tri :
  forall rowmajor n i j i' j', 0 <= i < n -> 0 <= j < n -> 0 <= i' < n -> 0 <= j' < n ->
    0 <= tri_addr rowmajor n i j < tri_len n /\
    (tri_addr rowmajor n i j = tri_addr rowmajor n i' j' -> i = i' /\ j = j').
Proof.
  intros rm n i j i' j' ? ? ? ?. unfold tri_addr, tri_len. split.
  - destruct rm; nia.
  - destruct rm; intro; [assert (i = i') by nia | assert (j = j') by nia]; subst; lia.
Qed.
Print Assumptions C28_tri.

(** Reading a triangular matrix: ones on a unit diagonal, zeros off the triangle, and
    elsewhere the stored number; what the rest of the square holds is irrelevant. *)
Theorem C28_tri_read :
  forall (V : Type) (zero one : V) upper unitd rowmajor n mem i j,
    (i = j -> unitd = true -> tri_cref zero one upper unitd rowmajor n mem i j = one) /\
    ((if upper then i > j else i < j) -> tri_cref zero one upper unitd rowmajor n mem i j = zero) /\
    ((if upper then i < j else i > j) \/ (i = j /\ unitd = false) ->
       tri_cref zero one upper unitd rowmajor n mem i j = mem (tri_addr rowmajor n i j)).
Proof.
  intros V zero one up un rm n mem i j. unfold tri_cref. rewrite Z.gtb_ltb.
  destruct (Z.eqb_spec i j) as [E|E].
  - subst j. rewrite !Z.ltb_irrefl. split; [intros _ ->; reflexivity|].
    split; [destruct up; lia|]. intros [H|[_ ->]]; [destruct up; lia|]. cbn [andb]. destruct up; reflexivity.
  - rewrite andb_false_r. split; [congruence|].
    destruct up, (Z.ltb_spec i j), (Z.ltb_spec j i); split; intros; try reflexivity; lia.
Qed.
Print Assumptions C28_tri_read.

(** A symmetric or hermitian matrix, or one of its transpose/conjugate/adjoint views:
    constructors and view operations in any order. *)
Inductive sym_made : Z -> sview -> Prop :=
| SM_sym rowmajor upper sym n L m : sym_new rowmajor upper sym n = Ok (L, m) -> sym_made L m
| SM_band s upper sym n lo L m : 0 <= lo -> symband_new s upper sym n lo = Ok (L, m) -> sym_made L m
| SM_tr L m : sym_made L m -> sym_made L (s_transpose m)
| SM_cj L m : sym_made L m -> sym_made L (s_conjugate m)
| SM_adj L m : sym_made L m -> sym_made L (s_adjoint m).

Lemma sym_made_good L m : sym_made L m -> sgood L m.
Proof.
  induction 1 as [rm u sy n L m E|s u sy n lo L m Hlo E|L m _ IH|L m _ IH|L m _ IH].
  - apply (sym_new_good _ _ _ _ _ _ E).
  - apply (symband_new_good _ _ _ _ _ _ _ Hlo E).
  - apply s_transpose_good, IH.
  - apply s_conjugate_good, IH.
  - apply s_adjoint_good, IH.
Qed.

(** Every element within the band is inside the allocated array; (i,j) and (j,i) use
    the same location, and no other pair does. *)
Theorem C28_sym_locations :
  forall L m i j i' j', sym_made L m ->
    0 <= i < ssz m -> 0 <= j < ssz m -> Z.abs (i - j) <= slo m ->
    0 <= i' < ssz m -> 0 <= j' < ssz m -> Z.abs (i' - j') <= slo m ->
    0 <= saddr m i j < L /\
    (saddr m i j = saddr m i' j' <-> (i = i' /\ j = j') \/ (i = j' /\ j = i')).
Proof.
  intros L m i j i' j' Hm Hi Hj Hd Hi' Hj' Hd'.
  assert (O : forall a b, Z.abs (a - b) <= slo m -> sokij m a b = true).
  { intros a b H. unfold sokij. rewrite andb_true_iff, !Z.geb_le. lia. }
  destruct (sgood_all L m i j (sym_made_good L m Hm) Hi Hj (O _ _ Hd)) as [B I].
  split; [exact B|]. apply I; auto.
Qed.
Print Assumptions C28_sym_locations.

(** Assigning x to (i,j) through a symmetric or hermitian matrix or view: (i,j) then
    reads x, the mirror element reads x (symmetric) or its conjugate (hermitian), and
    every other element reads as before. *)
Theorem C28_sym_assign :
  forall (V : Type) (zero : V) (cj : V -> V) L m mem i j x,
    (forall v, cj (cj v) = v) -> sym_made L m ->
    0 <= i < ssz m -> 0 <= j < ssz m -> Z.abs (i - j) <= slo m ->
    exists mem', sset cj m mem i j x = Ok mem' /\
      scref zero cj m mem' i j = x /\
      (i <> j -> scref zero cj m mem' j i = (if ssym m then x else cj x)) /\
      (forall a b, 0 <= a < ssz m -> 0 <= b < ssz m -> ~ (a = i /\ b = j) -> ~ (a = j /\ b = i) ->
         scref zero cj m mem' a b = scref zero cj m mem a b) /\
      (forall w, ~ 0 <= w < L -> mem' w = mem w).
Proof.
  intros V zero cj L m mem i j x Hcj Hm Hi Hj Hd.
  pose proof (sym_made_good L m Hm) as G.
  assert (O : sokij m i j = true) by (unfold sokij; rewrite andb_true_iff, !Z.geb_le; lia).
  destruct (sgood_all L m i j G Hi Hj O) as [B I].
  unfold sset. rewrite O. cbn [assertO bindO]. eexists. split; [reflexivity|].
  unfold scref. rewrite O, (sokij_sym m j i), O, <- (saddr_mirror m i j).
  assert (S0 : forall y, smset mem (saddr m i j) y (saddr m i j) = y) by (intro; unfold smset; rewrite Z.eqb_refl; reflexivity).
  rewrite S0. split; [destruct (sflip m i j); auto|]. split.
  - intro N. assert (F : sdirect m j i = negb (sdirect m i j)).
    { unfold sdirect. rewrite !Z.geb_leb. destruct (supper m), (Z.leb_spec i j), (Z.leb_spec j i); try reflexivity; lia. }
    unfold sflip. rewrite F. destruct (sdirect m i j), (ssym m), (sconj m); cbn [negb Bool.eqb]; auto.
  - split.
    + intros a b Ha Hb N1 N2. destruct (sokij m a b) eqn:Oab; [|reflexivity].
      assert (A : smset mem (saddr m i j) (if sflip m i j then cj x else x) (saddr m a b) = mem (saddr m a b)).
      { unfold smset. destruct (Z.eqb_spec (saddr m a b) (saddr m i j)) as [E|]; [|reflexivity].
        exfalso. symmetry in E. apply (I a b Ha Hb Oab) in E. lia. }
      rewrite A. reflexivity.
    + intros w Hw. unfold smset. destruct (Z.eqb_spec w (saddr m i j)); [subst; tauto|reflexivity].
Qed.
Print Assumptions C28_sym_assign.

(** Assigning outside the band of a symmetric band matrix is refused, and such
    elements read as zero. *)
Theorem C28_sym_outside_band :
  forall (V : Type) (zero : V) (cj : V -> V) m mem i j x, Z.abs (i - j) > slo m ->
    sset cj m mem i j x = Throw FailedAssert /\ scref zero cj m mem i j = zero.
Proof.
  intros V zero cj m mem i j x H.
  assert (O : sokij m i j = false).
  { unfold sokij. apply andb_false_iff. rewrite !Z.geb_leb, !Z.leb_gt. lia. }
  unfold sset, scref. rewrite O. split; reflexivity.
Qed.
Print Assumptions C28_sym_outside_band.

(** The transposed, conjugated and adjoint views read the transposed, conjugated and
    adjoint matrix (an element on the diagonal of a hermitian matrix as stored). *)
Theorem C28_sym_views :
  forall (V : Type) (zero : V) (cj : V -> V) m mem i j,
    (forall v, cj (cj v) = v) -> cj zero = zero ->
    scref zero cj (s_transpose m) mem i j = scref zero cj m mem j i /\
    scref zero cj (s_conjugate m) mem i j = cj (scref zero cj m mem i j) /\
    scref zero cj (s_adjoint m) mem i j = cj (scref zero cj m mem j i).
Proof.
  intros V zero cj m mem i j Hcj H0.
  assert (T : scref zero cj (s_transpose m) mem i j = scref zero cj m mem j i).
  { unfold scref. assert (O : sokij (s_transpose m) i j = sokij m j i) by (unfold sokij; cbn [s_transpose slo]; apply andb_comm).
    rewrite O. destruct (sokij m j i); [|reflexivity].
    assert (D : sdirect (s_transpose m) i j = sdirect m j i).
    { unfold sdirect. cbn [s_transpose supper]. rewrite !Z.geb_leb. destruct (supper m); reflexivity. }
    unfold sflip, saddr. rewrite D. cbn [s_transpose sptr ssi ssj ssym sconj].
    destruct (sdirect m j i).
    - replace (sptr m + i * ssj m + j * ssi m) with (sptr m + j * ssi m + i * ssj m) by ring. reflexivity.
    - replace (sptr m + j * ssj m + i * ssi m) with (sptr m + i * ssi m + j * ssj m) by ring. reflexivity. }
  assert (C : forall n a b, scref zero cj (s_conjugate n) mem a b = cj (scref zero cj n mem a b)).
  { intros n a b. unfold scref. change (sokij (s_conjugate n) a b) with (sokij n a b).
    destruct (sokij n a b); [|auto]. change (saddr (s_conjugate n) a b) with (saddr n a b).
    unfold sflip. change (sdirect (s_conjugate n) a b) with (sdirect n a b). cbn [s_conjugate ssym sconj].
    destruct (sdirect n a b), (ssym n), (sconj n); cbn [negb Bool.eqb]; auto. }
  split; [exact T|]. split; [apply C|]. rewrite <- T. apply (C (s_transpose m)).
Qed.
Print Assumptions C28_sym_views.

(** A concrete case: a hermitian band matrix, lower triangle, diagonal-major. *)
Example C28_sym_hyp :
  exists L m, symband_new DiagMajor false false 4 2 = Ok (L, m) /\ L = 10 /\
    saddr m 2 0 = 0 /\ saddr m 0 2 = 0 /\ saddr m 3 3 = 9 /\ saddr m 3 2 = 5 /\
    sym_made L (s_adjoint m).
Proof.
  do 2 eexists. split; [reflexivity|]. repeat split.
  apply SM_adj. apply (SM_band DiagMajor false false 4 2); [lia|reflexivity].
Qed.
