(** Where band, triangular and symmetric matrices keep their elements: the storage
    lengths, steps and start pointers the constructors compute, and the element
    access functions.  Integers are unbounded.  Assertions are on. *)
From Coq Require Import ZArith Lia Bool List.
From Verif Require Import Base VecView MatView.
Import ListNotations.
Open Scope Z_scope.

Inductive stor := RowMajor | ColMajor | DiagMajor.

(** BandStorageLength, src/TMV_BandMatrix.cpp:128-156. *)
Definition band_storage_length (s : stor) (cs rs lo hi : Z) : Z :=
  if (cs =? 0) || (rs =? 0) then 0
  else if cs =? rs then (cs - 1) * (lo + hi) + cs
  else
    let cs := if cs >? rs + lo then rs + lo else cs in
    let rs := if rs >? cs + hi then cs + hi else rs in
    match s with
    | RowMajor => (cs - 1) * (lo + hi) + rs
    | ColMajor => (rs - 1) * (lo + hi) + cs
    | DiagMajor => if cs >? rs then rs * (lo + hi + 1) else (cs - 1) * (lo + hi) + rs
    end.

(** BandNumElements, src/TMV_BandMatrix.cpp:158-172. *)
Definition band_num_elements (cs rs lo hi : Z) : Z :=
  if (cs =? 0) || (rs =? 0) then 0
  else if cs =? rs then
    cs * (lo + hi + 1) - Z.quot (lo * (lo + 1)) 2 - Z.quot (hi * (hi + 1)) 2
  else if cs >? rs then
    let lox := Z.max (rs + lo - cs) 0 in
    rs * (lo + hi + 1) - Z.quot (lox * (lox + 1)) 2 - Z.quot (hi * (hi + 1)) 2
  else
    let hix := Z.max (cs + hi - rs) 0 in
    cs * (lo + hi + 1) - Z.quot (lo * (lo + 1)) 2 - Z.quot (hix * (hix + 1)) 2.

(** BandMatrixView's members, include/tmv/TMV_BandMatrix.h:2034-2045, without the
    linear size (linear views of band matrices are not modelled). *)
Record bview := mkBV { bptr : Z; bcs : Z; brs : Z; blo : Z; bhi : Z;
                       bsi : Z; bsj : Z; bsd : Z; bct : bool; bcplx : bool }.

(** The macro NEW_SIZE, TMV_BandMatrix.h:2512-2520.  Address 0 is the start of the
    allocated array itsm1. *)
Definition band_si (s : stor) (cs rs lo hi : Z) : Z :=
  match s with
  | RowMajor => lo + hi
  | ColMajor => 1
  | DiagMajor => if rs >=? cs then 1 - cs else - rs
  end.
Definition band_sj (s : stor) (cs rs lo hi : Z) : Z :=
  match s with
  | RowMajor => 1
  | ColMajor => lo + hi
  | DiagMajor => - band_si s cs rs lo hi + 1
  end.
Definition band_ds (s : stor) (cs rs lo hi : Z) : Z :=
  match s with
  | RowMajor => band_si s cs rs lo hi + 1
  | ColMajor => band_sj s cs rs lo hi + 1
  | DiagMajor => 1
  end.
(** BandMatrix(cs,rs,lo,hi), 2535-2546 (and resize, 3605-3633, which computes the same
    members): the number of elements allocated, and the matrix as a view. *)
Definition band_new (s : stor) (cplx : bool) (cs rs lo hi : Z) : outcome (Z * bview) :=
  do _ <- assertO ((0 <=? cs) && (0 <=? rs) && (0 <=? lo) && (0 <=? hi) && (lo <? cs) && (hi <? rs));
  let si := band_si s cs rs lo hi in
  Ok (band_storage_length s cs rs lo hi,
      mkBV (match s with DiagMajor => 0 - lo * si | _ => 0 end) cs rs lo hi
        si (band_sj s cs rs lo hi) (band_ds s cs rs lo hi) false cplx).

(** The address ref(i,j)/cref(i,j) uses (TMV_BandMatrix.h:3596-3603,
    TMV_BandMatrix.cpp:44-60), and okij, TMV_BandMatrix.h:959-960. *)
Definition baddr (b : bview) (i j : Z) : Z := bptr b + i * bsi b + j * bsj b.
Definition okij (b : bview) (i j : Z) : bool := (j + blo b >=? i) && (i + bhi b >=? j).

(** UpperTriMatrix / LowerTriMatrix: itslen = s*s (TMV_TriMatrix.h:3621, 4398), the
    element at itsm[i*stepi+j*stepj] (4265-4287, 5051-5073). *)
Definition tri_len (n : Z) : Z := n * n.
Definition tri_addr (rowmajor : bool) (n i j : Z) : Z := if rowmajor then i * n + j else j * n + i.
(** cref: 1 on a unit diagonal and 0 off the triangle without looking at storage. *)
Definition tri_cref {V} (zero one : V) (upper unitd rowmajor : bool) (n : Z) (mem : Z -> V) (i j : Z) : V :=
  if unitd && (i =? j) then one
  else if (if upper then i >? j else i <? j) then zero
  else mem (tri_addr rowmajor n i j).

(** A symmetric or hermitian matrix (or view): pointer, size, number of
    off-diagonals (size-1 for the non-band types), steps, triangle stored, symmetric
    or hermitian, conjugated.  include/tmv/TMV_SymMatrix.h:1654-1668,
    TMV_SymBandMatrix.h:1996-2012. *)
Record sview := mkSV { sptr : Z; ssz : Z; slo : Z; ssi : Z; ssj : Z;
                       supper : bool; ssym : bool; sconj : bool }.
(** Which element of storage (i,j) is: cref/ref, TMV_SymMatrix.cpp:53-75,
    TMV_SymBandMatrix.cpp:47-76. *)
Definition sdirect (m : sview) (i j : Z) : bool := if supper m then i <=? j else i >=? j.
Definition saddr (m : sview) (i j : Z) : Z :=
  if sdirect m i j then sptr m + i * ssi m + j * ssj m else sptr m + j * ssi m + i * ssj m.
(** Is the stored number the conjugate of the element? *)
Definition sflip (m : sview) (i j : Z) : bool :=
  if sdirect m i j then sconj m else Bool.eqb (ssym m) (sconj m).
Definition sokij (m : sview) (i j : Z) : bool := (j + slo m >=? i) && (i + slo m >=? j).
Definition scref {V} (zero : V) (cj : V -> V) (m : sview) (mem : Z -> V) (i j : Z) : V :=
  if sokij m i j then (if sflip m i j then cj (mem (saddr m i j)) else mem (saddr m i j)) else zero.
(** ref(i,j) = x: VarConjRef assigns the conjugate when the reference is conjugated
    (include/tmv/TMV_Base.h, RefHelper/VarConjRef).  operator() checks okij first
    (TMV_SymBandMatrix.h:1503-1508). *)
Definition smset {V} (mem : Z -> V) (a : Z) (x : V) : Z -> V := fun b => if b =? a then x else mem b.
Definition sset {V} (cj : V -> V) (m : sview) (mem : Z -> V) (i j : Z) (x : V) : outcome (Z -> V) :=
  do _ <- assertO (sokij m i j);
  Ok (smset mem (saddr m i j) (if sflip m i j then cj x else x)).

(** SymMatrix / HermMatrix(n): itslen = n*n, TMV_SymMatrix.h:2084, 2896-2897, 3002,
    3841-3842.  SymBandMatrix / HermBandMatrix(n,lo): NEW_SIZE,
    TMV_SymBandMatrix.h:2518-2526, 3723-3731. *)
Definition sym_new (rowmajor upper sym : bool) (n : Z) : outcome (Z * sview) :=
  do _ <- assertO (0 <=? n);
  Ok (n * n, mkSV 0 n (n - 1) (if rowmajor then n else 1) (if rowmajor then 1 else n) upper sym false).
Definition symband_new (s : stor) (upper sym : bool) (n lo : Z) : outcome (Z * sview) :=
  do _ <- assertO ((0 <=? n) && (lo <? n));
  let si := match s with DiagMajor => - n + 1 | RowMajor => lo | ColMajor => 1 end in
  let sj := match s with DiagMajor => n | RowMajor => 1 | ColMajor => lo end in
  Ok (band_storage_length s n n lo 0,
      mkSV (match s with DiagMajor => if upper then 0 else 0 - lo * si | _ => 0 end)
        n lo si sj upper sym false).
(** transpose, conjugate, adjoint of a symmetric view, TMV_SymMatrix.h:2859-2885,
    TMV_SymBandMatrix.h:3555-3577 (cplx: is the element type complex). *)
Definition s_transpose (m : sview) : sview :=
  mkSV (sptr m) (ssz m) (slo m) (ssj m) (ssi m) (negb (supper m)) (ssym m) (sconj m).
Definition s_conjugate (m : sview) : sview :=
  mkSV (sptr m) (ssz m) (slo m) (ssi m) (ssj m) (supper m) (ssym m) (negb (sconj m)).
Definition s_adjoint (m : sview) : sview :=
  mkSV (sptr m) (ssz m) (slo m) (ssj m) (ssi m) (negb (supper m)) (ssym m) (negb (sconj m)).

(** ** Specification *)
(** The elements a band matrix keeps: those within lo below and hi above the
    diagonal. *)
Definition in_band (cs rs lo hi i j : Z) : Prop := 0 <= i < cs /\ 0 <= j < rs /\ - lo <= j - i <= hi.

(** ** Proofs *)
Lemma band_new_inv s cx cs rs lo hi L b : band_new s cx cs rs lo hi = Ok (L, b) ->
  0 <= lo < cs /\ 0 <= hi < rs /\ L = band_storage_length s cs rs lo hi /\
  b = mkBV (match s with DiagMajor => 0 - lo * band_si s cs rs lo hi | _ => 0 end) cs rs lo hi
        (band_si s cs rs lo hi) (band_sj s cs rs lo hi) (band_ds s cs rs lo hi) false cx.
Proof.
  unfold band_new. intro E. apply assert_inv in E. destruct E as [H E].
  rewrite !andb_true_iff, !Z.leb_le, !Z.ltb_lt in H. cbv zeta in E.
  assert (EL : L = band_storage_length s cs rs lo hi) by congruence.
  split; [lia|]. split; [lia|]. split; [exact EL|]. clear - E. congruence.
Qed.

(** Each storage's address, in a form from which bounds and injectivity are clear. *)
Lemma band_addr_eq s cx cs rs lo hi L b i j : band_new s cx cs rs lo hi = Ok (L, b) ->
  baddr b i j = match s with
                | RowMajor => i * (lo + hi) + j
                | ColMajor => j * (lo + hi) + i
                | DiagMajor => if rs >=? cs then (j - i + lo) * (cs - 1) + j else (j - i + lo) * rs + j
                end.
Proof.
  intro E. apply band_new_inv in E. destruct E as (_ & _ & _ & ->).
  unfold baddr. cbn [bptr bsi bsj]. unfold band_si, band_sj, band_si.
  destruct s; [lia|lia|]. destruct (rs >=? cs); ring.
Qed.

Lemma band_inj s cx cs rs lo hi L b i j i' j' : band_new s cx cs rs lo hi = Ok (L, b) ->
  in_band cs rs lo hi i j -> in_band cs rs lo hi i' j' -> baddr b i j = baddr b i' j' -> i = i' /\ j = j'.
Proof.
  intros E (Hi & Hj & Hd) (Hi' & Hj' & Hd') Ea.
  rewrite !(band_addr_eq _ _ _ _ _ _ _ _ _ _ E) in Ea. apply band_new_inv in E. destruct E as (Hlo & Hhi & _ & _).
  destruct s.
  - assert (i = i') by nia. lia.
  - assert (j = j') by nia. lia.
  - destruct (rs >=? cs) eqn:C; rewrite ?Z.geb_leb in C.
    + assert (Ex : (j - i) = (j' - i')) by nia. lia.
    + apply Z.leb_gt in C. assert (Ex : (j - i) = (j' - i')) by nia. lia.
Qed.

Lemma band_bounds s cx cs rs lo hi L b i j : band_new s cx cs rs lo hi = Ok (L, b) ->
  (s = DiagMajor -> rs < cs -> 0 < hi -> 0 < lo) ->
  in_band cs rs lo hi i j -> 0 <= baddr b i j < L.
Proof.
  intros E Hx (Hi & Hj & Hd).
  rewrite (band_addr_eq _ _ _ _ _ _ _ _ _ _ E). apply band_new_inv in E. destruct E as (Hlo & Hhi & -> & _).
  unfold band_storage_length.
  destruct (Z.eqb_spec cs 0); [lia|]. destruct (Z.eqb_spec rs 0); [lia|]. cbn [orb].
  destruct (Z.eqb_spec cs rs) as [Ec|Nc].
  { destruct s; [nia|nia|]. destruct (rs >=? cs) eqn:C; [nia|]. rewrite Z.geb_leb in C. apply Z.leb_gt in C. lia. }
  rewrite !Z.gtb_ltb, !Z.geb_leb.
  destruct (Z.ltb_spec (rs + lo) cs) as [A|A].
  - destruct (Z.ltb_spec (rs + lo + hi) rs) as [B|B]; [lia|].
    destruct s; [nia|nia|]. destruct (Z.leb_spec cs rs); [lia|].
    destruct (Z.ltb_spec rs (rs + lo)); [nia|]. assert (lo = 0) by lia. subst lo.
    destruct (Z.eq_dec hi 0) as [->|]; [nia|]. exfalso. specialize (Hx eq_refl). lia.
  - destruct (Z.ltb_spec (cs + hi) rs) as [B|B].
    + destruct s; [nia|nia|]. destruct (Z.leb_spec cs rs); [|lia]. destruct (Z.ltb_spec (cs + hi) cs); [lia|]. nia.
    + destruct s; [nia|nia|]. destruct (Z.leb_spec cs rs).
      * destruct (Z.ltb_spec rs cs); [lia|]. nia.
      * destruct (Z.ltb_spec rs cs); [|lia]. nia.
Qed.

(** ** Symmetric storage *)
(** What the constructors establish: in its own triangle the map is in bounds and
    injective. *)
Definition sgood (L : Z) (m : sview) : Prop :=
  forall i j, 0 <= i < ssz m -> 0 <= j < ssz m -> sokij m i j = true -> sdirect m i j = true ->
    0 <= saddr m i j < L /\
    forall i' j', 0 <= i' < ssz m -> 0 <= j' < ssz m -> sokij m i' j' = true -> sdirect m i' j' = true ->
      saddr m i j = saddr m i' j' -> i = i' /\ j = j'.

Lemma sym_new_good rm up sy n L m : sym_new rm up sy n = Ok (L, m) -> sgood L m /\ ssz m = n /\ slo m = n - 1.
Proof.
  unfold sym_new. intro E. apply assert_inv in E. destruct E as [H E]. apply Z.leb_le in H.
  assert (EL : L = n * n) by congruence.
  assert (Em : m = mkSV 0 n (n - 1) (if rm then n else 1) (if rm then 1 else n) up sy false) by congruence.
  subst L m. split; [|split; reflexivity].
  intros i j Hi Hj _ Hd. cbn [ssz] in *. unfold saddr. rewrite Hd. cbn [sptr ssi ssj].
  split; [destruct rm; nia|]. intros i' j' Hi' Hj' _ Hd'. rewrite Hd'. intro E'.
  destruct rm; [assert (i = i') by nia; subst; nia | assert (j = j') by nia; subst; nia].
Qed.

Lemma symband_new_good s up sy n lo L m : 0 <= lo -> symband_new s up sy n lo = Ok (L, m) ->
  sgood L m /\ ssz m = n /\ slo m = lo.
Proof.
  intros Hlo. unfold symband_new. intro E. apply assert_inv in E. destruct E as [H E].
  rewrite andb_true_iff, Z.leb_le, Z.ltb_lt in H. cbv zeta in E.
  set (si := match s with DiagMajor => - n + 1 | RowMajor => lo | ColMajor => 1 end) in *.
  set (sj := match s with DiagMajor => n | RowMajor => 1 | ColMajor => lo end) in *.
  assert (EL : L = band_storage_length s n n lo 0) by congruence.
  assert (Em : m = mkSV (match s with DiagMajor => if up then 0 else 0 - lo * si | _ => 0 end) n lo si sj up sy false) by congruence.
  subst L m. split; [|split; reflexivity].
  unfold band_storage_length. destruct (Z.eqb_spec n 0); [lia|]. cbn [orb]. rewrite Z.eqb_refl.
  assert (Hd : forall i j, sokij (mkSV (match s with DiagMajor => if up then 0 else 0 - lo * si | _ => 0 end) n lo si sj up sy false) i j = true ->
     sdirect (mkSV (match s with DiagMajor => if up then 0 else 0 - lo * si | _ => 0 end) n lo si sj up sy false) i j = true ->
     (up = true /\ 0 <= j - i <= lo) \/ (up = false /\ 0 <= i - j <= lo)).
  { intros i j. unfold sokij, sdirect. cbn [slo supper]. rewrite andb_true_iff, !Z.geb_le.
    destruct up; rewrite ?Z.leb_le, ?Z.geb_le; intros; [left|right]; lia. }
  intros i j Hi Hj Ho Hx. pose proof (Hd i j Ho Hx) as D. cbn [ssz] in *. unfold saddr. rewrite Hx.
  cbn [sptr ssi ssj]. subst si sj. clear Ho Hx. split.
  - destruct s; destruct D as [(-> & D)|(-> & D)]; nia.
  - intros i' j' Hi' Hj' Ho' Hx'. pose proof (Hd i' j' Ho' Hx') as D'. rewrite Hx'. clear Ho' Hx' Hd E. intro E.
    destruct s.
    + assert (i = i') by (destruct D as [(-> & D)|(-> & D)], D' as [(D0 & D')|(D0 & D')]; try discriminate; nia). subst. lia.
    + assert (j = j') by (destruct D as [(-> & D)|(-> & D)], D' as [(D0 & D')|(D0 & D')]; try discriminate; nia). subst. lia.
    + assert (Ex : j - i = j' - i').
      { destruct D as [(-> & D)|(-> & D)], D' as [(D0 & D')|(D0 & D')]; try discriminate;
          assert (F : (j - i) * n + i = (j' - i') * n + i') by nia; nia. }
      nia.
Qed.

(** The views transpose, conjugate and adjoint keep the invariant. *)
Lemma sokij_sym m i j : sokij m i j = sokij m j i.
Proof. unfold sokij. apply andb_comm. Qed.
Lemma s_transpose_good L m : sgood L m -> sgood L (s_transpose m).
Proof.
  intros G i j Hi Hj Ho Hd. cbn [s_transpose ssz] in Hi, Hj.
  assert (T : forall i j, sdirect (s_transpose m) i j = true -> sdirect m j i = true /\
              saddr (s_transpose m) i j = saddr m j i).
  { intros a b. unfold saddr. intro X. rewrite X.
    assert (Y : sdirect m b a = true).
    { revert X. unfold sdirect, s_transpose. cbn [supper]. destruct (supper m); cbn [negb];
        rewrite ?Z.leb_le, ?Z.geb_le; lia. }
    rewrite Y. split; [reflexivity|]. cbn [s_transpose sptr ssi ssj]. ring. }
  assert (O : forall i j, sokij (s_transpose m) i j = sokij m j i).
  { intros a b. unfold sokij. cbn [s_transpose slo]. apply andb_comm. }
  destruct (T i j Hd) as [D ->]. rewrite O in Ho. destruct (G j i Hj Hi Ho D) as [B I].
  split; [exact B|]. intros i' j' Hi' Hj' Ho' Hd' E. cbn [s_transpose ssz] in Hi', Hj'.
  destruct (T i' j' Hd') as [D' E']. rewrite E' in E. rewrite O in Ho'.
  destruct (I j' i' Hj' Hi' Ho' D' E). auto.
Qed.
Lemma s_conjugate_good L m : sgood L m -> sgood L (s_conjugate m).
Proof. intros G. exact G. Qed.
Lemma s_adjoint_good L m : sgood L m -> sgood L (s_adjoint m).
Proof. intro G. exact (s_transpose_good L m G). Qed.

Lemma sdirect_or m i j : sdirect m i j = true \/ (sdirect m j i = true /\ sdirect m i j = false /\ i <> j).
Proof.
  unfold sdirect. rewrite !Z.geb_leb.
  destruct (supper m); destruct (Z.leb_spec i j), (Z.leb_spec j i); auto; right; repeat split; lia.
Qed.
Lemma saddr_mirror m i j : saddr m i j = saddr m j i.
Proof.
  unfold saddr.
  destruct (sdirect_or m i j) as [E|(E & F & N)].
  - rewrite E. destruct (sdirect m j i) eqn:F; [|reflexivity].
    assert (i = j). { revert E F. unfold sdirect. destruct (supper m); rewrite ?Z.leb_le, ?Z.geb_le; lia. }
    subst; reflexivity.
  - rewrite E, F. reflexivity.
Qed.

Lemma sgood_all L m i j : sgood L m -> 0 <= i < ssz m -> 0 <= j < ssz m -> sokij m i j = true ->
  0 <= saddr m i j < L /\
  forall i' j', 0 <= i' < ssz m -> 0 <= j' < ssz m -> sokij m i' j' = true ->
    (saddr m i j = saddr m i' j' <-> (i = i' /\ j = j') \/ (i = j' /\ j = i')).
Proof.
  intros G Hi Hj Ho.
  assert (W : exists a b, ((a = i /\ b = j) \/ (a = j /\ b = i)) /\ sdirect m a b = true /\ saddr m i j = saddr m a b).
  { destruct (sdirect_or m i j) as [E|(E & _)]; [exists i, j; auto|exists j, i; rewrite (saddr_mirror m i j); auto]. }
  destruct W as (a & b & Wab & Dab & ->).
  assert (Ha : 0 <= a < ssz m /\ 0 <= b < ssz m /\ sokij m a b = true).
  { destruct Wab as [(-> & ->)|(-> & ->)]; [auto|]. rewrite sokij_sym. auto. }
  destruct Ha as (Ha & Hb & Hab). destruct (G a b Ha Hb Hab Dab) as [B I]. split; [exact B|].
  intros i' j' Hi' Hj' Ho'. split.
  - destruct (sdirect_or m i' j') as [E|(E & _)]; intro Q.
    + destruct (I i' j' Hi' Hj' Ho' E Q). lia.
    + rewrite (saddr_mirror m i' j') in Q. rewrite sokij_sym in Ho'.
      destruct (I j' i' Hj' Hi' Ho' E Q). lia.
  - intro Q. destruct Wab as [(-> & ->)|(-> & ->)], Q as [(-> & ->)|(-> & ->)]; try reflexivity; apply saddr_mirror.
Qed.

(** ** The number of stored elements *)
(** Column j of diagonal d (j = i + d). *)
Fixpoint zseq (a : Z) (n : nat) : list Z := match n with O => [] | S k => a :: zseq (a + 1) k end.
Lemma zseq_in a n x : In x (zseq a n) <-> a <= x < a + Z.of_nat n.
Proof.
  revert a. induction n as [|n IH]; intro a; cbn [zseq In]; [lia|]. rewrite IH. lia.
Qed.
Definition grid (cs rs : Z) : list (Z * Z) := list_prod (zseq 0 (Z.to_nat cs)) (zseq 0 (Z.to_nat rs)).
Definition in_bandb (lo hi : Z) (p : Z * Z) : bool := (- lo <=? snd p - fst p) && (snd p - fst p <=? hi).
Definition stored_count (cs rs lo hi : Z) : Z := Z.of_nat (length (filter (in_bandb lo hi) (grid cs rs))).

(** One diagonal. *)
Definition diag_count (cs rs d : Z) : Z :=
  Z.of_nat (length (filter (fun p : Z * Z => snd p - fst p =? d) (grid cs rs))).

Lemma filter_ext' {A} (f g : A -> bool) l : (forall x, f x = g x) -> filter f l = filter g l.
Proof. intro H. induction l; cbn; [reflexivity|]. rewrite H, IHl. reflexivity. Qed.

Lemma filter_disj {A} (f g : A -> bool) l : (forall x, f x = true -> g x = false) ->
  length (filter (fun x => f x || g x) l) = (length (filter f l) + length (filter g l))%nat.
Proof.
  intro H. induction l as [|x l IH]; cbn; [reflexivity|].
  specialize (H x). destruct (f x); cbn [orb].
  - rewrite H by reflexivity. cbn. lia.
  - destruct (g x); cbn; lia.
Qed.

Lemma stored_hi cs rs lo hi : 0 <= lo -> 0 <= hi ->
  stored_count cs rs lo (hi + 1) = stored_count cs rs lo hi + diag_count cs rs (hi + 1).
Proof.
  intros. unfold stored_count, diag_count. rewrite <- Nat2Z.inj_add. f_equal. rewrite <- filter_disj.
  - f_equal. apply filter_ext'. intros [i j]. unfold in_bandb. cbn [fst snd].
    apply eq_true_iff_eq. rewrite orb_true_iff, !andb_true_iff, !Z.leb_le, Z.eqb_eq. lia.
  - intros [i j]. unfold in_bandb. cbn [fst snd]. rewrite andb_true_iff, !Z.leb_le, Z.eqb_neq. lia.
Qed.
Lemma stored_lo cs rs lo hi : 0 <= lo -> 0 <= hi ->
  stored_count cs rs (lo + 1) hi = stored_count cs rs lo hi + diag_count cs rs (- (lo + 1)).
Proof.
  intros. unfold stored_count, diag_count. rewrite <- Nat2Z.inj_add. f_equal. rewrite <- filter_disj.
  - f_equal. apply filter_ext'. intros [i j]. unfold in_bandb. cbn [fst snd].
    apply eq_true_iff_eq. rewrite orb_true_iff, !andb_true_iff, !Z.leb_le, Z.eqb_eq. lia.
  - intros [i j]. unfold in_bandb. cbn [fst snd]. rewrite andb_true_iff, !Z.leb_le, Z.eqb_neq. lia.
Qed.
Lemma stored_00 cs rs : stored_count cs rs 0 0 = diag_count cs rs 0.
Proof.
  unfold stored_count, diag_count. f_equal. f_equal. apply filter_ext'. intros [i j]. unfold in_bandb.
  cbn [fst snd]. apply eq_true_iff_eq. rewrite andb_true_iff, !Z.leb_le, Z.eqb_eq. lia.
Qed.

Lemma row_count_at (i d b n : Z) (len : nat) :
  length (filter (fun p : Z * Z => snd p - fst p =? d) (map (fun y => (i, y)) (zseq b len))) =
  if (b <=? i + d) && (i + d <? b + Z.of_nat len) then 1%nat else 0%nat.
Proof.
  revert b. induction len as [|len IH]; intro b; cbn [zseq map filter].
  - destruct (Z.leb_spec b (i + d)); cbn [andb]; [|reflexivity].
    destruct (Z.ltb_spec (i + d) (b + Z.of_nat 0)); [lia|reflexivity].
  - cbn [fst snd]. destruct (Z.eqb_spec (b - i) d) as [E|E]; cbn [length]; rewrite IH.
    + destruct (Z.leb_spec (b + 1) (i + d)); [lia|]. cbn [andb].
      destruct (Z.leb_spec b (i + d)); [|lia]. cbn [andb].
      destruct (Z.ltb_spec (i + d) (b + Z.of_nat (S len))); [reflexivity|lia].
    + destruct (Z.leb_spec (b + 1) (i + d)), (Z.leb_spec b (i + d)); cbn [andb]; try lia.
      destruct (Z.ltb_spec (i + d) (b + 1 + Z.of_nat len)), (Z.ltb_spec (i + d) (b + Z.of_nat (S len))); lia.
Qed.

Lemma filter_app_len {A} (f : A -> bool) l l' : length (filter f (l ++ l')) = (length (filter f l) + length (filter f l'))%nat.
Proof. rewrite filter_app, app_length. reflexivity. Qed.

Lemma diag_count_rows (a d : Z) (n len : nat) :
  Z.of_nat (length (filter (fun p : Z * Z => snd p - fst p =? d) (list_prod (zseq a n) (zseq 0 len)))) =
  Z.max 0 (Z.min (a + Z.of_nat n) (Z.of_nat len - d) - Z.max a (- d)).
Proof.
  revert a. induction n as [|n IH]; intro a; cbn [zseq list_prod].
  - cbn [filter length]. lia.
  - rewrite filter_app_len, Nat2Z.inj_add, IH, (row_count_at a d 0 0 len).
    destruct (Z.leb_spec 0 (a + d)); cbn [andb]; [|lia].
    destruct (Z.ltb_spec (a + d) (0 + Z.of_nat len)); lia.
Qed.
Lemma diag_count_eq cs rs d : 0 <= cs -> 0 <= rs ->
  diag_count cs rs d = Z.max 0 (Z.min cs (rs - d) - Z.max 0 (- d)).
Proof. intros. unfold diag_count, grid. rewrite diag_count_rows, !Z2Nat.id by lia. reflexivity. Qed.

Lemma tri_step k : 0 <= k -> Z.quot ((k + 1) * (k + 1 + 1)) 2 = Z.quot (k * (k + 1)) 2 + (k + 1).
Proof.
  intro. rewrite !Z.quot_div_nonneg by nia. replace ((k + 1) * (k + 1 + 1)) with (k * (k + 1) + (k + 1) * 2) by ring.
  rewrite Z.div_add by lia. reflexivity.
Qed.
Lemma tri_0 : Z.quot (0 * (0 + 1)) 2 = 0.
Proof. reflexivity. Qed.

Lemma band_num_step_hi cs rs lo hi : 0 < cs -> 0 < rs -> 0 <= lo -> 0 <= hi -> hi + 1 < rs ->
  band_num_elements cs rs lo (hi + 1) = band_num_elements cs rs lo hi + Z.max 0 (Z.min cs (rs - (hi + 1))).
Proof.
  intros. unfold band_num_elements. destruct (Z.eqb_spec cs 0); [lia|]. destruct (Z.eqb_spec rs 0); [lia|]. cbn [orb].
  destruct (Z.eqb_spec cs rs).
  { rewrite tri_step by lia. lia. }
  rewrite Z.gtb_ltb. destruct (Z.ltb_spec rs cs).
  { rewrite (tri_step hi) by lia. lia. }
  destruct (Z.leb_spec 0 (cs + hi - rs)).
  - replace (Z.max (cs + (hi + 1) - rs) 0) with (Z.max (cs + hi - rs) 0 + 1) by lia. rewrite tri_step by lia. lia.
  - replace (Z.max (cs + (hi + 1) - rs) 0) with 0 by lia. replace (Z.max (cs + hi - rs) 0) with 0 by lia. lia.
Qed.
Lemma band_num_step_lo cs rs lo hi : 0 < cs -> 0 < rs -> 0 <= lo -> 0 <= hi -> lo + 1 < cs ->
  band_num_elements cs rs (lo + 1) hi = band_num_elements cs rs lo hi + Z.max 0 (Z.min cs (rs + (lo + 1)) - (lo + 1)).
Proof.
  intros. unfold band_num_elements. destruct (Z.eqb_spec cs 0); [lia|]. destruct (Z.eqb_spec rs 0); [lia|]. cbn [orb].
  destruct (Z.eqb_spec cs rs).
  { rewrite tri_step by lia. lia. }
  rewrite Z.gtb_ltb. destruct (Z.ltb_spec rs cs).
  - destruct (Z.leb_spec 0 (rs + lo - cs)).
    + replace (Z.max (rs + (lo + 1) - cs) 0) with (Z.max (rs + lo - cs) 0 + 1) by lia. rewrite tri_step by lia. lia.
    + replace (Z.max (rs + (lo + 1) - cs) 0) with 0 by lia. replace (Z.max (rs + lo - cs) 0) with 0 by lia. lia.
  - rewrite (tri_step lo) by lia. lia.
Qed.

Lemma band_num_ok cs rs lo hi : 0 <= lo < cs -> 0 <= hi < rs ->
  band_num_elements cs rs lo hi = stored_count cs rs lo hi.
Proof.
  intros [Hlo Hlo'] [Hhi Hhi']. revert Hhi'. pattern hi. apply natlike_ind; [| |exact Hhi].
  - intros Hr. revert Hlo'. pattern lo. apply natlike_ind; [| |exact Hlo].
    + intros Hc. rewrite stored_00, diag_count_eq by lia. unfold band_num_elements.
      destruct (Z.eqb_spec cs 0); [lia|]. destruct (Z.eqb_spec rs 0); [lia|]. cbn [orb].
      destruct (Z.eqb_spec cs rs); [rewrite tri_0; lia|].
      rewrite Z.gtb_ltb. destruct (Z.ltb_spec rs cs).
      * replace (Z.max (rs + 0 - cs) 0) with 0 by lia. rewrite tri_0. lia.
      * replace (Z.max (cs + 0 - rs) 0) with 0 by lia. rewrite tri_0. lia.
    + intros x Hx IH Hc. unfold Z.succ in *. rewrite band_num_step_lo, stored_lo, diag_count_eq, IH by lia. lia.
  - intros x Hx IH Hc. unfold Z.succ in *. rewrite band_num_step_hi, stored_hi, diag_count_eq, IH by lia. lia.
Qed.
