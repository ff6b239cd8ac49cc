(** Properties C40 and C41: reading back matrices of every shape. *)
From Coq Require Import ZArith List Bool Ascii String Lia.
From Verif Require Import IO IOProofs IOVec IOMat IOTri IOSpecial.
Import ListNotations.

Definition left_at (st : stream) (rest : text) : Prop :=
  okst st = true /\ exists w, blank w = true /\ txt st = w ++ rest.
Lemma at_left fuel st k : at_text fuel st k -> left_at st k.
Proof. intros (H1 & _ & H2). split; auto. Qed.
(** The style separates numbers from what follows them, and the text after the
    matrix does not continue its last number. *)
Definition separates (C : codec) (s : style) (rest : text) : Prop :=
  starts_stop C (s_space s) /\ starts_stop C (s_rparen s ++ s_rowend s) /\
  stops C (s_rparen s ++ s_final s ++ rest).

(** C40.  Matrix *)
Theorem C40_round_trip : forall C s (m t0 : mat C) junk rest fuel,
  separates C s rest ->
  (forall i j, (i < mrows C m)%nat -> (j < mcols C m)%nat -> readable_value s C (melt C m i j)) ->
  (writesize s = true \/ mrows C t0 = mrows C m /\ mcols C t0 = mcols C m) ->
  (List.length (write_mat s C m ++ rest) < fuel)%nat ->
  exists m' st', read_mat fuel s C junk t0 (mkStream (write_mat s C m ++ rest) true) = Val tt m' st' /\
    mrows C m' = mrows C m /\ mcols C m' = mcols C m /\
    (forall i j, (i < mrows C m)%nat -> (j < mcols C m)%nat -> melt C m' i j = cout C (s_thresh s) (melt C m i j)) /\
    left_at st' rest.
Proof.
  intros C s m t0 junk rest fuel (H1 & H2 & H3) Hv Hw Hf.
  destruct (read_mat_ok fuel s C junk m t0 rest (conj H1 H2) Hv H3 Hw Hf) as (m' & st' & E & A & B & D & F).
  exists m', st'. repeat (split; [assumption|]). eapply at_left; eauto.
Qed.
Print Assumptions C40_round_trip.

Theorem C40_view_wrong_size : forall C s (m t0 : mat C) rest fuel,
  separates C s rest -> writesize s = true ->
  (mrows C t0 <> mrows C m \/ mcols C t0 <> mcols C m) ->
  (List.length (write_mat s C m ++ rest) < fuel)%nat ->
  exists st', read_mat_view fuel s C t0 (mkStream (write_mat s C m ++ rest) true) = Err t0 st'.
Proof. intros C s m t0 rest fuel (H1 & H2 & H3) Hw Hn Hf. apply read_mat_view_size; auto. split; auto. Qed.
Print Assumptions C40_view_wrong_size.

Definition bar_style : style :=
  st_useCode (st_markup (T_ "<") (T_ "[") (T_ " | ") (T_ "]") (T_ ";") (T_ ">") original_style).
Definition m23 : mat int_codec := mkMat int_codec 2 3 (fun i j => (10 * Z.of_nat i - Z.of_nat j)%Z).
Example C40_hyp :
  separates int_codec bar_style (T_ "x") /\ separates int_codec original_style [] /\
  separates int_codec (CompactIO original_style) [] /\ separates int_codec (EigenIO original_style) [nl] /\
  write_mat bar_style int_codec m23 = T_ "M | 2 | 3 | <[0 | -1 | -2];[10 | 9 | 8]>" /\
  write_mat (CompactIO original_style) int_codec m23 = T_ "M 2 3 0 -1 -2 10 9 8".
Proof. vm_compute. repeat split. Qed.

(** C41.  The codec gives text for every value; v0 and v1 are T(0) and T(1),
    veqb is operator== of the element type. *)
Definition zero_ok (C : codec) (s : style) (v0 : cval C) (veqb : cval C -> cval C -> bool) : Prop :=
  readable_value s C v0 /\ veqb (cout C (s_thresh s) v0) v0 = true.

(** UpperTriMatrix; ud is "the matrix has a unit diagonal", for writer and reader. *)
Theorem C41_upper_round_trip : forall C s v0 v1 veqb ud N e (t0 : mat C) junk rest fuel,
  separates C s rest -> zero_ok C s v0 veqb ->
  (forall i j, (i < N)%nat -> (j < N)%nat -> readable_value s C (e i j)) ->
  (ud = true -> forall i, (i < N)%nat -> veqb (cout C (s_thresh s) (e i i)) v1 = true) ->
  (writesize s = true \/ mrows C t0 = N) ->
  (List.length (write_sq s (T_ "U") N (upper_row s C v0 N e) ++ rest) < fuel)%nat ->
  exists m' st',
    read_sq fuel s C junk (T_ "U") (read_upper_row fuel s C v0 v1 veqb ud) t0
      (mkStream (write_sq s (T_ "U") N (upper_row s C v0 N e) ++ rest) true) = Val tt m' st' /\
    mrows C m' = N /\
    (forall i j, (i <= j < N)%nat -> (ud = true -> i <> j) -> melt C m' i j = cout C (s_thresh s) (e i j)) /\
    left_at st' rest.
Proof.
  intros C s v0 v1 veqb ud N e t0 junk rest fuel (H1 & H2 & H3) (Z1 & Z2) He Hu Hw Hf.
  destruct (read_sq_ok fuel s C junk (conj H1 H2) (T_ "U") N (upper_row s C v0 N e)
     (read_upper_row fuel s C v0 v1 veqb ud) t0
     (fun t k => set_rows s C ud (fun i => i) (fun i => (N - i)%nat) e t k) rest) as (st' & E & A); auto.
  { intros t i _ Hi. cbn [set_rows]. apply upper_row_ok; auto. split; auto. }
  do 2 eexists. split; [exact E|].
  match goal with |- context [set_rows s C ud _ _ e ?t N] => set (t1 := t) end.
  destruct (set_rows_spec s C ud (fun i => i) (fun i => (N - i)%nat) e t1 N) as (F1 & F2 & F3).
  split; [rewrite F1; unfold t1; destruct (Nat.eqb_spec N (mrows C t0)); auto|].
  split; [|eapply at_left; eauto].
  intros i j Hij Hne. rewrite F3. rewrite (proj2 (Nat.ltb_lt i N)), (proj2 (Nat.leb_le i j)), (proj2 (Nat.ltb_lt j _)) by lia.
  unfold kept. destruct ud; [|rewrite andb_false_r; reflexivity].
  rewrite (proj2 (Nat.eqb_neq j i)); [reflexivity|]. intro. apply Hne; auto.
Qed.
Print Assumptions C41_upper_round_trip.

Theorem C41_lower_round_trip : forall C s v0 v1 veqb ud N e (t0 : mat C) junk rest fuel,
  separates C s rest -> zero_ok C s v0 veqb ->
  (forall i j, (i < N)%nat -> (j < N)%nat -> readable_value s C (e i j)) ->
  (ud = true -> forall i, (i < N)%nat -> veqb (cout C (s_thresh s) (e i i)) v1 = true) ->
  (writesize s = true \/ mrows C t0 = N) ->
  (List.length (write_sq s (T_ "L") N (lower_row s C v0 N e) ++ rest) < fuel)%nat ->
  exists m' st',
    read_sq fuel s C junk (T_ "L") (read_lower_row fuel s C v0 v1 veqb ud) t0
      (mkStream (write_sq s (T_ "L") N (lower_row s C v0 N e) ++ rest) true) = Val tt m' st' /\
    mrows C m' = N /\
    (forall i j, (j <= i < N)%nat -> (ud = true -> i <> j) -> melt C m' i j = cout C (s_thresh s) (e i j)) /\
    left_at st' rest.
Proof.
  intros C s v0 v1 veqb ud N e t0 junk rest fuel (H1 & H2 & H3) (Z1 & Z2) He Hu Hw Hf.
  destruct (read_sq_ok fuel s C junk (conj H1 H2) (T_ "L") N (lower_row s C v0 N e)
     (read_lower_row fuel s C v0 v1 veqb ud) t0
     (fun t k => set_rows s C ud (fun i => 0%nat) (fun i => (i + 1)%nat) e t k) rest) as (st' & E & A); auto.
  { intros t i _ Hi. cbn [set_rows]. apply lower_row_ok; auto. split; auto. }
  do 2 eexists. split; [exact E|].
  match goal with |- context [set_rows s C ud _ _ e ?t N] => set (t1 := t) end.
  destruct (set_rows_spec s C ud (fun i => 0%nat) (fun i => (i + 1)%nat) e t1 N) as (F1 & F2 & F3).
  split; [rewrite F1; unfold t1; destruct (Nat.eqb_spec N (mrows C t0)); auto|].
  split; [|eapply at_left; eauto].
  intros i j Hij Hne. rewrite F3. rewrite (proj2 (Nat.ltb_lt i N)), (proj2 (Nat.ltb_lt j _)) by lia.
  cbn [Nat.leb andb]. unfold kept. destruct ud; [|rewrite andb_false_r; reflexivity].
  rewrite (proj2 (Nat.eqb_neq j i)); [reflexivity|]. intro. apply Hne; auto.
Qed.
Print Assumptions C41_lower_round_trip.

Theorem C41_diag_round_trip : forall C s v0 veqb N (d : nat -> cval C) (t0 : mat C) junk rest fuel,
  separates C s rest -> zero_ok C s v0 veqb ->
  (forall i, (i < N)%nat -> readable_value s C (d i)) ->
  (writesize s = true \/ mrows C t0 = N) ->
  (List.length (write_sq s (T_ "D") N (diag_row s C v0 N (fun i _ => d i)) ++ rest) < fuel)%nat ->
  exists m' st',
    read_sq fuel s C junk (T_ "D") (read_diag_row fuel s C v0 veqb) t0
      (mkStream (write_sq s (T_ "D") N (diag_row s C v0 N (fun i _ => d i)) ++ rest) true) = Val tt m' st' /\
    mrows C m' = N /\
    (forall i, (i < N)%nat -> melt C m' i i = cout C (s_thresh s) (d i)) /\
    left_at st' rest.
Proof.
  intros C s v0 veqb N d t0 junk rest fuel (H1 & H2 & H3) (Z1 & Z2) He Hw Hf.
  destruct (read_sq_ok fuel s C junk (conj H1 H2) (T_ "D") N (diag_row s C v0 N (fun i _ => d i))
     (read_diag_row fuel s C v0 veqb) t0
     (fun t k => set_rows s C false (fun i => i) (fun i => 1%nat) (fun i _ => d i) t k) rest) as (st' & E & A); auto.
  { intros t i _ Hi. cbn [set_rows]. apply (diag_row_ok fuel s C v0 veqb (conj H1 H2) Z1 Z2 N (fun i _ => d i)); auto. }
  do 2 eexists. split; [exact E|].
  match goal with |- context [set_rows s C false _ _ _ ?t N] => set (t1 := t) end.
  destruct (set_rows_spec s C false (fun i => i) (fun i => 1%nat) (fun i _ => d i) t1 N) as (F1 & F2 & F3).
  split; [rewrite F1; unfold t1; destruct (Nat.eqb_spec N (mrows C t0)); auto|].
  split; [|eapply at_left; eauto].
  intros i Hi. rewrite F3. rewrite (proj2 (Nat.ltb_lt i N)), (proj2 (Nat.leb_le i i)), (proj2 (Nat.ltb_lt i _)) by lia.
  unfold kept. rewrite andb_false_r. reflexivity.
Qed.
Print Assumptions C41_diag_round_trip.

(** SymMatrix (cj = identity) and HermMatrix (cj = conj), stored in either
    triangle, written into an object stored in either triangle. *)
Theorem C41_sym_round_trip : forall C s veqb up cj hreal code N e (t0 : mat C) junk rest fuel,
  separates C s rest ->
  (forall x, cj (cj x) = x) -> (forall x, cout C (s_thresh s) (cj x) = cj (cout C (s_thresh s) x)) ->
  (forall x, veqb x x = true) ->
  (forall i j, e i j = cj (e j i)) ->
  (forall i, (i < N)%nat -> hreal (cout C (s_thresh s) (e i i)) = true) ->
  (forall i j, (i < N)%nat -> (j < N)%nat -> readable_value s C (e i j)) ->
  (writesize s = true \/ mrows C t0 = N) ->
  (List.length (write_sq s code N (sym_row s C N e) ++ rest) < fuel)%nat ->
  exists m' st',
    read_sq fuel s C junk code (read_sym_row fuel s C veqb up cj hreal) t0
      (mkStream (write_sq s code N (sym_row s C N e) ++ rest) true) = Val tt m' st' /\
    mrows C m' = N /\
    (forall i j, (i < N)%nat -> (j < N)%nat -> sget C up cj m' i j = cout C (s_thresh s) (e i j)) /\
    left_at st' rest.
Proof.
  intros C s veqb up cj hreal code N e t0 junk rest fuel (H1 & H2 & H3) Hcj Hco Hr Hsym Hre He Hw Hf.
  destruct (read_sq_ok fuel s C junk (conj H1 H2) code N (sym_row s C N e)
     (read_sym_row fuel s C veqb up cj hreal) t0
     (fun t k => sym_rows s C up cj N e t k) rest) as (st' & E & A); auto.
  { intros t i _ Hi. apply sym_row_ok; auto. split; auto. }
  do 2 eexists. split; [exact E|].
  match goal with |- context [sym_rows s C up cj N e ?t N] => set (t1 := t) end.
  destruct (sym_rows_spec s C up cj Hcj N e Hsym Hco t1 N (le_n N)) as (F1 & F2 & F3).
  split; [rewrite F1; unfold t1; destruct (Nat.eqb_spec N (mrows C t0)); auto|].
  split; [|eapply at_left; eauto].
  intros i j Hi Hj. rewrite F3 by auto.
  destruct (usecompact s); [rewrite (proj2 (Nat.ltb_lt _ N)) by lia|rewrite (proj2 (Nat.ltb_lt _ N)) by lia]; reflexivity.
Qed.
Print Assumptions C41_sym_round_trip.

(** BandMatrix: when the style is compact, or no row lies wholly below the band,
    or the separator is white space. *)
Theorem C41_band_round_trip_partial : forall C s v0 veqb M N lo hi e lo0 hi0 (t0 : mat C) junk rest fuel,
  separates C s rest -> zero_ok C s v0 veqb -> (hi < N)%nat ->
  (forall i j, (i < M -> j < N -> i <= j + lo -> j <= i + hi -> readable_value s C (e i j))%nat) ->
  (usecompact s = true \/ (M <= N + lo)%nat \/ trim (s_space s) = []) ->
  (writesize s = true \/ mrows C t0 = M /\ mcols C t0 = N /\ lo0 = lo /\ hi0 = hi) ->
  (simplesize s = false \/ lo0 = lo /\ hi0 = hi) ->
  (List.length (write_band s C v0 M N lo hi e ++ rest) < fuel)%nat ->
  exists m' st', read_band fuel s C v0 veqb junk lo0 hi0 t0
      (mkStream (write_band s C v0 M N lo hi e ++ rest) true) = Val (lo, hi) m' st' /\
    mrows C m' = M /\ mcols C m' = N /\
    (forall i j, (i < M -> j < N -> i <= j + lo -> j <= i + hi -> melt C m' i j = cout C (s_thresh s) (e i j))%nat) /\
    left_at st' rest.
Proof.
  intros C s v0 veqb M N lo hi e lo0 hi0 t0 junk rest fuel (H1 & H2 & H3) (Z1 & Z2) Hhi He Hc Hw Hw2 Hf.
  destruct (read_band_ok fuel s C v0 veqb junk (conj H1 H2) Z1 Z2 M N lo hi e lo0 hi0 t0 rest) as (m' & st' & E & A & B & D & F); auto.
  exists m', st'. repeat (split; [assumption|]). eapply at_left; eauto.
Qed.
Print Assumptions C41_band_round_trip_partial.

(** The missing case really fails: a 3 x 1 band matrix with no sub-diagonals,
    written in a style whose separator is a comma, is rejected when read back. *)
Theorem C41_tall_band_refuted :
  exists s (e : nat -> nat -> Z), separates int_codec s [] /\ zero_ok int_codec s 0%Z Z.eqb /\
  (forall i j, readable_value s int_codec (e i j)) /\
  let t := write_band s int_codec 0%Z 3 1 0 0 e in
  exists m' st', read_band 99 s int_codec 0%Z Z.eqb (fun _ _ => 7%Z) 0 0 (mkMat int_codec 3 1 (fun _ _ => 0%Z))
    (mkStream t true) = Err m' st'.
Proof.
  exists (st_markup (T_ "<") (T_ "[") (T_ ", ") (T_ "]") (T_ ";") (T_ ">") original_style), (fun _ _ => 5%Z).
  split; [vm_compute; repeat split|]. split; [split; [apply int_readable|reflexivity]|].
  split; [intros; apply int_readable|]. cbv zeta. do 2 eexists. vm_compute. reflexivity.
Qed.
Print Assumptions C41_tall_band_refuted.

(** Views of the wrong size are rejected unchanged, for each square shape. *)
Theorem C41_view_wrong_size : forall C s code N row rowr (t0 : mat C) rest fuel,
  separates C s rest -> writesize s = true -> mrows C t0 <> N ->
  (List.length (write_sq s code N row ++ rest) < fuel)%nat ->
  exists st', read_sq_view fuel s C code rowr t0 (mkStream (write_sq s code N row ++ rest) true) = Err t0 st'.
Proof. intros C s code N row rowr t0 rest fuel (H1 & H2 & H3) Hw Hn Hf. apply read_sq_view_size; auto. split; auto. Qed.
Print Assumptions C41_view_wrong_size.

Definition e33 (i j : nat) : Z := (Z.of_nat (i * j) + 1 - 3 * Z.of_nat (i + j))%Z.
Example C41_hyp :
  zero_ok int_codec bar_style 0%Z Z.eqb /\
  write_sq bar_style (T_ "U") 3 (upper_row bar_style int_codec 0%Z 3 e33) =
    T_ "U | 3 | 3 | <[1 | -2 | -5];[0 | -4 | -6];[0 | 0 | -7]>" /\
  write_sq (CompactIO original_style) (T_ "S") 3 (sym_row (CompactIO original_style) int_codec 3 e33) =
    T_ "S 3 1 -2 -4 -5 -6 -7" /\
  write_sq bar_style (T_ "S") 3 (sym_row bar_style int_codec 3 e33) =
    T_ "S | 3 | 3 | <[1 | -2 | -5];[-2 | -4 | -6];[-5 | -6 | -7]>" /\
  write_band bar_style int_codec 0%Z 3 3 1 0 e33 =
    T_ "B | 3 | 3 | <[1 | 0 | 0];[-2 | -4 | 0];[0 | -6 | -7]>" /\
  (forall i j, e33 i j = e33 j i).
Proof.
  split; [split; [apply int_readable|reflexivity]|]. split; [reflexivity|]. split; [reflexivity|].
  split; [reflexivity|]. split; [reflexivity|].
  intros. unfold e33. rewrite (Nat.mul_comm j i), (Nat.add_comm j i). reflexivity.
Qed.
