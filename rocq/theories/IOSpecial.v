(** Text input and output of the special matrices: headers and whole objects. *)
From Coq Require Import ZArith List Bool Ascii String Lia.
From Verif Require Import IO IOProofs IOMat IOTri.
Import ListNotations.

Section Special.
Variable fuel : nat.
Variable s : style.
Variable C : codec.
Notation V := (cval C).
Notation mat := (mat C).
Variables (v0 v1 : V) (veqb : V -> V -> bool).
Variable junk : nat -> nat -> V.

(** ** Square special matrices
    write: TMV_TriMatrix.cpp:938-945, TMV_DiagMatrix.cpp:592-599,
    TMV_SymMatrix.cpp:882-890 *)
Definition write_sq (code : text) (N : nat) (row : nat -> text) : text :=
  write_code s code ++ write_size s (Z.of_nat N) ++ write_simple_size s (Z.of_nat N) ++
  s_start s ++ write_rows s N row.
(** the end of read: readSimpleSize, size check, FinishRead *)
Definition finish_sq (n : Z) (rowr : nat -> nat -> rd mat unit) : rd mat unit :=
  rbind (must_size (read_simple_size fuel s n)) (fun n2 =>
   if Z.eqb n2 n then rseq (must (read_start fuel s)) (read_rows fuel s (Z.to_nat n) (rowr (Z.to_nat n)))
   else rthrow).
Definition resize_sq (n : Z) : rd mat unit :=
  if (n <? 0)%Z then rundef else rput (fun _ => mkMat C (Z.to_nat n) (Z.to_nat n) junk).
(** read of an object, TMV_TriMatrix.cpp:1168-1212, 1490-1530;
    TMV_DiagMatrix.cpp:830-872; TMV_SymMatrix.cpp:1232-1320 (complex types) *)
Definition read_sq (code : text) (rowr : nat -> nat -> rd mat unit) : rd mat unit := fun m0 =>
  (rseq (must (read_code fuel s code))
  (rbind (must_size (read_size fuel s (Z.of_nat (mrows C m0)))) (fun n =>
   rseq (if Z.eqb n (Z.of_nat (mrows C m0)) then rret tt else resize_sq n) (finish_sq n rowr)))) m0.
(** read of a view, TMV_TriMatrix.cpp:1214-1262 and the like *)
Definition read_sq_view (code : text) (rowr : nat -> nat -> rd mat unit) : rd mat unit := fun m0 =>
  (rseq (must (read_code fuel s code))
  (rbind (must_size (read_size fuel s (Z.of_nat (mrows C m0)))) (fun n =>
   if Z.eqb n (Z.of_nat (mrows C m0)) then finish_sq n rowr else rthrow))) m0.

Hypothesis Hs : style_ok s C.

Lemma finish_sq_ok N row rowr (I : nat -> mat) :
  (forall i, (i < N)%nat -> consumes fuel (stops C) (row i) (rowr N i) (I i) tt (I (S i))) ->
  consumes fuel (fun k => stops C (s_rparen s ++ s_final s ++ k))
    (write_simple_size s (Z.of_nat N) ++ s_start s ++ write_rows s N row)
    (finish_sq (Z.of_nat N) rowr) (I 0%nat) tt (I N).
Proof.
  intro Hrow. unfold finish_sq.
  apply consumes_bind with (P' := always) (a := Z.of_nat N) (t' := I 0%nat); [| |intros; exact Logic.I].
  - unfold write_simple_size, read_simple_size. destruct (simplesize s).
    + apply must_size_ok.
      pose proof (read_size_ok fuel s C (I 0%nat) (Z.of_nat N) (Z.of_nat N) (proj1 Hs)) as X.
      destruct (writesize s) eqn:W; exact X.
    + apply must_size_ok, consumes_ret.
  - rewrite Z.eqb_refl, Nat2Z.id.
    apply consumes_bind with (P' := always) (a := tt) (t' := I 0%nat); [apply must_ok, read_str_ok| |intros; exact Logic.I].
    apply (read_rows_ok fuel s C N row (rowr N) I); auto.
Qed.

Lemma read_sq_ok code N row rowr (t0 : mat) (J : mat -> nat -> mat) rest :
  (forall t, J t 0%nat = t) ->
  (forall t i, mrows C t = N -> (i < N)%nat ->
     consumes fuel (stops C) (row i) (rowr N i) (J t i) tt (J t (S i))) ->
  stops C (s_rparen s ++ s_final s ++ rest) ->
  (writesize s = true \/ mrows C t0 = N) ->
  (List.length (write_sq code N row ++ rest) < fuel)%nat ->
  let t1 := if Nat.eqb N (mrows C t0) then t0 else mkMat C N N junk in
  exists st', read_sq code rowr t0 (mkStream (write_sq code N row ++ rest) true) = Val tt (J t1 N) st' /\
    at_text fuel st' rest.
Proof.
  intros HJ Hrow Hr Hw Hf t1.
  assert (Et : mrows C t1 = N).
  { unfold t1. destruct (Nat.eqb_spec N (mrows C t0)); auto. }
  assert (X : consumes fuel (fun k => stops C (s_rparen s ++ s_final s ++ k)) (write_sq code N row)
    (rseq (must (read_code fuel s code))
    (rbind (must_size (read_size fuel s (Z.of_nat (mrows C t0)))) (fun n =>
     rseq (if Z.eqb n (Z.of_nat (mrows C t0)) then rret tt else resize_sq n) (finish_sq n rowr)))) t0 tt (J t1 N)).
  { unfold write_sq.
    apply consumes_bind with (P' := always) (a := tt) (t' := t0); [apply must_ok, read_code_ok| |intros; exact Logic.I].
    eapply consumes_bind with (P' := always); [apply must_size_ok, (read_size_ok fuel s C); apply Hs| |intros; exact Logic.I].
    replace (if writesize s then Z.of_nat N else Z.of_nat (mrows C t0)) with (Z.of_nat N)
      by (destruct (writesize s); [reflexivity|destruct Hw as [Hw|Hw]; [discriminate|congruence]]).
    rewrite <- (app_nil_l (write_simple_size s (Z.of_nat N) ++ _)).
    apply consumes_bind with (P' := always) (a := tt) (t' := t1); [| |intros; exact Logic.I].
    - unfold t1. destruct (Z.eqb_spec (Z.of_nat N) (Z.of_nat (mrows C t0))).
      + rewrite (proj2 (Nat.eqb_eq N (mrows C t0))) by lia. apply consumes_ret.
      + rewrite (proj2 (Nat.eqb_neq N (mrows C t0))) by lia. unfold resize_sq.
        destruct (Z.ltb_spec (Z.of_nat N) 0); [lia|]. rewrite Nat2Z.id.
        apply (consumes_put fuel always (fun _ : mat => mkMat C N N junk)).
    - rewrite <- (HJ t1) at 1. apply finish_sq_ok. intros i Hi. apply Hrow; auto. }
  destruct (X rest _ Hr (at_start fuel _ Hf)) as (st' & E & A). exists st'. split; [exact E|exact A].
Qed.

Lemma read_sq_view_ok code N row rowr (t0 : mat) (J : mat -> nat -> mat) rest :
  (forall t, J t 0%nat = t) ->
  (forall t i, mrows C t = N -> (i < N)%nat ->
     consumes fuel (stops C) (row i) (rowr N i) (J t i) tt (J t (S i))) ->
  stops C (s_rparen s ++ s_final s ++ rest) -> mrows C t0 = N ->
  (List.length (write_sq code N row ++ rest) < fuel)%nat ->
  exists st', read_sq_view code rowr t0 (mkStream (write_sq code N row ++ rest) true) = Val tt (J t0 N) st' /\
    at_text fuel st' rest.
Proof.
  intros HJ Hrow Hr HN Hf.
  assert (X : consumes fuel (fun k => stops C (s_rparen s ++ s_final s ++ k)) (write_sq code N row)
    (rseq (must (read_code fuel s code))
    (rbind (must_size (read_size fuel s (Z.of_nat (mrows C t0)))) (fun n =>
     if Z.eqb n (Z.of_nat (mrows C t0)) then finish_sq n rowr else rthrow))) t0 tt (J t0 N)).
  { unfold write_sq.
    apply consumes_bind with (P' := always) (a := tt) (t' := t0); [apply must_ok, read_code_ok| |intros; exact Logic.I].
    eapply consumes_bind with (P' := always); [apply must_size_ok, (read_size_ok fuel s C); apply Hs| |intros; exact Logic.I].
    replace (if writesize s then Z.of_nat N else Z.of_nat (mrows C t0)) with (Z.of_nat N)
      by (destruct (writesize s); [reflexivity|congruence]).
    rewrite HN, Z.eqb_refl. rewrite <- (HJ t0) at 1. apply finish_sq_ok. intros i Hi. apply Hrow; auto. }
  destruct (X rest _ Hr (at_start fuel _ Hf)) as (st' & E & A). exists st'. split; [exact E|exact A].
Qed.

Lemma read_sq_view_size code N row rowr (t0 : mat) rest : writesize s = true -> mrows C t0 <> N ->
  (List.length (write_sq code N row ++ rest) < fuel)%nat ->
  exists st', read_sq_view code rowr t0 (mkStream (write_sq code N row ++ rest) true) = Err t0 st'.
Proof.
  intros Hw Hn Hf. unfold read_sq_view.
  pose proof (at_start fuel _ Hf) as A. set (st := mkStream _ true) in *. clearbody st. unfold write_sq in A.
  rewrite <- app_assoc in A.
  destruct (must_ok fuel _ _ _ _ _ (read_code_ok fuel s t0 code) _ _ Logic.I A) as (st1 & E1 & A1).
  rewrite <- app_assoc in A1.
  destruct (must_size_ok fuel _ _ _ _ _ _
    (read_size_ok fuel s C t0 (Z.of_nat (mrows C t0)) (Z.of_nat N) (proj1 Hs)) _ _ Logic.I A1) as (st2 & E2 & A2).
  exists st2. unfold rseq, rbind. rewrite E1, E2, Hw.
  destruct (Z.eqb_spec (Z.of_nat N) (Z.of_nat (mrows C t0))); [lia|reflexivity].
Qed.

(** ** Elements after reading rows that each set some columns *)
Hypothesis Hz : readable_value s C v0.
Hypothesis Hz0 : veqb (cout C (s_thresh s) v0) v0 = true.
Fixpoint set_rows (ud : bool) (lo n : nat -> nat) (e : nat -> nat -> V) (t : mat) (M : nat) : mat :=
  match M with O => t | S k => set_cols s C ud k (lo k) (n k) (e k) (set_rows ud lo n e t k) end.
Lemma set_rows_spec ud lo n e t M :
  let t' := set_rows ud lo n e t M in
  mrows C t' = mrows C t /\ mcols C t' = mcols C t /\
  forall a b, melt C t' a b =
    if Nat.ltb a M && (Nat.leb (lo a) b && Nat.ltb b (lo a + n a)) && kept ud a b
    then cout C (s_thresh s) (e a b) else melt C t a b.
Proof.
  cbv zeta. induction M as [|M (H1 & H2 & H3)]; cbn [set_rows].
  - split; [reflexivity|]. split; reflexivity.
  - destruct (set_cols_spec s C ud M (lo M) (n M) (e M) (set_rows ud lo n e t M)) as (A1 & A2 & A3).
    split; [congruence|]. split; [congruence|]. intros a b. rewrite A3, H3.
    destruct (Nat.eqb_spec a M) as [->|].
    + rewrite (proj2 (Nat.ltb_lt M (S M))) by lia. rewrite (proj2 (Nat.ltb_ge M M)) by lia. reflexivity.
    + cbn [andb]. destruct (Nat.ltb_spec a M), (Nat.ltb_spec a (S M)); try reflexivity; lia.
Qed.

(** ** Band matrices *)
(** j1 and j2 at row i as the loops of write and FinishRead update them,
    TMV_BandMatrix.cpp:1534-1535, 1565-1566, 1683-1684, 1796-1797 *)
Fixpoint jrange (lo hi N i : nat) : nat * nat :=
  match i with
  | O => (0%nat, S hi)
  | S k => let (j1, j2) := jrange lo hi N k in
           ((if Nat.leb lo k && Nat.ltb j1 N then S j1 else j1), (if Nat.ltb j2 N then S j2 else j2))
  end.
Lemma jrange_eq lo hi N i : (S hi <= N)%nat ->
  jrange lo hi N i = (Nat.min N (i - lo), Nat.min N (i + S hi)).
Proof.
  intro H. induction i as [|i IH]; cbn [jrange].
  - f_equal; lia.
  - rewrite IH. f_equal.
    + destruct (Nat.leb_spec lo i); cbn [andb]; [|lia].
      destruct (Nat.ltb_spec (Nat.min N (i - lo)) N); lia.
    + destruct (Nat.ltb_spec (Nat.min N (i + S hi)) N); lia.
Qed.
(** write, TMV_BandMatrix.cpp:1530-1573 *)
Definition write_band (M N lo hi : nat) (e : nat -> nat -> V) : text :=
  write_code s (T_ "B") ++ write_size s (Z.of_nat M) ++ write_size s (Z.of_nat N) ++
  write_full_size s (Z.of_nat lo) ++ write_full_size s (Z.of_nat hi) ++ s_start s ++
  write_rows s M (fun i => band_row s C v0 N e (fst (jrange lo hi N i)) (snd (jrange lo hi N i)) i).
Definition finish_band (M N lo hi : nat) : rd mat unit :=
  rseq (must (read_start fuel s))
    (read_rows fuel s M (fun i => read_band_row fuel s C v0 veqb N (fst (jrange lo hi N i)) (snd (jrange lo hi N i)) i)).
(** BandMatrix::read, TMV_BandMatrix.cpp:1805-1838; the target has bandwidths lo0, hi0;
    the result gives the bandwidths afterwards.  Negative sizes are undefined. *)
Definition resize_band (cs rs lo hi : Z) : rd mat unit :=
  if (cs <? 0)%Z || (rs <? 0)%Z || (lo <? 0)%Z || (hi <? 0)%Z then rundef
  else rput (fun _ => mkMat C (Z.to_nat cs) (Z.to_nat rs) junk).
Definition read_band (lo0 hi0 : nat) : rd mat (nat * nat) := fun m0 =>
  (rseq (must (read_code fuel s (T_ "B")))
  (rbind (must_size (read_size fuel s (Z.of_nat (mrows C m0)))) (fun cs =>
   rbind (must_size (read_size fuel s (Z.of_nat (mcols C m0)))) (fun rs =>
   rbind (must_size (read_full_size fuel s (Z.of_nat lo0))) (fun lo =>
   rbind (must_size (read_full_size fuel s (Z.of_nat hi0))) (fun hi =>
   rseq (if Z.eqb cs (Z.of_nat (mrows C m0)) && Z.eqb rs (Z.of_nat (mcols C m0)) &&
            Z.eqb lo (Z.of_nat lo0) && Z.eqb hi (Z.of_nat hi0) then rret tt else resize_band cs rs lo hi)
   (rseq (finish_band (Z.to_nat cs) (Z.to_nat rs) (Z.to_nat lo) (Z.to_nat hi))
         (rret (Z.to_nat lo, Z.to_nat hi))))))))) m0.

Lemma full_size_ok (t : mat) n0 n : (writesize s = true \/ n0 = n) -> (simplesize s = false \/ n0 = n) ->
  consumes fuel always (write_full_size s n) (must_size (read_full_size fuel s n0)) t n t.
Proof.
  intros H1 H2. unfold write_full_size, read_full_size. apply must_size_ok. destruct (simplesize s).
  - destruct H2 as [H2| ->]; [discriminate|]. apply consumes_ret.
  - pose proof (read_size_ok fuel s C t n0 n (proj1 Hs)) as X. destruct (writesize s); [exact X|].
    destruct H1 as [H1| ->]; [discriminate|]. exact X.
Qed.

Lemma read_band_ok M N lo hi (e : nat -> nat -> V) lo0 hi0 (t0 : mat) rest :
  (S hi <= N)%nat ->
  (forall i j, (i < M -> j < N -> i <= j + lo -> j <= i + hi -> readable_value s C (e i j))%nat) ->
  (usecompact s = true \/ (M <= N + lo)%nat \/ trim (s_space s) = []) ->
  stops C (s_rparen s ++ s_final s ++ rest) ->
  (writesize s = true \/ mrows C t0 = M /\ mcols C t0 = N /\ lo0 = lo /\ hi0 = hi) ->
  (simplesize s = false \/ lo0 = lo /\ hi0 = hi) ->
  (List.length (write_band M N lo hi e ++ rest) < fuel)%nat ->
  exists m' st', read_band lo0 hi0 t0 (mkStream (write_band M N lo hi e ++ rest) true) = Val (lo, hi) m' st' /\
    mrows C m' = M /\ mcols C m' = N /\
    (forall i j, (i < M -> j < N -> i <= j + lo -> j <= i + hi -> melt C m' i j = cout C (s_thresh s) (e i j))%nat) /\
    at_text fuel st' rest.
Proof.
  intros Hhi He Hc Hr Hw Hw2 Hf.
  set (same := Z.eqb (Z.of_nat M) (Z.of_nat (mrows C t0)) && Z.eqb (Z.of_nat N) (Z.of_nat (mcols C t0)) &&
            Z.eqb (Z.of_nat lo) (Z.of_nat lo0) && Z.eqb (Z.of_nat hi) (Z.of_nat hi0)).
  set (t1 := if same then t0 else mkMat C M N junk).
  assert (Hl : mrows C t1 = M /\ mcols C t1 = N).
  { unfold t1. destruct same eqn:E; [|auto]. unfold same in E. rewrite !andb_true_iff, !Z.eqb_eq in E. lia. }
  set (jlo := fun i => fst (jrange lo hi N i)). set (jn := fun i => (snd (jrange lo hi N i) - fst (jrange lo hi N i))%nat).
  assert (X : consumes fuel (fun k => stops C (s_rparen s ++ s_final s ++ k)) (write_band M N lo hi e)
    (rseq (must (read_code fuel s (T_ "B")))
  (rbind (must_size (read_size fuel s (Z.of_nat (mrows C t0)))) (fun cs =>
   rbind (must_size (read_size fuel s (Z.of_nat (mcols C t0)))) (fun rs =>
   rbind (must_size (read_full_size fuel s (Z.of_nat lo0))) (fun lo =>
   rbind (must_size (read_full_size fuel s (Z.of_nat hi0))) (fun hi =>
   rseq (if Z.eqb cs (Z.of_nat (mrows C t0)) && Z.eqb rs (Z.of_nat (mcols C t0)) &&
            Z.eqb lo (Z.of_nat lo0) && Z.eqb hi (Z.of_nat hi0) then rret tt else resize_band cs rs lo hi)
   (rseq (finish_band (Z.to_nat cs) (Z.to_nat rs) (Z.to_nat lo) (Z.to_nat hi))
         (rret (Z.to_nat lo, Z.to_nat hi))))))))) t0 (lo, hi) (set_rows false jlo jn e t1 M)).
  { unfold write_band.
    apply consumes_bind with (P' := always) (a := tt) (t' := t0); [apply must_ok, read_code_ok| |intros; exact Logic.I].
    eapply consumes_bind with (P' := always); [apply must_size_ok, (read_size_ok fuel s C); apply Hs| |intros; exact Logic.I].
    eapply consumes_bind with (P' := always); [apply must_size_ok, (read_size_ok fuel s C); apply Hs| |intros; exact Logic.I].
    replace (if writesize s then Z.of_nat M else Z.of_nat (mrows C t0)) with (Z.of_nat M)
      by (destruct (writesize s); [reflexivity|destruct Hw as [Hw|(Hw & _)]; [discriminate|congruence]]).
    replace (if writesize s then Z.of_nat N else Z.of_nat (mcols C t0)) with (Z.of_nat N)
      by (destruct (writesize s); [reflexivity|destruct Hw as [Hw|(_ & Hw & _)]; [discriminate|congruence]]).
    apply consumes_bind with (P' := always) (a := Z.of_nat lo) (t' := t0); [apply full_size_ok| |intros; exact Logic.I].
    { destruct Hw as [Hw|Hw]; [auto|right; f_equal; tauto]. }
    { destruct Hw2 as [Hw2|Hw2]; [auto|right; f_equal; tauto]. }
    apply consumes_bind with (P' := always) (a := Z.of_nat hi) (t' := t0); [apply full_size_ok| |intros; exact Logic.I].
    { destruct Hw as [Hw|Hw]; [auto|right; f_equal; tauto]. }
    { destruct Hw2 as [Hw2|Hw2]; [auto|right; f_equal; tauto]. }
    match goal with |- consumes _ _ ?u _ _ _ _ => rewrite <- (app_nil_l u) end.
    apply consumes_bind with (P' := always) (a := tt) (t' := t1); [| |intros; exact Logic.I].
    - fold same. unfold t1. destruct same; [apply consumes_ret|]. unfold resize_band.
      repeat match goal with |- context [Z.ltb (Z.of_nat ?a) 0] => destruct (Z.ltb_spec (Z.of_nat a) 0); [lia|] end.
      cbn [orb]. rewrite !Nat2Z.id. apply (consumes_put fuel always (fun _ : mat => mkMat C M N junk)).
    - rewrite !Nat2Z.id.
      match goal with |- consumes _ _ ?u _ _ _ _ => rewrite <- (app_nil_r u) end.
      apply consumes_bind with (P' := fun k => stops C (s_rparen s ++ s_final s ++ k)) (a := tt) (t' := set_rows false jlo jn e t1 M);
        [|apply consumes_ret|auto].
      unfold finish_band.
      apply consumes_bind with (P' := always) (a := tt) (t' := t1); [apply must_ok, read_str_ok| |intros; exact Logic.I].
      apply (read_rows_ok fuel s C M _ _ (fun i => set_rows false jlo jn e t1 i)); auto.
      intros i Hi. cbn [set_rows]. unfold jlo, jn.
      apply band_row_ok; auto; rewrite jrange_eq by exact Hhi; cbn [fst snd].
      + intros j Hj. apply He; lia.
      + lia.
      + destruct Hc as [Hc|[Hc|Hc]]; auto. destruct (Nat.lt_ge_cases (Nat.min N (i - lo)) N); auto. exfalso. lia. }
  destruct (X rest _ Hr (at_start fuel _ Hf)) as (st' & E & A).
  do 2 eexists. split; [exact E|].
  destruct (set_rows_spec false jlo jn e t1 M) as (F1 & F2 & F3).
  split; [rewrite F1; apply Hl|]. split; [rewrite F2; apply Hl|]. split; [|exact A].
  intros i j Hi Hj H1 H2. rewrite F3, (proj2 (Nat.ltb_lt _ _) Hi). unfold jlo, jn, kept.
  rewrite jrange_eq by exact Hhi. cbn [fst snd]. rewrite andb_false_r.
  rewrite (proj2 (Nat.leb_le _ _)), (proj2 (Nat.ltb_lt _ _)) by lia. reflexivity.
Qed.

(** ** Symmetric and Hermitian matrices: only one triangle is stored *)
Variable up : bool.            (* uplo() == Upper *)
Variable cj : V -> V.          (* conj for Herm, identity for Sym *)
Variable herm_real : V -> bool.  (* Herm: IMAG(x) == 0; Sym: always true *)
Definition stored (i j : nat) : bool := if up then Nat.leb i j else Nat.leb j i.
(** cref and ref, TMV_SymMatrix.cpp:52-75, 77-95 *)
Definition sget (m : mat) (i j : nat) : V := if stored i j then melt C m i j else cj (melt C m j i).
Definition sset (i j : nat) (x : V) (m : mat) : mat :=
  if stored i j then mset C i j x m else mset C j i (cj x) m.
(** FinishRead row, TMV_SymMatrix.cpp:1094-1185 *)
Definition sym_act (i j : nat) (x : V) : rd mat unit :=
  if Nat.eqb j i && negb (herm_real x) then rthrow
  else if Nat.ltb j i && negb (usecompact s)
       then (fun m st => if veqb x (cj (sget m j i)) then Val tt m st else Err m st)
       else rput (sset i j x).
Definition read_sym_row (N i : nat) : rd mat unit :=
  rseq (r_sep fuel s C (i + 1) 0 (sym_act i))
       (if usecompact s then rret tt
        else r_post fuel s C (N - (i + 1)) (i + 1) (fun j x => rput (sset i j x))).

Hypothesis Hcj : forall x, cj (cj x) = x.
Lemma sget_sset i j x m a b :
  sget (sset i j x m) a b =
    if Nat.eqb a i && Nat.eqb b j then x
    else if Nat.eqb a j && Nat.eqb b i then cj x else sget m a b.
Proof.
  unfold sget, sset, stored. destruct up.
  - destruct (Nat.leb_spec i j) as [H|H]; destruct (Nat.leb_spec a b) as [H'|H']; unfold mset, upd2; cbn [melt];
    destruct (Nat.eqb_spec a i); destruct (Nat.eqb_spec b j); destruct (Nat.eqb_spec a j); destruct (Nat.eqb_spec b i);
    cbn [andb]; try lia; rewrite ?Hcj; try reflexivity; try (exfalso; lia);
    repeat match goal with |- context [Nat.eqb ?p ?q] => destruct (Nat.eqb_spec p q); try lia end; cbn [andb]; rewrite ?Hcj; try reflexivity; lia.
  - destruct (Nat.leb_spec j i) as [H|H]; destruct (Nat.leb_spec b a) as [H'|H']; unfold mset, upd2; cbn [melt];
    destruct (Nat.eqb_spec a i); destruct (Nat.eqb_spec b j); destruct (Nat.eqb_spec a j); destruct (Nat.eqb_spec b i);
    cbn [andb]; try lia; rewrite ?Hcj; try reflexivity; try (exfalso; lia);
    repeat match goal with |- context [Nat.eqb ?p ?q] => destruct (Nat.eqb_spec p q); try lia end; cbn [andb]; rewrite ?Hcj; try reflexivity; lia.
Qed.

(** sset of columns [lo,lo+n) of row i with the values read *)
Fixpoint sym_cols (i lo n : nat) (f : nat -> V) (t : mat) : mat :=
  match n with O => t | S k => sset i (lo + k) (cout C (s_thresh s) (f (lo + k)%nat)) (sym_cols i lo k f t) end.
Fixpoint sym_rows (N : nat) (e : nat -> nat -> V) (t : mat) (k : nat) : mat :=
  match k with
  | O => t
  | S i => if usecompact s then sym_cols i 0 (i + 1) (e i) (sym_rows N e t i)
           else sym_cols i i (N - i) (e i) (sym_rows N e t i)
  end.
Section Sym.
Variables (N : nat) (e : nat -> nat -> V).
Hypothesis Hsym : forall i j, e i j = cj (e j i).
Hypothesis Hco : forall x, cout C (s_thresh s) (cj x) = cj (cout C (s_thresh s) x).
Hypothesis Hrefl : forall x, veqb x x = true.
Hypothesis Hreal : forall i, (i < N)%nat -> herm_real (cout C (s_thresh s) (e i i)) = true.
Hypothesis He : forall i j, (i < N)%nat -> (j < N)%nat -> readable_value s C (e i j).

Lemma sset_size i j x m : mrows C (sset i j x m) = mrows C m /\ mcols C (sset i j x m) = mcols C m.
Proof. unfold sset. destruct (stored i j); split; reflexivity. Qed.
Lemma sym_cols_spec i lo n t :
  let t' := sym_cols i lo n (e i) t in
  mrows C t' = mrows C t /\ mcols C t' = mcols C t /\
  forall a b, sget t' a b =
    if Nat.eqb a i && (Nat.leb lo b && Nat.ltb b (lo + n)) || Nat.eqb b i && (Nat.leb lo a && Nat.ltb a (lo + n))
    then cout C (s_thresh s) (e a b) else sget t a b.
Proof.
  cbv zeta. induction n as [|n (H1 & H2 & H3)]; cbn [sym_cols].
  - split; [reflexivity|]. split; [reflexivity|]. intros a b. rewrite Nat.add_0_r.
    destruct (Nat.leb_spec lo b), (Nat.ltb_spec b lo), (Nat.leb_spec lo a), (Nat.ltb_spec a lo); cbn [andb orb]; try lia;
    rewrite ?andb_false_r; reflexivity.
  - destruct (sset_size i (lo + n) (cout C (s_thresh s) (e i (lo + n)%nat)) (sym_cols i lo n (e i) t)) as [A1 A2].
    split; [congruence|]. split; [congruence|]. intros a b. rewrite sget_sset, H3, <- Hco, <- Hsym.
    destruct (Nat.eqb_spec a i); destruct (Nat.eqb_spec b i); destruct (Nat.eqb_spec a (lo + n)); destruct (Nat.eqb_spec b (lo + n));
    destruct (Nat.leb_spec lo a); destruct (Nat.leb_spec lo b); destruct (Nat.ltb_spec a (lo + n)); destruct (Nat.ltb_spec b (lo + n));
    destruct (Nat.ltb_spec a (lo + S n)); destruct (Nat.ltb_spec b (lo + S n)); cbn [andb orb]; try reflexivity; try lia; subst; reflexivity.
Qed.
Lemma sym_rows_spec t k : (k <= N)%nat ->
  let t' := sym_rows N e t k in
  mrows C t' = mrows C t /\ mcols C t' = mcols C t /\
  forall a b, (a < N)%nat -> (b < N)%nat -> sget t' a b =
    if (if usecompact s then Nat.ltb (Nat.max a b) k else Nat.ltb (Nat.min a b) k)
    then cout C (s_thresh s) (e a b) else sget t a b.
Proof.
  cbv zeta. induction k as [|k IH]; intro Hk; cbn [sym_rows].
  - split; [reflexivity|]. split; [reflexivity|]. intros. destruct (usecompact s); reflexivity.
  - destruct IH as (H1 & H2 & H3); [lia|]. destruct (usecompact s).
    + destruct (sym_cols_spec k 0 (k + 1) (sym_rows N e t k)) as (A1 & A2 & A3).
      split; [congruence|]. split; [congruence|]. intros a b Ha Hb. rewrite A3, H3 by auto.
      destruct (Nat.eqb_spec a k); destruct (Nat.eqb_spec b k);
      destruct (Nat.ltb_spec a (0 + (k + 1))); destruct (Nat.ltb_spec b (0 + (k + 1)));
      destruct (Nat.ltb_spec (Nat.max a b) k); destruct (Nat.ltb_spec (Nat.max a b) (S k)); cbn [andb orb Nat.leb]; try reflexivity; lia.
    + destruct (sym_cols_spec k k (N - k) (sym_rows N e t k)) as (A1 & A2 & A3).
      split; [congruence|]. split; [congruence|]. intros a b Ha Hb. rewrite A3, H3 by auto.
      destruct (Nat.eqb_spec a k); destruct (Nat.eqb_spec b k);
      destruct (Nat.ltb_spec a (k + (N - k))); destruct (Nat.ltb_spec b (k + (N - k)));
      destruct (Nat.leb_spec k a); destruct (Nat.leb_spec k b);
      destruct (Nat.ltb_spec (Nat.min a b) k); destruct (Nat.ltb_spec (Nat.min a b) (S k)); cbn [andb orb]; try reflexivity; lia.
Qed.

Lemma sym_cols_app i lo n m t :
  sym_cols i lo (n + m) (e i) t = sym_cols i (lo + n) m (e i) (sym_cols i lo n (e i) t).
Proof.
  induction m as [|m IH]; [rewrite Nat.add_0_r; reflexivity|].
  rewrite Nat.add_succ_r. cbn [sym_cols]. rewrite IH, Nat.add_assoc. reflexivity.
Qed.

Lemma sym_row_ok t i : (i < N)%nat ->
  consumes fuel (stops C) (sym_row s C N e i) (read_sym_row N i) (sym_rows N e t i) tt (sym_rows N e t (S i)).
Proof.
  intro Hi. destruct (sym_rows_spec t i ltac:(lia)) as (_ & _ & HG). cbn [sym_rows].
  set (ti := sym_rows N e t i) in *. clearbody ti.
  unfold sym_row, read_sym_row. destruct (usecompact s) eqn:U.
  - eapply consumes_bind with (P' := stops C) (a := tt); [|apply consumes_ret|auto].
    assert (X : consumes fuel (stops C) (w_sep s C (i + 1) 0 (e i)) (r_sep fuel s C (i + 1) 0 (sym_act i))
      ((fun j => sym_cols i 0 j (e i) ti) 0%nat) tt ((fun j => sym_cols i 0 j (e i) ti) (0 + (i + 1))%nat)).
    { apply (sep_ok fuel s C Hs (i + 1) 0 (e i) (sym_act i) (fun j => sym_cols i 0 j (e i) ti)); auto.
      - intros j Hj. apply He; lia.
      - intros j Hj. unfold sym_act. rewrite U. rewrite andb_false_r.
        replace (Nat.eqb j i && negb (herm_real (cout C (s_thresh s) (e i j)))) with false
          by (destruct (Nat.eqb_spec j i) as [->|]; [rewrite Hreal by auto|]; reflexivity).
        apply (consumes_put fuel always (sset i j (cout C (s_thresh s) (e i j)))). }
    exact X.
  - apply consumes_bind with (P' := stops C) (a := tt) (t' := sym_cols i i 1 (e i) ti).
    + assert (X : consumes fuel (stops C) (w_sep s C (i + 1) 0 (e i)) (r_sep fuel s C (i + 1) 0 (sym_act i))
      ((fun j => if Nat.leb j i then ti else sym_cols i i 1 (e i) ti) 0%nat) tt ((fun j => if Nat.leb j i then ti else sym_cols i i 1 (e i) ti) (0 + (i + 1))%nat)).
      { apply (sep_ok fuel s C Hs (i + 1) 0 (e i) (sym_act i) (fun j => if Nat.leb j i then ti else sym_cols i i 1 (e i) ti)); auto.
        - intros j Hj. apply He; lia.
        - intros j Hj. unfold sym_act. rewrite U. cbn [negb]. rewrite andb_true_r.
          rewrite (proj2 (Nat.leb_le j i)) by lia.
          destruct (Nat.eqb_spec j i) as [->|].
          + cbn [andb]. rewrite Hreal by auto. cbn [negb]. rewrite Nat.ltb_irrefl.
            rewrite (proj2 (Nat.leb_gt (S i) i)) by lia. cbn [sym_cols]. rewrite Nat.add_0_r.
            apply (consumes_put fuel always (sset i i (cout C (s_thresh s) (e i i)))).
          + cbn [andb]. rewrite (proj2 (Nat.ltb_lt j i)) by lia. rewrite (proj2 (Nat.leb_le (S j) i)) by lia.
            intros k st _ A. rewrite HG by lia. rewrite Nat.min_l by lia. rewrite (proj2 (Nat.ltb_lt j i)) by lia.
            rewrite <- Hco, <- Hsym, Hrefl. exists st. auto. }
      cbv beta in X. rewrite (proj2 (Nat.leb_gt (0 + (i + 1)) i)) in X by lia. exact X.
    + replace (N - i)%nat with (1 + (N - (i + 1)))%nat by lia. rewrite sym_cols_app.
      set (t2 := sym_cols i i 1 (e i) ti).
      assert (X : consumes fuel (stops C) (w_post s C (N - (i + 1)) (i + 1) (e i))
        (r_post fuel s C (N - (i + 1)) (i + 1) (fun j x => rput (sset i j x)))
        ((fun j => sym_cols i (i + 1) (j - (i + 1)) (e i) t2) (i + 1)%nat) tt
        ((fun j => sym_cols i (i + 1) (j - (i + 1)) (e i) t2) (i + 1 + (N - (i + 1)))%nat)).
      { apply (post_ok fuel s C Hs (N - (i + 1)) (i + 1) (e i) (fun j x => rput (sset i j x)) (fun j => sym_cols i (i + 1) (j - (i + 1)) (e i) t2)); auto.
        - intros j Hj. apply He; lia.
        - intros j Hj. replace (S j - (i + 1))%nat with (S (j - (i + 1))) by lia. cbn [sym_cols].
          replace (i + 1 + (j - (i + 1)))%nat with j by lia.
          apply (consumes_put fuel always (sset i j (cout C (s_thresh s) (e i j)))). }
      cbv beta in X. rewrite Nat.sub_diag in X.
      replace (i + 1 + (N - (i + 1)) - (i + 1))%nat with (N - (i + 1))%nat in X by lia. exact X.
    + intros k Hk. apply post_stops; auto.
Qed.
End Sym.
End Special.
