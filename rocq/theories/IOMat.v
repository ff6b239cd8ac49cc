(** Text input and output of Matrix, UpperTriMatrix, LowerTriMatrix, DiagMatrix,
    BandMatrix and SymMatrix/HermMatrix. *)
From Coq Require Import ZArith List Bool Ascii String Lia.
From Verif Require Import IO IOProofs.
Import ListNotations.

Section Mat.
Variable fuel : nat.
Variable s : style.
Variable C : codec.
Notation V := (cval C).

(** A matrix being written or read: sizes and elements. *)
Record mat := mkMat { mrows : nat; mcols : nat; melt : nat -> nat -> V }.
Definition upd2 (f : nat -> nat -> V) i j x := fun a b => if Nat.eqb a i && Nat.eqb b j then x else f a b.
Definition mset i j x (m : mat) := mkMat (mrows m) (mcols m) (upd2 (melt m) i j x).

(** The common part of every matrix write: rows between lparen and rparen,
    separated by rowend, then final. *)
Definition write_rows (M : nat) (row : nat -> text) : text :=
  wloop M 0 (fun i => s_lparen s ++ row i ++ s_rparen s ++
                      (if Nat.ltb i (M - 1) then s_rowend s else [])) ++ s_final s.
Definition read_rows {T} (M : nat) (row : nat -> rd T unit) : rd T unit :=
  rseq (rloop M 0 (fun i =>
     rseq (must (read_lparen fuel s)) (rseq (row i) (rseq (must (read_rparen fuel s))
     (if Nat.ltb i (M - 1) then must (read_rowend fuel s) else rret tt)))))
  (must (read_final fuel s)).

(** Separators of the style end a number. *)
Definition style_ok : Prop :=
  starts_stop C (s_space s) /\ starts_stop C (s_rparen s ++ s_rowend s).

Lemma read_rows_ok {T} M row rowr (I : nat -> T) : style_ok ->
  (forall i, (i < M)%nat -> consumes fuel (stops C) (row i) (rowr i) (I i) tt (I (S i))) ->
  consumes fuel (fun k => stops C (s_rparen s ++ s_final s ++ k))
    (write_rows M row) (read_rows M rowr) (I 0%nat) tt (I M).
Proof.
  intros [_ Hre] Hrow. unfold write_rows, read_rows.
  eapply consumes_bind with (P' := fun k => stops C (s_rparen s ++ k)) (a := tt) (t' := I M).
  - apply (rloop_ok fuel _
      (fun i k => stops C (s_rparen s ++ (if Nat.ltb i (M - 1) then s_rowend s else []) ++ k)) _ _ I M 0%nat).
    + intros i Hi.
      eapply consumes_bind with (P' := always); [apply must_ok, read_str_ok| |intros; exact Logic.I].
      eapply consumes_bind with (P' := stops C) (a := tt) (t' := I (S i)).
      * apply Hrow. lia.
      * eapply consumes_bind with (P' := always); [apply must_ok, read_str_ok| |intros; exact Logic.I].
        destruct (Nat.ltb i (M - 1)).
        -- apply consumes_weaken with (P' := always); [intros; exact Logic.I|]. apply must_ok, read_str_ok.
        -- apply consumes_ret.
      * intros k Hk. rewrite <- app_assoc. exact Hk.
    + intros i k Hi. rewrite (proj2 (Nat.ltb_lt i (M - 1))) by lia.
      rewrite app_assoc. apply starts_stop_app, Hre.
    + intros i k Hi Hk. rewrite (proj2 (Nat.ltb_ge i (M - 1))) by lia. exact Hk.
  - apply consumes_weaken with (P' := always); [intros; exact Logic.I|]. apply must_ok, read_str_ok.
  - intros k Hk. exact Hk.
Qed.

(** The elements set by reading row i of n values with [store]. *)
Fixpoint fill {T} (store : nat -> nat -> V -> T -> T) (f : nat -> nat -> V) (n : nat -> nat) (M : nat) (t : T) : T :=
  match M with
  | O => t
  | S k => store_all s C (fun j => store k j) (f k) (n k) (fill store f n k t)
  end.

(** ** Matrix: write, FinishRead, read, TMV_Matrix.cpp:1120-1143, 1228-1358 *)
Definition write_mat (m : mat) : text :=
  write_code s (T_ "M") ++ write_size s (Z.of_nat (mrows m)) ++ write_size s (Z.of_nat (mcols m)) ++
  s_start s ++ write_rows (mrows m) (fun i => sep_values s C (mcols m) (melt m i)).
Definition finish_read_mat (M N : nat) : rd mat unit :=
  rseq (must (read_start fuel s))
       (read_rows M (fun i => read_values fuel s C N (fun j x => mset i j x))).
Variable junk : nat -> nat -> V.
Definition resize_mat (cs rs : Z) : rd mat unit :=
  if (cs <? 0)%Z || (rs <? 0)%Z then rundef
  else rput (fun _ => mkMat (Z.to_nat cs) (Z.to_nat rs) junk).
Definition read_mat : rd mat unit := fun m0 =>
  (rseq (must (read_code fuel s (T_ "M")))
  (rbind (must_size (read_size fuel s (Z.of_nat (mrows m0)))) (fun cs =>
   rbind (must_size (read_size fuel s (Z.of_nat (mcols m0)))) (fun rs =>
   rseq (if Z.eqb cs (Z.of_nat (mrows m0)) && Z.eqb rs (Z.of_nat (mcols m0)) then rret tt else resize_mat cs rs)
        (finish_read_mat (Z.to_nat cs) (Z.to_nat rs)))))) m0.
Definition read_mat_view : rd mat unit := fun m0 =>
  (rseq (must (read_code fuel s (T_ "M")))
  (rbind (must_size (read_size fuel s (Z.of_nat (mrows m0)))) (fun cs =>
   rbind (must_size (read_size fuel s (Z.of_nat (mcols m0)))) (fun rs =>
   if Z.eqb cs (Z.of_nat (mrows m0)) && Z.eqb rs (Z.of_nat (mcols m0))
   then finish_read_mat (mrows m0) (mcols m0) else rthrow)))) m0.

Lemma finish_mat_ok (m t : mat) : style_ok ->
  (forall i j, (i < mrows m)%nat -> (j < mcols m)%nat -> readable_value s C (melt m i j)) ->
  consumes fuel (fun k => stops C (s_rparen s ++ s_final s ++ k))
    (s_start s ++ write_rows (mrows m) (fun i => sep_values s C (mcols m) (melt m i)))
    (finish_read_mat (mrows m) (mcols m)) t tt
    (fill mset (melt m) (fun _ => mcols m) (mrows m) t).
Proof.
  intros Hs Hv. unfold finish_read_mat.
  eapply consumes_bind with (P' := always); [apply must_ok, read_str_ok| |intros; exact Logic.I].
  apply (read_rows_ok (mrows m) _ _ (fun i => fill mset (melt m) (fun _ => mcols m) i t)); auto.
  intros i Hi. cbn [fill]. apply read_values_ok; [apply Hs|]. intros j Hj. apply Hv; auto.
Qed.

Lemma row_fill i (f : nat -> V) n (t : mat) :
  let t' := store_all s C (fun j => mset i j) f n t in
  mrows t' = mrows t /\ mcols t' = mcols t /\
  forall a b, melt t' a b = if Nat.eqb a i && Nat.ltb b n then cout C (s_thresh s) (f b) else melt t a b.
Proof.
  cbv zeta. induction n as [|n (H1 & H2 & H3)]; cbn [store_all].
  - split; [reflexivity|]. split; [reflexivity|]. intros. rewrite andb_false_r. reflexivity.
  - split; [exact H1|]. split; [exact H2|]. intros a b. unfold mset at 1, upd2. cbn [melt]. rewrite H3.
    destruct (Nat.eqb_spec a i); cbn [andb]; [|reflexivity].
    destruct (Nat.eqb_spec b n) as [->|].
    + rewrite (proj2 (Nat.ltb_lt n (S n))) by lia. reflexivity.
    + destruct (Nat.ltb_spec b n), (Nat.ltb_spec b (S n)); try reflexivity; lia.
Qed.
Lemma mat_fill (f : nat -> nat -> V) n M (t : mat) :
  let t' := fill mset f n M t in
  mrows t' = mrows t /\ mcols t' = mcols t /\
  forall a b, melt t' a b = if Nat.ltb a M && Nat.ltb b (n a) then cout C (s_thresh s) (f a b) else melt t a b.
Proof.
  cbv zeta. induction M as [|M (H1 & H2 & H3)]; cbn [fill].
  - split; [reflexivity|]. split; reflexivity.
  - destruct (row_fill M (f M) (n M) (fill mset f n M t)) as (A1 & A2 & A3).
    split; [congruence|]. split; [congruence|]. intros a b. rewrite A3, H3.
    destruct (Nat.eqb_spec a M) as [->|].
    + rewrite (proj2 (Nat.ltb_lt M (S M))) by lia. rewrite (proj2 (Nat.ltb_ge M M)) by lia. reflexivity.
    + cbn [andb]. destruct (Nat.ltb_spec a M), (Nat.ltb_spec a (S M)); try reflexivity; lia.
Qed.

Lemma at_start k : (List.length k < fuel)%nat -> at_text fuel (mkStream k true) k.
Proof. intro H. split; [reflexivity|]. split; [exact H|]. exists []. auto. Qed.

Lemma read_mat_ok (m t0 : mat) rest : style_ok ->
  (forall i j, (i < mrows m)%nat -> (j < mcols m)%nat -> readable_value s C (melt m i j)) ->
  stops C (s_rparen s ++ s_final s ++ rest) ->
  (writesize s = true \/ mrows t0 = mrows m /\ mcols t0 = mcols m) ->
  (List.length (write_mat m ++ rest) < fuel)%nat ->
  exists m' st', read_mat t0 (mkStream (write_mat m ++ rest) true) = Val tt m' st' /\
    mrows m' = mrows m /\ mcols m' = mcols m /\
    (forall i j, (i < mrows m)%nat -> (j < mcols m)%nat -> melt m' i j = cout C (s_thresh s) (melt m i j)) /\
    at_text fuel st' rest.
Proof.
  intros Hs Hv Hr Hw Hf.
  set (same := Z.eqb (Z.of_nat (mrows m)) (Z.of_nat (mrows t0)) && Z.eqb (Z.of_nat (mcols m)) (Z.of_nat (mcols t0))).
  set (t1 := if same then t0 else mkMat (mrows m) (mcols m) junk).
  assert (Hl : mrows t1 = mrows m /\ mcols t1 = mcols m).
  { unfold t1, same. destruct (Z.eqb_spec (Z.of_nat (mrows m)) (Z.of_nat (mrows t0)));
    destruct (Z.eqb_spec (Z.of_nat (mcols m)) (Z.of_nat (mcols t0))); cbn; auto. lia. }
  assert (X : consumes fuel (fun k => stops C (s_rparen s ++ s_final s ++ k)) (write_mat m) (fun t st =>
     (rseq (must (read_code fuel s (T_ "M")))
     (rbind (must_size (read_size fuel s (Z.of_nat (mrows t0)))) (fun cs =>
      rbind (must_size (read_size fuel s (Z.of_nat (mcols t0)))) (fun rs =>
      rseq (if Z.eqb cs (Z.of_nat (mrows t0)) && Z.eqb rs (Z.of_nat (mcols t0)) then rret tt else resize_mat cs rs)
        (finish_read_mat (Z.to_nat cs) (Z.to_nat rs)))))) t st) t0 tt
      (fill mset (melt m) (fun _ => mcols m) (mrows m) t1)).
  { unfold write_mat.
    eapply consumes_bind with (P' := always); [apply must_ok, read_code_ok| |intros; exact Logic.I].
    eapply consumes_bind with (P' := always); [apply must_size_ok, (read_size_ok fuel s C); apply Hs| |intros; exact Logic.I].
    eapply consumes_bind with (P' := always); [apply must_size_ok, (read_size_ok fuel s C); apply Hs| |intros; exact Logic.I].
    replace (if writesize s then Z.of_nat (mrows m) else Z.of_nat (mrows t0)) with (Z.of_nat (mrows m))
      by (destruct (writesize s); [reflexivity|destruct Hw as [Hw|[Hw _]]; [discriminate|congruence]]).
    replace (if writesize s then Z.of_nat (mcols m) else Z.of_nat (mcols t0)) with (Z.of_nat (mcols m))
      by (destruct (writesize s); [reflexivity|destruct Hw as [Hw|[_ Hw]]; [discriminate|congruence]]).
    apply consumes_eq with (u' := [] ++ (s_start s ++ write_rows (mrows m) (fun i => sep_values s C (mcols m) (melt m i))));
      [reflexivity|].
    eapply consumes_bind with (P' := always) (t' := t1) (a := tt); [| |intros; exact Logic.I].
    - fold same. unfold t1. destruct same; [apply consumes_ret|]. unfold resize_mat.
      destruct (Z.ltb_spec (Z.of_nat (mrows m)) 0); [lia|].
      destruct (Z.ltb_spec (Z.of_nat (mcols m)) 0); [lia|]. cbn [orb]. rewrite !Nat2Z.id.
      apply (consumes_put fuel always (fun _ : mat => mkMat (mrows m) (mcols m) junk)).
    - rewrite !Nat2Z.id. apply finish_mat_ok; auto. }
  destruct (X rest _ Hr (at_start _ Hf)) as (st' & E & A).
  do 2 eexists. split; [exact E|].
  destruct (mat_fill (melt m) (fun _ => mcols m) (mrows m) t1) as (F1 & F2 & F3).
  split; [rewrite F1; apply Hl|]. split; [rewrite F2; apply Hl|]. split; [|exact A].
  intros i j Hi Hj. rewrite F3, (proj2 (Nat.ltb_lt _ _) Hi), (proj2 (Nat.ltb_lt _ _) Hj). reflexivity.
Qed.

Lemma read_mat_view_size (m t0 : mat) rest : style_ok -> writesize s = true ->
  (mrows t0 <> mrows m \/ mcols t0 <> mcols m) ->
  (List.length (write_mat m ++ rest) < fuel)%nat ->
  exists st', read_mat_view t0 (mkStream (write_mat m ++ rest) true) = Err t0 st'.
Proof.
  intros Hs Hw Hn Hf. unfold read_mat_view.
  pose proof (at_start _ Hf) as A. set (st := mkStream _ true) in *. clearbody st. unfold write_mat in A.
  rewrite <- app_assoc in A.
  destruct (must_ok fuel _ _ _ _ _ (read_code_ok fuel s t0 (T_ "M")) _ _ Logic.I A) as (st1 & E1 & A1).
  rewrite <- app_assoc in A1.
  destruct (must_size_ok fuel _ _ _ _ _ _
    (read_size_ok fuel s C t0 (Z.of_nat (mrows t0)) (Z.of_nat (mrows m)) (proj1 Hs)) _ _ Logic.I A1) as (st2 & E2 & A2).
  rewrite <- app_assoc in A2.
  destruct (must_size_ok fuel _ _ _ _ _ _
    (read_size_ok fuel s C t0 (Z.of_nat (mcols t0)) (Z.of_nat (mcols m)) (proj1 Hs)) _ _ Logic.I A2) as (st3 & E3 & A3).
  exists st3. unfold rseq, rbind. rewrite E1, E2, E3, Hw.
  destruct (Z.eqb_spec (Z.of_nat (mrows m)) (Z.of_nat (mrows t0)));
  destruct (Z.eqb_spec (Z.of_nat (mcols m)) (Z.of_nat (mcols t0))); try reflexivity. exfalso. lia.
Qed.
End Mat.
