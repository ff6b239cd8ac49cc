(** Vector input/output: round trip, and the non-terminating cases. *)
From Coq Require Import ZArith List Bool Ascii String Lia.
From Verif Require Import IO IOProofs.
Import ListNotations.

Section V.
Variable fuel : nat.
Variable s : style.
Variable C : codec.
Variable junk : nat -> cval C.

Lemma store_all_vset (f : nat -> cval C) n (v : vec C) :
  vlen C (store_all s C (vset C) f n v) = vlen C v /\
  (forall i, (i < n)%nat -> velt C (store_all s C (vset C) f n v) i = cout C (s_thresh s) (f i)) /\
  (forall i, (n <= i)%nat -> velt C (store_all s C (vset C) f n v) i = velt C v i).
Proof.
  induction n as [|n (H1 & H2 & H3)]; cbn [store_all].
  - split; [reflexivity|]. split; [intros; lia|reflexivity].
  - split; [exact H1|]. unfold vset at 1 3, upd. cbn [velt]. split; intros i Hi.
    + destruct (Nat.eqb_spec i n) as [->|]; [reflexivity|]. apply H2. lia.
    + destruct (Nat.eqb_spec i n) as [->|]; [lia|]. apply H3. lia.
Qed.

Lemma finish_read_ok (v : vec C) (t : vec C) :
  starts_stop C (s_space s) -> (forall i, (i < vlen C v)%nat -> readable_value s C (velt C v i)) ->
  consumes fuel (fun k => stops C (s_rparen s ++ k))
    (s_lparen s ++ sep_values s C (vlen C v) (velt C v) ++ s_rparen s)
    (finish_read_vec fuel s C (vlen C v)) t tt
    (store_all s C (vset C) (velt C v) (vlen C v) t).
Proof.
  intros Hs Hv. unfold finish_read_vec. unfold rseq at 1.
  eapply consumes_bind with (P' := always); [apply must_ok, read_str_ok| |intros; exact I].
  eapply consumes_bind with (P' := stops C); [apply read_values_ok; auto| |intros k Hk; exact Hk].
  eapply consumes_weaken; [|apply must_ok, read_str_ok]. intros; exact I.
Qed.

(** [v] written, then read into [t0]; [rest] is what follows in the stream. *)
Lemma read_vec_ok (v t0 : vec C) rest :
  starts_stop C (s_space s) -> (forall i, (i < vlen C v)%nat -> readable_value s C (velt C v i)) ->
  stops C (s_rparen s ++ rest) -> (writesize s = true \/ vlen C t0 = vlen C v) ->
  (List.length (write_vec s C v ++ rest) < fuel)%nat ->
  exists v' st', read_vec fuel s C junk t0 (mkStream (write_vec s C v ++ rest) true) = Val tt v' st' /\
    vlen C v' = vlen C v /\
    (forall i, (i < vlen C v)%nat -> velt C v' i = cout C (s_thresh s) (velt C v i)) /\
    at_text fuel st' rest.
Proof.
  intros Hs Hv Hr Hw Hf. set (t1 := if Nat.eqb (vlen C v) (vlen C t0) then t0 else mkVec C (vlen C v) junk).
  assert (Hl1 : vlen C t1 = vlen C v).
  { unfold t1. destruct (Nat.eqb_spec (vlen C v) (vlen C t0)); [auto|reflexivity]. }
  assert (X : consumes fuel (fun k => stops C (s_rparen s ++ k)) (write_vec s C v) (read_vec fuel s C junk) t0 tt
    (store_all s C (vset C) (velt C v) (vlen C v) t1)).
  { intros k st Hk Ha. unfold read_vec, write_vec in *.
    set (Z1 := rseq _ _).
    assert (Y : consumes fuel (fun k => stops C (s_rparen s ++ k)) (write_code s (T_ "V") ++
       write_size s (Z.of_nat (vlen C v)) ++ ([] ++ (s_lparen s ++ sep_values s C (vlen C v) (velt C v) ++ s_rparen s)))
       Z1 t0 tt (store_all s C (vset C) (velt C v) (vlen C v) t1)).
    { unfold Z1. unfold rseq at 1.
      eapply consumes_bind with (P' := always); [apply must_ok, read_code_ok| |intros; exact I].
      eapply consumes_bind with (P' := always); [apply must_size_ok, (read_size_ok fuel s C); exact Hs| |intros; exact I].
      replace (if writesize s then Z.of_nat (vlen C v) else Z.of_nat (vlen C t0)) with (Z.of_nat (vlen C v))
        by (destruct (writesize s); [reflexivity|destruct Hw as [Hw|Hw]; [discriminate|congruence]]).
      eapply consumes_bind with (P' := always) (t' := t1) (a := tt); [| |intros; exact I].
      - unfold t1. destruct (Nat.eqb_spec (vlen C v) (vlen C t0)) as [E|E].
        + rewrite E, Z.eqb_refl. apply consumes_ret.
        + rewrite (proj2 (Z.eqb_neq _ _)) by lia. unfold resize_vec.
          destruct (Z.ltb_spec (Z.of_nat (vlen C v)) 0); [lia|].
          pose proof (consumes_put fuel always (fun _ : vec C => mkVec C (Z.to_nat (Z.of_nat (vlen C v))) junk) t0) as Q.
          rewrite Nat2Z.id in *. exact Q.
      - rewrite Nat2Z.id. apply finish_read_ok; auto. }
    apply (Y k st Hk). unfold sep_values. cbn [app]. exact Ha. }
  destruct (X rest (mkStream (write_vec s C v ++ rest) true) Hr) as (st' & E & A).
  { split; [reflexivity|]. split; [exact Hf|]. exists []. auto. }
  exists (store_all s C (vset C) (velt C v) (vlen C v) t1), st'. split; [exact E|].
  destruct (store_all_vset (velt C v) (vlen C v) t1) as (S1 & S2 & _).
  split; [congruence|]. split; auto.
Qed.

(** The same for a VectorView of the right size. *)
Lemma read_view_ok (v t0 : vec C) rest :
  starts_stop C (s_space s) -> (forall i, (i < vlen C v)%nat -> readable_value s C (velt C v i)) ->
  stops C (s_rparen s ++ rest) -> vlen C t0 = vlen C v ->
  (List.length (write_vec s C v ++ rest) < fuel)%nat ->
  exists v' st', read_vec_view fuel s C t0 (mkStream (write_vec s C v ++ rest) true) = Val tt v' st' /\
    vlen C v' = vlen C v /\
    (forall i, (i < vlen C v)%nat -> velt C v' i = cout C (s_thresh s) (velt C v i)) /\
    at_text fuel st' rest.
Proof.
  intros Hs Hv Hr Hw Hf.
  assert (X : consumes fuel (fun k => stops C (s_rparen s ++ k)) (write_vec s C v) (read_vec_view fuel s C) t0 tt
    (store_all s C (vset C) (velt C v) (vlen C v) t0)).
  { intros k st Hk Ha. unfold read_vec_view, write_vec in *.
    set (Z1 := rseq _ _).
    assert (Y : consumes fuel (fun k => stops C (s_rparen s ++ k)) (write_code s (T_ "V") ++
       write_size s (Z.of_nat (vlen C v)) ++ (s_lparen s ++ sep_values s C (vlen C v) (velt C v) ++ s_rparen s))
       Z1 t0 tt (store_all s C (vset C) (velt C v) (vlen C v) t0)).
    { unfold Z1. unfold rseq at 1.
      eapply consumes_bind with (P' := always); [apply must_ok, read_code_ok| |intros; exact I].
      eapply consumes_bind with (P' := always); [apply must_size_ok, (read_size_ok fuel s C); exact Hs| |intros; exact I].
      replace (if writesize s then Z.of_nat (vlen C v) else Z.of_nat (vlen C t0)) with (Z.of_nat (vlen C v))
        by (destruct (writesize s); congruence).
      rewrite Hw, Z.eqb_refl. apply finish_read_ok; auto. }
    apply (Y k st Hk). exact Ha. }
  destruct (X rest (mkStream (write_vec s C v ++ rest) true) Hr) as (st' & E & A).
  { split; [reflexivity|]. split; [exact Hf|]. exists []. auto. }
  exists (store_all s C (vset C) (velt C v) (vlen C v) t0), st'. split; [exact E|].
  destruct (store_all_vset (velt C v) (vlen C v) t0) as (S1 & S2 & _).
  split; [congruence|]. split; auto.
Qed.

(** A view of another size. *)
Lemma read_view_size (v t0 : vec C) rest :
  starts_stop C (s_space s) -> writesize s = true -> vlen C t0 <> vlen C v ->
  (List.length (write_vec s C v ++ rest) < fuel)%nat ->
  exists st', read_vec_view fuel s C t0 (mkStream (write_vec s C v ++ rest) true) = Err t0 st'.
Proof.
  intros Hs Hw Hn Hf. unfold read_vec_view, write_vec in *.
  assert (A : at_text fuel (mkStream ((write_code s (T_ "V") ++ write_size s (Z.of_nat (vlen C v)) ++ s_lparen s ++
    wloop (vlen C v) 0 (fun i => (if Nat.ltb 0 i then s_space s else []) ++ write_value s C (velt C v i)) ++
    s_rparen s) ++ rest) true) ((write_code s (T_ "V") ++ write_size s (Z.of_nat (vlen C v)) ++ s_lparen s ++
    wloop (vlen C v) 0 (fun i => (if Nat.ltb 0 i then s_space s else []) ++ write_value s C (velt C v i)) ++
    s_rparen s) ++ rest)).
  { split; [reflexivity|]. split; [exact Hf|]. exists []. auto. }
  rewrite <- app_assoc in A at 2.
  destruct (must_ok fuel _ _ _ _ _ (read_code_ok fuel s t0 (T_ "V")) _ _ I A) as (st1 & E1 & A1).
  rewrite <- app_assoc in A1.
  destruct (must_size_ok fuel _ _ _ _ _ _
    (read_size_ok fuel s C t0 (Z.of_nat (vlen C t0)) (Z.of_nat (vlen C v)) Hs) _ _ I A1) as (st2 & E2 & A2).
  exists st2. unfold rseq, rbind. rewrite E1. rewrite E2. rewrite Hw.
  rewrite (proj2 (Z.eqb_neq _ _)) by lia. reflexivity.
Qed.
End V.

(** ** Integers as an element type (Vector<int>, Vector<ptrdiff_t>) *)
Definition int_codec : codec := {|
  cval := Z;
  cout := fun th x => if (0 <? th)%Z && (Z.abs x <? th)%Z then 0%Z else x;
  cprint := fun _ x => zprint x;
  cparse := zparse;
  ccont := fun _ => false
|}.
Lemma int_readable s (x : cval int_codec) : readable_value s int_codec x.
Proof.
  split; [apply zprint_head|]. intros k Hk. apply zparse_print. destruct k; simpl in *; tauto.
Qed.

(** ** When skipWhiteSpace stops *)
Lemma skip_fail f c : is_ws c = true -> skip_loop f (Some c) (mkStream [] false) = None.
Proof. intro H. induction f as [|f IH]; [reflexivity|]. cbn [skip_loop get_char okst]. rewrite H. exact IH. Qed.
Lemma skip_blank w : blank w = true -> forall f c, is_ws c = true ->
  skip_loop f (Some c) (mkStream w true) = None.
Proof.
  intro Hw. induction w as [|a w IH]; intros f c Hc; destruct f as [|f]; try reflexivity.
  - cbn [skip_loop get_char okst txt]. rewrite Hc. apply skip_fail, Hc.
  - simpl in Hw. apply andb_prop in Hw as [H1 H2]. cbn [skip_loop get_char okst txt]. rewrite H1. apply IH; auto.
Qed.
