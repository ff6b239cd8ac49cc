(** Round-trip reasoning for IO.v. *)
From Coq Require Import ZArith List Bool Ascii String Lia.
From Coq Require DecimalZ DecimalPos.
From Coq Require Import DecimalString.
From Verif Require Import IO.
Import ListNotations.

(** ** Whitespace *)
Lemma ltrim_split t : exists w, blank w = true /\ t = w ++ ltrim t.
Proof.
  induction t as [|c t [w [Hw E]]]; simpl.
  - exists []. auto.
  - destruct (is_ws c) eqn:Ec; [exists (c :: w); simpl; rewrite Ec, Hw; split; auto; f_equal; exact E|exists []; auto].
Qed.
Lemma ltrim_head t : match ltrim t with [] => True | c :: _ => is_ws c = false end.
Proof. induction t as [|c t IH]; simpl; auto. destruct (is_ws c) eqn:E; auto. Qed.
Lemma blank_app a b : blank (a ++ b) = blank a && blank b.
Proof. apply forallb_app. Qed.
Lemma blank_rev t : blank (rev t) = blank t.
Proof.
  induction t as [|c t IH]; simpl; auto. rewrite blank_app, IH. simpl. rewrite andb_true_r. apply andb_comm.
Qed.
Lemma ltrim_ends_nonws t c r : ltrim t = c :: r -> is_ws c = false.
Proof. intro E. pose proof (ltrim_head t) as H. rewrite E in H. exact H. Qed.

(** t = blank ++ trim t ++ blank, and trim t is empty or starts with non-blank. *)
Lemma trim_split t : exists w1 w2, blank w1 = true /\ blank w2 = true /\ t = w1 ++ trim t ++ w2.
Proof.
  destruct (ltrim_split t) as [w1 [H1 E1]]. destruct (ltrim_split (rev (ltrim t))) as [w2 [H2 E2]].
  exists w1, (rev w2). split; [auto|]. split; [rewrite blank_rev; auto|].
  unfold trim. rewrite <- rev_app_distr, <- E2, rev_involutive. exact E1.
Qed.
Lemma ltrim_app_blank t w : blank w = true -> ltrim (w ++ t) = ltrim t.
Proof. induction w as [|c w IH]; simpl; auto. intro H. apply andb_prop in H as [H1 H2]. rewrite H1. auto. Qed.
Lemma ltrim_last t : forall c r, rev t = c :: r -> is_ws c = false ->
  match rev (ltrim t) with [] => False | d :: _ => d = c end.
Proof.
  induction t as [|a t IH]; simpl; intros c r E Hc; [discriminate|].
  destruct (is_ws a) eqn:Ea.
  - destruct (rev t) as [|d q] eqn:Er; simpl in E.
    + inversion E; subst. congruence.
    + inversion E; subst. eapply IH; eauto.
  - simpl. rewrite E. reflexivity.
Qed.
Lemma trim_head t c r : trim t = c :: r -> is_ws c = false.
Proof.
  unfold trim. intro E.
  destruct (ltrim t) as [|a q] eqn:El; [discriminate|].
  pose proof (ltrim_ends_nonws _ _ _ El) as Ha.
  assert (R : rev (rev (a :: q)) = a :: q) by apply rev_involutive.
  pose proof (ltrim_last (rev (a :: q)) a q R Ha) as L. rewrite E in L. subst. exact Ha.
Qed.
Lemma trim_nil t : trim t = [] -> blank t = true.
Proof.
  intro E. destruct (trim_split t) as (w1 & w2 & H1 & H2 & H). rewrite H, E. simpl.
  rewrite blank_app, H1. exact H2.
Qed.

(** ** Integers *)
Lemma span_digits_app d k : forallb is_digit d = true ->
  (match k with [] => True | c :: _ => is_digit c = false end) -> span_digits (d ++ k) = (d, k).
Proof.
  induction d as [|c d IH]; simpl; intros H Hk.
  - destruct k as [|c k]; auto. simpl. rewrite Hk. reflexivity.
  - apply andb_prop in H as [H1 H2]. rewrite H1, IH; auto.
Qed.
Lemma digits_of_uint u : forallb is_digit (list_ascii_of_string (NilEmpty.string_of_uint u)) = true.
Proof. induction u; simpl; auto. Qed.
Lemma digits_of_uint0 u : forallb is_digit (list_ascii_of_string (NilZero.string_of_uint u)) = true.
Proof. unfold NilZero.string_of_uint. destruct u; try reflexivity; apply digits_of_uint. Qed.
Lemma uparse_print u k : u <> Decimal.Nil -> (match k with [] => True | c :: _ => is_digit c = false end) ->
  uparse (list_ascii_of_string (NilZero.string_of_uint u) ++ k) = Some (Z.of_uint u, k).
Proof.
  intros Hu Hk. unfold uparse. rewrite span_digits_app; auto using digits_of_uint0.
  rewrite string_of_list_ascii_of_string, NilZero.usu by auto. reflexivity.
Qed.
Lemma zuint_head u c r : list_ascii_of_string (NilZero.string_of_uint u) = c :: r -> is_digit c = true.
Proof. intro E. pose proof (digits_of_uint0 u) as H. rewrite E in H. simpl in H. apply andb_prop in H. tauto. Qed.
Lemma zuint_nonempty u : list_ascii_of_string (NilZero.string_of_uint u) <> [].
Proof. destruct u; discriminate. Qed.

Lemma to_uint_nonnil p : Pos.to_uint p <> Decimal.Nil.
Proof.
  intro E. pose proof (DecimalPos.Unsigned.of_to p) as H. rewrite E in H. discriminate.
Qed.

Lemma digit_not_sign c : is_digit c = true -> c <> "-"%char /\ c <> "+"%char /\ is_ws c = false.
Proof.
  intro H. repeat split; try (intros ->; discriminate H).
  unfold is_digit, is_ws in *. apply andb_prop in H as [H1 H2]. apply Nat.leb_le in H1, H2.
  cbv zeta. destruct (Nat.eqb_spec (nat_of_ascii c) 32); [lia|]. cbn [orb].
  apply andb_false_intro2, Nat.leb_gt. lia.
Qed.

Lemma zparse_digits t : (match t with [] => True | c :: _ => is_digit c = true end) -> zparse t = uparse t.
Proof.
  destruct t as [|c t]; [reflexivity|]. intro H. apply digit_not_sign in H as (H1 & H2 & _).
  unfold zparse. destruct c as [[] [] [] [] [] [] [] []]; try reflexivity; exfalso; auto.
Qed.

Lemma zparse_print z k : (match k with [] => True | c :: _ => is_digit c = false end) ->
  zparse (zprint z ++ k) = Some (z, k).
Proof.
  intro Hk. unfold zprint. pose proof (DecimalZ.of_to z) as R. destruct (Z.to_int z) as [u|u] eqn:E.
  - assert (Hu : u <> Decimal.Nil).
    { intros ->. destruct z; simpl in E; inversion E. eapply to_uint_nonnil; eauto. }
    change (NilZero.string_of_int (Decimal.Pos u)) with (NilZero.string_of_uint u).
    rewrite zparse_digits.
    + rewrite uparse_print by auto. simpl in R. rewrite R. reflexivity.
    + destruct (list_ascii_of_string (NilZero.string_of_uint u)) as [|c r] eqn:El.
      * destruct (zuint_nonempty _ El).
      * simpl. eapply zuint_head; eauto.
  - assert (Hu : u <> Decimal.Nil).
    { intros ->. destruct z; simpl in E; inversion E. eapply to_uint_nonnil; eauto. }
    change (list_ascii_of_string (NilZero.string_of_int (Decimal.Neg u)))
      with ("-"%char :: list_ascii_of_string (NilZero.string_of_uint u)).
    simpl. rewrite uparse_print by auto. simpl in R. rewrite R. reflexivity.
Qed.

Lemma zprint_head z : exists c r, zprint z = c :: r /\ is_ws c = false.
Proof.
  unfold zprint. destruct (Z.to_int z) as [u|u].
  - change (NilZero.string_of_int (Decimal.Pos u)) with (NilZero.string_of_uint u).
    destruct (list_ascii_of_string (NilZero.string_of_uint u)) as [|c r] eqn:El; [destruct (zuint_nonempty _ El)|].
    exists c, r. split; auto. apply digit_not_sign. eapply zuint_head; eauto.
  - do 2 eexists. split; [reflexivity|reflexivity].
Qed.

(** ** Streams positioned before a text *)
Section R.
Variable fuel : nat.
Variable s : style.
Variable C : codec.

Definition at_text (st : stream) (k : text) : Prop :=
  okst st = true /\ (List.length (txt st) < fuel)%nat /\ exists w, blank w = true /\ txt st = w ++ k.

(** k cannot continue a number. *)
Definition stops (k : text) : Prop :=
  match k with [] => True | c :: _ => is_digit c = false /\ ccont C c = false end.

(** p, reading into t, consumes exactly the text [u] (and white space before it),
    returns a and leaves t'; valid in front of every text satisfying P. *)
Definition consumes {T A} (P : text -> Prop) (u : text) (p : rd T A) (t : T) (a : A) (t' : T) : Prop :=
  forall k st, P k -> at_text st (u ++ k) -> exists st', p t st = Val a t' st' /\ at_text st' k.

Definition always (k : text) : Prop := True.

Lemma consumes_bind {T A B} (P P' : text -> Prop) u1 u2 (p : rd T A) (q : A -> rd T B) t a t' b t'' :
  consumes P' u1 p t a t' -> consumes P u2 (q a) t' b t'' ->
  (forall k, P k -> P' (u2 ++ k)) -> consumes P (u1 ++ u2) (rbind p q) t b t''.
Proof.
  intros Hp Hq HP k st Hk Hat. rewrite <- app_assoc in Hat.
  destruct (Hp (u2 ++ k) st (HP _ Hk) Hat) as (st1 & E1 & A1).
  destruct (Hq k st1 Hk A1) as (st2 & E2 & A2).
  exists st2. split; auto. unfold rbind. rewrite E1. exact E2.
Qed.
Lemma consumes_ret {T A} P (t : T) (a : A) : consumes P [] (rret a) t a t.
Proof. intros k st _ H. exists st. auto. Qed.
Lemma consumes_put {T} P (f : T -> T) t : consumes P [] (rput f) t tt (f t).
Proof. intros k st _ H. exists st. auto. Qed.
Lemma consumes_weaken {T A} (P P' : text -> Prop) u (p : rd T A) t a t' :
  (forall k, P k -> P' k) -> consumes P' u p t a t' -> consumes P u p t a t'.
Proof. intros H Hp k st Hk. apply Hp. auto. Qed.
Lemma consumes_eq {T A} P u u' (p : rd T A) t a t' :
  u = u' -> consumes P u' p t a t' -> consumes P u p t a t'.
Proof. intros ->. auto. Qed.

Lemma skip_loop_ok w k : blank w = true ->
  (match k with [] => False | c :: _ => is_ws c = false end) ->
  forall f c0, (List.length w < f)%nat ->
  skip_loop f c0 (mkStream (w ++ k) true) = Some (Some (mkStream k true)).
Proof.
  intros Hw Hk. induction w as [|a w IH]; intros f c0 Hf; destruct f as [|f]; simpl in Hf; try lia.
  - destruct k as [|c k]; [contradiction|]. simpl. rewrite Hk. reflexivity.
  - simpl in Hw. apply andb_prop in Hw as [H1 H2]. cbn [skip_loop get_char okst txt app].
    rewrite H1. apply IH; auto. lia.
Qed.

Lemma skip_ok {T} (t : T) st k : at_text st k ->
  (match k with [] => False | c :: _ => is_ws c = false end) ->
  skip_ws fuel t st = Val tt t (mkStream k true).
Proof.
  intros (Ho & Hl & w & Hw & Ht) Hk. unfold skip_ws. destruct st as [tx o]. cbn [okst txt] in *. subst.
  rewrite skip_loop_ok; auto. rewrite app_length in Hl. lia.
Qed.

Lemma get_n_ok a b : get_n (List.length a) (mkStream (a ++ b) true) = (a, mkStream b true).
Proof.
  induction a as [|c a IH]; simpl; auto. rewrite IH. reflexivity.
Qed.
Lemma text_eqb_refl a : text_eqb a a = true.
Proof. induction a; simpl; auto. rewrite Ascii.eqb_refl. auto. Qed.

Lemma at_good k : (List.length k < fuel)%nat -> at_text (mkStream k true) k.
Proof. intro H. split; [reflexivity|]. split; [exact H|]. exists []. auto. Qed.

Lemma read_str_ok {T} (t : T) str : consumes always str (read_str fuel (trim str)) t true t.
Proof.
  intros k st _ H. destruct (trim_split str) as (w1 & w2 & H1 & H2 & E).
  destruct (trim str) as [|c r] eqn:Et.
  - exists st. split; [reflexivity|]. destruct H as (Ho & Hl & w & Hw & Hx).
    split; [auto|]. split; [auto|]. exists (w ++ str). split.
    + rewrite blank_app, Hw. simpl. apply trim_nil, Et.
    + rewrite Hx, app_assoc. reflexivity.
  - assert (A : at_text st ((c :: r) ++ (w2 ++ k))).
    { destruct H as (Ho & Hl & w & Hw & Hx). split; [auto|]. split; [auto|]. exists (w ++ w1). split.
      - rewrite blank_app, Hw. auto.
      - rewrite Hx, E. rewrite !app_assoc. reflexivity. }
    pose proof (trim_head _ _ _ Et) as Hc.
    exists (mkStream (w2 ++ k) true). split.
    + unfold read_str, rbind. rewrite (skip_ok t st _ A Hc). rewrite get_n_ok, text_eqb_refl. reflexivity.
    + split; [reflexivity|]. split.
      * destruct A as (_ & Hl & w & _ & Hx). cbn [txt]. rewrite Hx in Hl.
        rewrite !app_length in *. lia.
      * exists w2. auto.
Qed.

Lemma must_ok {T} P u (p : rd T bool) t t' : consumes P u p t true t' -> consumes P u (must p) t tt t'.
Proof.
  intros H k st Hk Ha. destruct (H k st Hk Ha) as (st' & E & A). exists st'. split; auto.
  unfold must, rbind. rewrite E. reflexivity.
Qed.
Lemma must_size_ok {T} P u (p : rd T (option Z)) t n t' :
  consumes P u p t (Some n) t' -> consumes P u (must_size p) t n t'.
Proof.
  intros H k st Hk Ha. destruct (H k st Hk Ha) as (st' & E & A). exists st'. split; auto.
  unfold must_size, rbind. rewrite E. reflexivity.
Qed.

Lemma extract_ok {T A} (parse : text -> option (A * text)) (t : T) pr x :
  (exists c r, pr = c :: r /\ is_ws c = false) ->
  (forall k, stops k -> parse (pr ++ k) = Some (x, k)) ->
  consumes stops pr (rseq (skip_ws fuel) (extract parse)) t (Some x) t.
Proof.
  intros (c & r & Ep & Hc) Hx k st Hk Ha. subst pr.
  exists (mkStream k true). split.
  - unfold rseq, rbind. rewrite (skip_ok t st _ Ha Hc). unfold extract. cbn [okst txt].
    rewrite (Hx k Hk). reflexivity.
  - apply at_good. destruct Ha as (_ & Hl & w & _ & Ht). rewrite Ht in Hl. rewrite !app_length in Hl. lia.
Qed.

(** The style separates numbers from what follows. *)
Definition starts_stop (t : text) : Prop :=
  match t with [] => False | c :: _ => is_digit c = false /\ ccont C c = false end.
Lemma starts_stop_app t k : starts_stop t -> stops (t ++ k).
Proof. destruct t; simpl; [contradiction|auto]. Qed.

Lemma read_size_ok {T} (t : T) n0 n : starts_stop (s_space s) ->
  consumes always (write_size s n) (read_size fuel s n0) t (Some (if writesize s then n else n0)) t.
Proof.
  intro Hs. unfold write_size, read_size. destruct (writesize s); [|apply consumes_ret].
  intros k st Hk Ha. rewrite <- app_assoc in Ha.
  assert (X : consumes stops (zprint n) (rseq (skip_ws fuel) (extract zparse)) t (Some n) t).
  { apply extract_ok; [apply zprint_head|]. intros q Hq. apply zparse_print. destruct q; simpl in *; tauto. }
  destruct (X (s_space s ++ k) st (starts_stop_app _ _ Hs) Ha) as (st1 & E1 & A1).
  destruct (read_str_ok t (s_space s) k st1 I A1) as (st2 & E2 & A2).
  exists st2. split; auto. unfold rseq, rbind in *.
  destruct (skip_ws fuel t st); try discriminate. rewrite E1.
  unfold read_space. rewrite E2. reflexivity.
Qed.

Lemma read_code_ok {T} (t : T) code :
  consumes always (write_code s code) (read_code fuel s code) t true t.
Proof.
  unfold write_code, read_code. destruct (usecode s); [|apply consumes_ret].
  eapply consumes_bind; [apply read_str_ok| |intros; exact I]. apply read_str_ok.
Qed.

(** What the element type must satisfy for the values written. *)
Definition readable_value (x : cval C) : Prop :=
  (exists c r, write_value s C x = c :: r /\ is_ws c = false) /\
  (forall k, stops k -> cparse C (write_value s C x ++ k) = Some (cout C (s_thresh s) x, k)).

Lemma must_value_ok {T} (t : T) x : readable_value x ->
  consumes stops (write_value s C x) (must_value fuel C) t (cout C (s_thresh s) x) t.
Proof.
  intros [H1 H2] k st Hk Ha.
  destruct (extract_ok (cparse C) t _ _ H1 H2 k st Hk Ha) as (st' & E & A).
  exists st'. split; auto. unfold must_value, rbind, read_value. rewrite E. reflexivity.
Qed.

(** Loops.  Iteration i needs what follows it to satisfy [Pi i]. *)
Lemma rloop_ok {T} (P : text -> Prop) (Pi : nat -> text -> Prop) (body : nat -> rd T unit)
  (w : nat -> text) (I : nat -> T) n : forall lo,
  (forall i, lo <= i < lo + n -> consumes (Pi i) (w i) (body i) (I i) tt (I (S i)))%nat ->
  (forall i k, (lo <= i /\ S i < lo + n)%nat -> Pi i (w (S i) ++ k)) ->
  (forall i k, (lo <= i /\ S i = lo + n)%nat -> P k -> Pi i k) ->
  consumes P (wloop n lo w) (rloop n lo body) (I lo) tt (I (lo + n)%nat).
Proof.
  induction n as [|n IH]; intros lo Hb HP Hl; simpl.
  - rewrite Nat.add_0_r. apply consumes_ret.
  - apply consumes_bind with (P' := Pi lo) (a := tt) (t' := I (S lo)).
    + apply Hb. lia.
    + replace (lo + S n)%nat with (S lo + n)%nat by lia. apply IH; auto.
      * intros i Hi. apply Hb. lia.
      * intros i k Hi. apply HP. lia.
      * intros i k Hi. apply Hl. lia.
    + intros k Hk. destruct n as [|n]; simpl.
      * apply Hl; auto. lia.
      * rewrite <- app_assoc. apply HP. lia.
Qed.

(** A row of values separated by [space], each stored by [store i]. *)
Definition sep_values (n : nat) (f : nat -> cval C) : text :=
  wloop n 0 (fun i => (if Nat.ltb 0 i then s_space s else []) ++ write_value s C (f i)).
Definition read_values {T} (n : nat) (store : nat -> cval C -> T -> T) : rd T unit :=
  rloop n 0 (fun i =>
     rseq (if Nat.ltb 0 i then must (read_space fuel s) else rret tt)
     (rbind (must_value fuel C) (fun x => rput (store i x)))).
Fixpoint store_all {T} (store : nat -> cval C -> T -> T) (f : nat -> cval C) (n : nat) (t : T) : T :=
  match n with O => t | S k => store k (cout C (s_thresh s) (f k)) (store_all store f k t) end.

Lemma read_values_ok {T} n (store : nat -> cval C -> T -> T) f (t : T) :
  starts_stop (s_space s) -> (forall i, (i < n)%nat -> readable_value (f i)) ->
  consumes stops (sep_values n f) (read_values n store) t tt (store_all store f n t).
Proof.
  intros Hs Hv. unfold sep_values, read_values.
  change (store_all store f n t) with ((fun i => store_all store f i t) (0 + n)%nat).
  change t with ((fun i => store_all store f i t) 0%nat) at 1.
  apply rloop_ok with (Pi := fun _ => stops).
  - intros i Hi. unfold rseq. apply consumes_bind with (P' := always) (a := tt) (t' := store_all store f i t).
    + destruct (Nat.ltb 0 i); [|apply consumes_ret]. apply must_ok, read_str_ok.
    + rewrite <- (app_nil_r (write_value s C (f i))).
      eapply consumes_bind with (P' := stops); [apply must_value_ok, Hv; lia| |intros k Hk; exact Hk].
      cbn [store_all]. apply (consumes_put stops (store i (cout C (s_thresh s) (f i)))).
    + intros; exact I.
  - intros i k Hi. cbn [Nat.ltb Nat.leb]. rewrite <- app_assoc. apply starts_stop_app, Hs.
  - auto.
Qed.
End R.
